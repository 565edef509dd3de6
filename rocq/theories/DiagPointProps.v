(** C123: diagnostics evaluated point by point. *)
From Coq Require Import Reals Lra Lia List String.
Import ListNotations.
From Verif Require Import Base Vec Thermo ThermoProps Compressible Diagnostics DiagPoint.
Open Scope R_scope.

(** The temperature is the dry potential temperature times the Exner pressure, and pressure, density, temperature and humidity obey the gas law of moist air. *)
Theorem thermodynamic_diagnostics_consistent : forall P s, admissible P -> 0 < a_rho s -> 0 < a_theta s -> 0 <= a_rv s ->
  temperature_at P s = theta_d_at P s * exner_at P s /\
  pressure_at P s = a_rho s * (R_d P + a_rv s * R_v P) * temperature_at P s.
Proof.
  intros P s A Hr Ht Hv. pose proof (ad_Rd P A). pose proof (ad_Rv P A). assert (0 <= a_rv s * R_v P) by (apply Rmult_le_pos; lra). split.
  - unfold temperature_at, theta_d_at, T_of. field. split; lra.
  - unfold pressure_at, temperature_at, exner_at. rewrite (ideal_gas_moist P A _ _ (a_rv s) Hr Ht Hv). field. lra.
Qed.

(** The water species: vapour is the sum of the gases, liquid that of the liquids, total that of all water, other tracers do not count; water that is not
    given as a mixing ratio is refused. *)
Definition sum_of (p : ctracer -> bool) (ts : list (ctracer * R)) : R := fold_right (fun tv s => if p (fst tv) then snd tv + s else s) 0 ts.
Definition gas_water t := tr_H2O t && phase_eqb (tr_phase t) Gas.
Definition liquid_water t := tr_H2O t && phase_eqb (tr_phase t) Liquid.
Theorem water_sums_value : forall ts,
  ((forall t v, In (t, v) ts -> tr_H2O t = true -> tr_mixing t = true) -> water_sums ts = Ok (sum_of gas_water ts, sum_of liquid_water ts, sum_of tr_H2O ts)) /\
  ((exists t v, In (t, v) ts /\ tr_H2O t = true /\ tr_mixing t = false) -> water_sums ts = Err NotImplementedError) /\
  ((forall t v, In (t, v) ts -> 0 <= v) -> sum_of gas_water ts + sum_of liquid_water ts <= sum_of tr_H2O ts).
Proof.
  intros ts. unfold water_sums. set (step := fun (acc : res (R * R * R)) (tv : ctracer * R) => _).
  assert (S1 : forall ts a b c, (forall t v, In (t, v) ts -> tr_H2O t = true -> tr_mixing t = true) -> fold_left step ts (Ok (a, b, c)) = Ok (a + sum_of gas_water ts, b + sum_of liquid_water ts, c + sum_of tr_H2O ts)).
  { clear ts. induction ts as [|[t v] ts IH]; intros a b c Hm; [cbn; rewrite !Rplus_0_r; reflexivity|]. cbn [fold_left]. specialize (Hm t v (or_introl eq_refl)) as Hm0.
    assert (Hm1 : forall t v, In (t, v) ts -> tr_H2O t = true -> tr_mixing t = true) by (intros; eapply Hm; [right; eassumption|assumption]).
    unfold step at 2. cbn [bind]. unfold sum_of, gas_water, liquid_water. cbn [fold_right fst snd]. fold (sum_of gas_water ts) (sum_of liquid_water ts) (sum_of tr_H2O ts).
    destruct (tr_H2O t); cbn [andb].
    - rewrite (Hm0 eq_refl). cbn [negb]. destruct (tr_phase t); cbn [phase_eqb]; rewrite IH by exact Hm1; rewrite ?Rplus_assoc; reflexivity.
    - rewrite IH by exact Hm1. reflexivity. }
  split; [intros Hm; rewrite S1 by exact Hm; rewrite !Rplus_0_l; reflexivity|]. split.
  - assert (SE : forall ts e, fold_left step ts (Err e) = Err e) by (induction ts0 as [|x l IH]; intros e; [reflexivity|apply IH]).
    intros Hx. assert (S2 : forall ts a, (exists t v, In (t, v) ts /\ tr_H2O t = true /\ tr_mixing t = false) -> fold_left step ts (Ok a) = Err NotImplementedError).
    { clear ts Hx. induction ts as [|[t v] ts IH]; intros [[a b] c] (t' & v' & Hin & H1 & H2); [destruct Hin|]. cbn [fold_left]. destruct Hin as [E|Hin].
      - injection E as -> ->. unfold step at 2. cbn [bind]. rewrite H1, H2. cbn [negb]. apply SE.
      - unfold step at 2. cbn [bind]. destruct (tr_H2O t); [|apply IH; exists t', v'; auto]. destruct (negb (tr_mixing t)) eqn:N; [apply SE|]. destruct (tr_phase t); apply IH; exists t', v'; auto. }
    apply S2. exact Hx.
  - intros Hp. induction ts as [|[t v] ts IH]; [cbn; lra|]. specialize (IH (fun t v Hi => Hp t v (or_intror Hi))). specialize (Hp t v (or_introl eq_refl)).
    unfold sum_of, gas_water, liquid_water in *. cbn [fold_right fst snd]. destruct (tr_H2O t); cbn [andb]; [destruct (tr_phase t); cbn [phase_eqb]|]; lra.
Qed.

(** Vapour and cloud are a partition of the total moisture: they add up to it, vapour does not exceed saturation, and there is cloud only in saturated air. *)
Theorem moisture_partition : forall q_t q_sat, let v := partitioned_vapour q_t q_sat in let c := partitioned_cloud q_t q_sat in
  v + c = q_t /\ v <= q_sat /\ 0 <= c /\ (0 < c -> v = q_sat) /\ (0 <= q_t -> 0 <= q_sat -> 0 <= v).
Proof. intros q_t q_sat v c. unfold v, c, partitioned_cloud, partitioned_vapour. destruct (Rlt_dec q_t q_sat); repeat split; intros; lra. Qed.

(** Cartesian components, in domains that are not spherical shells: the x, y and z components are the coordinates, z the last one, and together they are the field;
    refused are exactly y in an interval or vertical slice and z in an interval or plane. *)
Lemma dot_zeros u n : dot_list u (repeat 0 n) = 0.
Proof. revert n. induction u as [|a u IH]; intros [|n]; cbn; try reflexivity. rewrite IH. ring. Qed.
Theorem components_are_coordinates : forall extruded geometric topological ty, domain_type_of false extruded geometric topological = Ok ty -> forall u, List.length u = geometric ->
  component_of ty topological AxisX u = Ok (nth 0 u 0) /\
  component_of ty topological AxisY u = (if (Nat.ltb geometric 2) || (extruded && Nat.eqb geometric 2) then Err AssertionError else Ok (nth 1 u 0)) /\
  component_of ty topological AxisZ u = (if extruded && negb (Nat.eqb geometric 1) then Ok (last u 0) else Err AssertionError).
Proof.
  intros extruded g t ty E u Hu. unfold domain_type_of in E. cbn [andb] in E.
  destruct g as [|[|[|[|g]]]]; try discriminate; destruct t as [|[|[|[|t]]]]; cbn in E; try discriminate;
  destruct extruded; cbn in E; try discriminate; injection E as <-;
  destruct u as [|a [|b [|c [|d u]]]]; try discriminate; unfold component_of; cbn; repeat split; f_equal; ring.
Qed.
(** Kinetic energy is half the sum of the squares of the components (times the factor). *)
Theorem kinetic_energy_value : forall factor u, kinetic factor u = 1/2 * match factor with Some f => f | None => 1 end * dot_list u u /\ 0 <= kinetic None u /\ (kinetic None u = 0 -> Forall (fun a => a = 0) u).
Proof.
  intros factor u. assert (E : forall u, fold_right (fun a s => a * a + s) 0 u = dot_list u u) by (induction u0 as [|a v IH]; cbn; [reflexivity|rewrite IH; reflexivity]).
  assert (N : forall u, 0 <= dot_list u u) by (induction u0 as [|a v IH]; cbn; [lra|pose proof (Rle_0_sqr a); unfold Rsqr in *; lra]).
  unfold kinetic. rewrite E. split; [destruct factor; ring|]. split; [pose proof (N u); lra|]. intros H0. assert (Z : dot_list u u = 0) by lra. clear - Z N.
  induction u as [|a u IH]; constructor; cbn in Z; pose proof (N u); pose proof (Rle_0_sqr a); unfold Rsqr in *; [apply Rsqr_0_uniq; unfold Rsqr; lra|apply IH; lra].
Qed.
(** The energies of moist air are those of air of the density of dry air and water together; lifting the air by h takes the work weight times h, and the
    shallow water potential energy is the work of filling a column from zero depth: a thin layer on top of depth D is lifted by D. *)
Theorem energies_consistent : forall rho r_t g u z h D,
  moist_kinetic rho r_t u = kinetic (Some (rho + r_t * rho)) u /\
  moist_potential rho r_t g (z + h) - moist_potential rho r_t g z = (rho + r_t * rho) * g * h /\ moist_potential rho r_t g 0 = 0 /\
  sw_potential g 0 = 0 /\ derivable_pt_lim (sw_potential g) D (g * D).
Proof.
  intros. unfold moist_kinetic, kinetic, moist_potential. split; [ring|]. split; [ring|]. split; [ring|]. split; [unfold sw_potential; ring|].
  unfold sw_potential. replace (g * D) with (1/2 * g * (INR 2 * D ^ Nat.pred 2)) by (cbn; field).
  apply (derivable_pt_lim_scal (fun D => D ^ 2) (1/2 * g) D). apply derivable_pt_lim_pow.
Qed.
(** Refuted: on a spherical shell (the two-dimensional surface) no Cartesian component can be computed, since the unit vector has as many entries as the topological dimension. *)
Theorem components_on_sphere_refuted : forall a u, List.length u = 3%nat -> domain_type_of true false 3 2 = Ok "spherical_shell"%string /\ component_of "spherical_shell" 2 a u = Err ValueError.
Proof. intros a u Hu. split; [reflexivity|]. unfold component_of. destruct a; cbn; rewrite Hu; reflexivity. Qed.
Example water_example : let t ph := {| tr_H2O := true; tr_mixing := true; tr_phase := ph; tr_of := fun X => Equations.f_q X |} in
  water_sums [(t Gas, 1); (t Liquid, 2); (t Liquid, 3); (t Solid, 4)] = Ok (1, 5, 10).
Proof. cbv zeta. unfold water_sums. cbn. f_equal. f_equal; [f_equal|]; ring. Qed.

(** C115: the Courant number diagnostic measures how much of a cell is filled in a time step. *)
From Coq Require Import Qreals QArith Qround ZArith Lra Lia List String.
From Verif Require Import Base Vec Transport TransportProps CommonForms Equations Compressible DiagForms Subcycle SubcycleProps.
Open Scope R_scope.

(** ** Specification *)
(** the velocity u of the transport scheme (known by its normal components) and the velocity v of the diagnostic are the same at the facets *)
Definition same_velocity (G : geometry) (d : nat) (N : normals) (u : vfield) (v : facet_velocity) : Prop :=
  (forall f, (f < nfp G)%nat -> up u f = vdot d (fu_p v f) (n_p N f) /\ um u f = vdot d (fu_m v f) (n_m N f)) /\
  (forall b, (b < nbp G)%nat -> ub u b = vdot d (fu_b v b) (n_b N b)).
Definition positive_mesh (cells : nat) (G : geometry) (D : dg0_map) : Prop :=
  (forall f, (f < nfp G)%nat -> 0 <= fw G f) /\ (forall b, (b < nbp G)%nat -> 0 <= bw G b) /\ (forall e, (e < cells)%nat -> 0 < volume G D e).
Definition scaled_velocity (a : R) (v : facet_velocity) : facet_velocity :=
  {| fu_p := fun f i => a * fu_p v f i; fu_m := fun f i => a * fu_m v f i; fu_b := fun b i => a * fu_b v b i |}.

(** ** Proofs *)
Lemma vdot_opp d a b : vdot d (fun i => - a i) b = - vdot d a b.
Proof. unfold vdot. rewrite (rsum_ext d _ (fun i => -1 * (a i * b i))) by (intros; ring). rewrite rsum_scal. ring. Qed.
Lemma vdot_plus d a b c : vdot d (fun i => a i + b i) c = vdot d a c + vdot d b c.
Proof. unfold vdot. rewrite <- rsum_add. apply rsum_ext. intros; ring. Qed.
Lemma vdot_scale d s a c : vdot d (fun i => s * a i) c = s * vdot d a c.
Proof. unfold vdot. rewrite <- rsum_scal. apply rsum_ext. intros; ring. Qed.
Lemma vdot_ext d a b c : (forall i, a i = b i) -> vdot d a c = vdot d b c.
Proof. intros H. unfold vdot. apply rsum_ext. intros; rewrite H; reflexivity. Qed.
Lemma inward_un d u n : inward d u n = un (- vdot d u n).
Proof. unfold inward, un. rewrite vdot_opp. reflexivity. Qed.
Lemma un_nonneg a : 0 <= un a. Proof. unfold un, Rabs. destruct (Rcase_abs a); lra. Qed.
Lemma un_sub a b : un (a + b) <= un a + un b.
Proof. unfold un, Rabs. destruct (Rcase_abs (a + b)), (Rcase_abs a), (Rcase_abs b); lra. Qed.
Lemma un_scale s a : 0 <= s -> un (s * a) = s * un a.
Proof. intros H. unfold un. rewrite Rabs_mult, (Rabs_right s) by lra. ring. Qed.
Lemma whole_parts d k u i : of_component d k Whole u i = of_component d k Horizontal u i + of_component d k Vertical u i.
Proof. cbn. ring. Qed.
Lemma inward_parts d k u n : inward d (of_component d k Whole u) n <= inward d (of_component d k Horizontal u) n + inward d (of_component d k Vertical u) n.
Proof.
  rewrite !inward_un. rewrite (vdot_ext d (of_component d k Whole u) (fun i => of_component d k Horizontal u i + of_component d k Vertical u i) n) by (intros; apply whole_parts).
  rewrite vdot_plus, Ropp_plus_distr. apply un_sub.
Qed.

(** ** C115 *)
(** The Courant number of a cell is the volume flowing into it during a step, over the volume of the cell. *)
Theorem courant_is_fraction_filled : forall G d D N k u v dt e,
  same_velocity G d N u v -> normal_continuous G u -> no_normal_flow G u ->
  courant_number G d D N k Whole v dt e = dt * inflow G D u e / volume G D e.
Proof.
  intros G d D N k u v dt e [HF HB] Hc Hn. unfold courant_number, volume, Rdiv. f_equal. rewrite (Rmult_comm dt). f_equal.
  unfold cell_flux_form, inflow. replace (ds_ G _) with 0.
  - rewrite Rplus_0_r. unfold dS_. apply rsum_ext. intros f Hf. destruct (HF f Hf) as [A B]. rewrite !inward_un. cbn [of_component dg0 sp sm].
    change (of_component d k Whole (fu_p v f)) with (fu_p v f). change (of_component d k Whole (fu_m v f)) with (fu_m v f). rewrite <- A, <- B. specialize (Hc f Hf).
    replace (- up u f) with (um u f) by lra. replace (- um u f) with (up u f) by lra. f_equal. field.
  - symmetry. unfold ds_. apply rsum_0. intros b Hb. rewrite inward_un. change (of_component d k Whole (fu_b v b)) with (fu_b v b). rewrite <- (HB b Hb), (Hn b Hb).
    unfold un. rewrite Ropp_0, Rabs_R0. ring.
Qed.
(** So if no Courant number exceeds one, a forward Euler step of the upwind transport of cellwise constants creates no new extrema. *)
Theorem courant_below_one_keeps_bounds : forall cells_ G d D N k u v dt x y lo hi,
  cells cells_ G D -> same_velocity G d N u v -> normal_continuous G u -> no_normal_flow G u ->
  (forall c, (c < cells_)%nat -> divergence_theorem G d (dg0 D (indicator c)) u) -> 0 <= dt ->
  (forall e, (e < cells_)%nat -> courant_number G d D N k Whole v dt e <= 1) ->
  euler_step cells_ (fun t q => upwind_advection_form G d Once false t q u) G D dt x y ->
  (forall c, (c < cells_)%nat -> lo <= x c <= hi) -> forall c, (c < cells_)%nat -> lo <= y c <= hi.
Proof.
  intros cells_ G d D N k u v dt x y lo hi HC HS Hc Hn Hd Hdt HCFL HE Hx. apply (dg0_advection_max_principle cells_ G D d u dt x y lo hi); try assumption.
  intros c Hcc. specialize (HCFL c Hcc). rewrite (courant_is_fraction_filled G d D N k u v dt c HS Hc Hn) in HCFL. destruct HC as [_ HV]. specialize (HV c Hcc).
  apply (Rmult_le_compat_r (volume G D c)) in HCFL; [|lra]. replace (dt * inflow G D u c / volume G D c * volume G D c) with (dt * inflow G D u c) in HCFL by (field; lra). lra.
Qed.
(** Adaptive subcycling with a target of at most one, driven by a number at least as large as every Courant number, keeps the bounds as well,
    however large the Courant numbers are. *)
Theorem adaptive_subcycling_keeps_bounds : forall cells_ G d D N k u v (dt courant target : Q) n (xs : nat -> nat -> R) lo hi,
  cells cells_ G D -> same_velocity G d N u v -> normal_continuous G u -> no_normal_flow G u ->
  (forall c, (c < cells_)%nat -> divergence_theorem G d (dg0 D (indicator c)) u) ->
  (0 <= dt)%Q -> (0 < target)%Q -> (target <= 1)%Q ->
  (forall e, (e < cells_)%nat -> courant_number G d D N k Whole v (Q2R dt) e <= Q2R courant) ->
  ncycles_adaptive courant target None = Ok n ->
  (forall j, (j < Z.to_nat n)%nat -> euler_step cells_ (fun t q => upwind_advection_form G d Once false t q u) G D (Q2R dt / IZR n) (xs j) (xs (S j))) ->
  (forall c, (c < cells_)%nat -> lo <= xs 0%nat c <= hi) -> forall j, (j <= Z.to_nat n)%nat -> forall c, (c < cells_)%nat -> lo <= xs j c <= hi.
Proof.
  intros cells_ G d D N k u v dt courant target n xs lo hi HC HS Hc Hn Hd Hdt HT HT1 HCn Hncy HE H0.
  destruct (adaptive_subcycles_least courant target None n HT Hncy ltac:(discriminate)) as (N1 & N2 & _).
  assert (Hn0 : 0 < IZR n) by (apply IZR_lt; lia).
  assert (Hq : Q2R courant / IZR n <= 1).
  { apply Qle_Rle in N2, HT1. rewrite Q2R_div in N2 by (intros E; unfold Qeq in E; cbn in E; lia). replace (Q2R (inject_Z n)) with (IZR n) in N2 by (unfold Q2R, inject_Z; cbn; field).
    replace (Q2R 1) with 1 in HT1 by (unfold Q2R; cbn; field). lra. }
  assert (Hdt' : 0 <= Q2R dt / IZR n).
  { apply Qle_Rle in Hdt. replace (Q2R 0) with 0 in Hdt by (unfold Q2R; cbn; field). apply Rmult_le_pos; [exact Hdt|]. left. apply Rinv_0_lt_compat. exact Hn0. }
  induction j as [|j IH]; intros Hj; [exact H0|]. specialize (IH ltac:(lia)).
  apply (courant_below_one_keeps_bounds cells_ G d D N k u v (Q2R dt / IZR n) (xs j) (xs (S j))); try assumption; [|apply HE; lia].
  intros e He. specialize (HCn e He). rewrite (courant_is_fraction_filled G d D N k u v _ e HS Hc Hn) in HCn. rewrite (courant_is_fraction_filled G d D N k u v _ e HS Hc Hn).
  destruct HC as [_ HV]. specialize (HV e He).
  replace (Q2R dt / IZR n * inflow G D u e / volume G D e) with ((Q2R dt * inflow G D u e / volume G D e) * / IZR n) by (field; lra).
  eapply Rle_trans; [apply Rmult_le_compat_r; [left; apply Rinv_0_lt_compat, Hn0|exact HCn]|]. exact Hq.
Qed.
(** Courant numbers are not negative, are proportional to the time step and the speed, and that of the whole velocity is at most the sum
    of the horizontal and the vertical one. *)
Theorem courant_components : forall cells_ G d D N k v dt e, positive_mesh cells_ G D -> (e < cells_)%nat -> 0 <= dt ->
  (forall c, 0 <= courant_number G d D N k c v dt e) /\
  courant_number G d D N k Whole v dt e <= courant_number G d D N k Horizontal v dt e + courant_number G d D N k Vertical v dt e /\
  (forall c a, 0 <= a -> courant_number G d D N k c (scaled_velocity a v) dt e = a * courant_number G d D N k c v dt e /\
                         courant_number G d D N k c v (a * dt) e = a * courant_number G d D N k c v dt e).
Proof.
  intros cells_ G d D N k v dt e (Hf & Hb & HV) He Hdt. specialize (HV e He). unfold volume in HV. unfold courant_number. set (V := dx G _) in *.
  assert (Hi : 0 < / V) by (apply Rinv_0_lt_compat; exact HV).
  assert (I : forall c', 0 <= indicator e c') by (intros; unfold indicator; destruct (Nat.eqb _ _); lra).
  split; [|split].
  - intros c. apply Rmult_le_pos; [|lra]. apply Rmult_le_pos; [|exact Hdt]. unfold cell_flux_form, dS_, ds_. apply Rplus_le_le_0_compat; apply wsum_nonneg; intros f F.
    + split; [apply Hf; exact F|]. rewrite !inward_un. cbn [dg0 sp sm]. pose proof (I (plus_of D f)). pose proof (I (minus_of D f)).
      pose proof (un_nonneg (- vdot d (of_component d k c (fu_p v f)) (n_p N f))). pose proof (un_nonneg (- vdot d (of_component d k c (fu_m v f)) (n_m N f))).
      pose proof (Rmult_le_pos _ _ H1 H). pose proof (Rmult_le_pos _ _ H2 H0). lra.
    + split; [apply Hb; exact F|]. rewrite inward_un. cbn [dg0 sb]. apply Rmult_le_pos; [apply un_nonneg|apply I].
  - unfold Rdiv. rewrite <- Rmult_plus_distr_r. apply Rmult_le_compat_r; [lra|]. rewrite <- Rmult_plus_distr_r. apply Rmult_le_compat_r; [exact Hdt|].
    unfold cell_flux_form, dS_, ds_. match goal with |- ?a + ?b <= ?c + ?d0 + (?e0 + ?f) => replace (c + d0 + (e0 + f)) with ((c + e0) + (d0 + f)) by ring end.
    rewrite <- !rsum_add. apply Rplus_le_compat.
    + rewrite (rsum_ext _ (fun k0 => _ + _) (fun f => fw G f * (2 * (1 / 2 * (inward d (of_component d k Horizontal (fu_p v f)) (n_p N f) * sp (dg0 D (indicator e)) f + inward d (of_component d k Horizontal (fu_m v f)) (n_m N f) * sm (dg0 D (indicator e)) f))
        + 2 * (1 / 2 * (inward d (of_component d k Vertical (fu_p v f)) (n_p N f) * sp (dg0 D (indicator e)) f + inward d (of_component d k Vertical (fu_m v f)) (n_m N f) * sm (dg0 D (indicator e)) f))))) by (intros; ring).
      apply wsum_le. intros f F. split; [apply Hf; exact F|]. cbn [dg0 sp sm]. pose proof (I (plus_of D f)). pose proof (I (minus_of D f)).
      pose proof (Rmult_le_compat_r _ _ _ H (inward_parts d k (fu_p v f) (n_p N f))). pose proof (Rmult_le_compat_r _ _ _ H0 (inward_parts d k (fu_m v f) (n_m N f))). lra.
    + rewrite (rsum_ext _ (fun k0 => _ + _) (fun f => bw G f * (inward d (of_component d k Horizontal (fu_b v f)) (n_b N f) * sb (dg0 D (indicator e)) f + inward d (of_component d k Vertical (fu_b v f)) (n_b N f) * sb (dg0 D (indicator e)) f))) by (intros; ring).
      apply wsum_le. intros f F. split; [apply Hb; exact F|]. cbn [dg0 sb]. pose proof (I (bdry_of D f)).
      pose proof (Rmult_le_compat_r _ _ _ H (inward_parts d k (fu_b v f) (n_b N f))). lra.
  - intros c a Ha. split; [|field; lra].
    replace (cell_flux_form G d N k c (scaled_velocity a v) (dg0 D (indicator e))) with (a * cell_flux_form G d N k c v (dg0 D (indicator e))); [field; lra|].
    assert (S : forall w n, inward d (of_component d k c (fun i => a * w i)) n = a * inward d (of_component d k c w) n).
    { intros w n. rewrite !inward_un. rewrite (vdot_ext d (of_component d k c (fun i => a * w i)) (fun i => a * of_component d k c w i)).
      - rewrite vdot_scale. replace (- (a * vdot d (of_component d k c w) n)) with (a * - vdot d (of_component d k c w) n) by ring. apply un_scale. exact Ha.
      - intros i. destruct c; cbn; rewrite ?vdot_scale; ring. }
    unfold cell_flux_form, dS_, ds_. rewrite Rmult_plus_distr_l, <- !rsum_scal. f_equal; apply rsum_ext; intros f F; cbn [scaled_velocity fu_p fu_m fu_b]; rewrite !S; ring.
Qed.
(** The names of the diagnostics: of a field, different components have different names; of an expression, they have the same name. *)
Theorem courant_names_refuted : forall n c, courant_name None (Some n) c = courant_name None (Some n) Whole.
Proof. reflexivity. Qed.
Theorem courant_names_of_fields : forall v n c c' s, courant_name (Some v) n c = Ok s -> courant_name (Some v) n c' = Ok s -> c = c'.
Proof.
  intros v n c c' s H H'. unfold courant_name in *. injection H as H. injection H' as H'. rewrite <- H' in H. clear H' s.
  set (b := if (v =? "u")%string then "CourantNumber"%string else ("CourantNumber_" ++ match n with None => v | Some n => n end)%string) in H.
  assert (L : forall x y, (b ++ x = b ++ y)%string -> x = y) by (clear; induction b as [|a b IH]; cbn; intros x y E; [exact E|]; injection E as E; apply IH; exact E).
  apply L in H. destruct c, c'; try reflexivity; discriminate H.
Qed.
(** Example: the two unit cells of dg0_example with unit velocity between them: Courant numbers 0 and dt. *)
Example courant_example : let G := interval 1 1 in let D := interval_cells 1 in
  let u := hat_velocity 1 1 (fun i => match i with 1%nat => 1 | _ => 0 end) in
  let v := {| fu_p := fun _ _ => 1; fu_m := fun _ _ => 1; fu_b := fun _ _ => 0 |} in
  let N := {| n_p := fun _ _ => 1; n_m := fun _ _ => -1; n_b := fun b _ => match b with O => -1 | _ => 1 end |} in
  same_velocity G 1 N u v /\ positive_mesh 2 G D /\ forall k dt, courant_number G 1 D N k Whole v dt 0 = 0 /\ courant_number G 1 D N k Whole v dt 1 = dt.
Proof.
  cbv zeta. assert (S : same_velocity (interval 1 1) 1 {| n_p := fun _ _ => 1; n_m := fun _ _ => -1; n_b := fun b _ => match b with O => -1 | _ => 1 end |}
    (hat_velocity 1 1 (fun i => match i with 1%nat => 1 | _ => 0 end)) {| fu_p := fun _ _ => 1; fu_m := fun _ _ => 1; fu_b := fun _ _ => 0 |}).
  { split.
    - intros f Hf. cbn in Hf. destruct f as [|f]; [|lia]. unfold vdot. cbn. split; lra.
    - intros [|[|b]] Hb; cbn in Hb; try lia; unfold vdot; cbn; lra. }
  pose proof dg0_example as (C & Hc & Hn & _). split; [exact S|]. split.
  - destruct C as [C1 C2]. split; [intros f Hf; apply (C1 f Hf)|]. split; [|exact C2]. intros b _. cbn. lra.
  - intros k dt. assert (A0 : un (-(1)) = 0) by (unfold un; rewrite Rabs_Ropp, Rabs_R1; lra). assert (A1 : un 1 = 1) by (unfold un; rewrite Rabs_R1; lra).
    rewrite !(courant_is_fraction_filled _ _ _ _ k _ _ dt _ S Hc Hn). unfold inflow, volume, dx, dS_. cbn. rewrite A0, A1. split; field.
Qed.

(** Property C147, for tendencies that are regular only near the solution. *)
From Coq Require Import Lra Lia String.
From Verif Require Import Base Vec RKSpec RK RKFacts RKProps ThetaSpec Theta ThetaProps ConvergenceSpec ConvergenceFacts ConvergenceExact ConvergenceMain ConvergenceProps ConvergenceImplicitProps TimeVarying SplitOrderSpec SplitOrder SplitOrderFacts SplitOrderProps.
Open Scope R_scope.

(** no equation is solved: an explicit scheme, or a physics scheme of any kind (physics terms are evaluated, never solved for) *)
Definition sub_explicit (physics : bool) (sc : subscheme) : Prop :=
  match sc with ExplicitSub _ _ _ => True | ThetaSub _ => physics = true end.
Definition lower (T : rk) : Prop := forall i j, (i <= j)%nat -> ra T i j = 0.
Lemma tab_lower b sc : sub_explicit b sc -> lower (tab_of b sc).
Proof.
  destruct sc as [A s f|theta]; cbn [sub_explicit tab_of].
  - intros _ i j H. cbn [ra]. destruct (Nat.ltb_spec j i); [lia|reflexivity].
  - intros ->. intros i j H. reflexivity.
Qed.
Lemma append_no_implicit t q w T : lower T -> no_implicit (aa t) -> no_implicit (aa (append t (q, w, T))).
Proof.
  intros HT H r i j Hij. cbn [append aa]. destruct (Nat.ltb_spec i (sa t)), (Nat.ltb_spec j (sa t)); [apply H; exact Hij|reflexivity|lia|].
  destruct (Nat.eqb r q); [|reflexivity]. rewrite HT by lia. ring.
Qed.
Lemma compose_no_implicit l : (forall q w T, In (q, w, T) l -> lower T) -> forall t, no_implicit (aa t) -> no_implicit (aa (compose l t)).
Proof.
  induction l as [|[[q w] T] tl IH]; intros Hl t H; [exact H|]. cbn [compose fold_left]. apply (IH ltac:(intros q' w' T' Hi; apply (Hl q' w' T'); right; exact Hi)). apply append_no_implicit; [apply (Hl q w T); left; reflexivity|exact H].
Qed.
Lemma flat_lower {I} labels dyn_scheme (phys : list (subscheme * (vec I -> vec I))) all todo q v T :
  (forall l, In l labels -> sub_explicit false (dyn_scheme l)) -> (forall sc P, In (sc, P) phys -> sub_explicit true sc) -> (forall l w, In (l, w) todo -> l = "physics"%string \/ In l labels) ->
  In (q, v, T) (flat labels dyn_scheme phys all todo) -> lower T.
Proof.
  intros ed ep Hl H. unfold flat in H. apply in_flat_map in H. destruct H as ([l w] & Hi & H). unfold entries in H. cbn [fst snd] in H. destruct (String.eqb_spec l "physics") as [->|N].
  - apply (phys_entries_in [] all 1 (or_introl eq_refl) (fun _ _ h => match h with end)) in H. destruct H as (_ & sc & P & Hsc & ->). apply tab_lower. apply (ep sc P Hsc).
  - destruct (Hl l w Hi) as [E|Hin]; [contradiction|]. destruct H as [H|[]]. injection H as _ _ <-. apply tab_lower. apply ed. exact Hin.
Qed.

(** The error after n steps of size dt is at most C (initial error + dt^p), if the initial error is at most some e1. *)
Definition converges_nearby {I} (p : nat) (step : R -> vec I -> vec I -> Prop) (y : R -> vec I) (t0 T : R) : Prop :=
  exists C h0 e1, 0 <= C /\ 0 < h0 /\ 0 < e1 /\ forall dt n (x : nat -> vec I) e0, 0 < dt <= h0 -> t0 + INR n * dt <= T ->
  (forall k, (k < n)%nat -> step dt (x k) (x (S k))) -> 0 <= e0 <= e1 -> sup_le (x 0%nat -v y t0) e0 -> sup_le (x n -v y (t0 + INR n * dt)) (C * (e0 + dt ^ p)).

Lemma explicit_split_converges {I} p labels dyn_scheme (dyn : string -> vec I -> vec I) phys todo y t0 T L U : (p = 1 \/ p = 2)%nat ->
  finite_index I -> valid_splitting p labels dyn_scheme phys todo -> (p = 2%nat -> symmetric_splitting todo /\ (List.length phys <= 1)%nat) ->
  (forall l, In l labels -> sub_explicit false (dyn_scheme l)) -> (forall sc P, In (sc, P) phys -> sub_explicit true sc) ->
  (forall l, In l labels -> regular p (dyn l) y t0 T L U) -> (forall P, In P (map snd phys) -> regular p P y t0 T L U) -> 0 <= L -> neighbourhood y t0 T U ->
  solution_of (full_rhs labels dyn (map snd phys)) y t0 T -> converges_nearby p (split_step dyn_scheme dyn phys todo) y t0 T.
Proof.
  intros p12 fin V Hsym xd xp rd rp L0 nb sol. destruct V as [(ND & NP & Hl) wd wp sd sp ed' ep'].
  assert (ed : forall l w, In (l, w) todo -> l <> "physics"%string -> keeps_first_dt (dyn_scheme l) = true -> w = first_weight l todo) by (intros l w Hi N K; apply (ed' l w _ Hi (first_weight_in l w todo Hi) N (keeps_rebuilds _ K))).
  assert (ep : forall w sc P, In ("physics"%string, w) todo -> In (sc, P) phys -> keeps_first_dt sc = true -> w = first_weight "physics" todo) by (intros w sc P Hi Hs K; apply (ep' w _ sc P Hi (first_weight_in _ w todo Hi) Hs (keeps_rebuilds _ K))).
  set (F := parts labels dyn phys). set (m := mm labels phys). set (l := flat labels dyn_scheme phys todo todo).
  assert (HF : forall q, (q < m)%nat -> lipschitz L (F q) U /\ smooth p (F q) (along y t0 T)).
  { intros q Hq. assert (R : regular p (F q) y t0 T L U).
    { unfold F, parts. destruct (Nat.ltb_spec q (List.length labels)) as [A|A]; [apply rd; apply nth_In; exact A|]. apply rp. apply nth_In. unfold m, mm in Hq. rewrite map_length. lia. }
    destruct R as (R1 & _ & R3). split; assumption. }
  assert (sv : solves m F y t0 T).
  { intros t i Ht. replace (vsum m (fun q => F q (y t)) i) with (full_rhs labels dyn (map snd phys) (y t) i); [apply sol; exact Ht|]. unfold m, mm. rewrite vsum_split. unfold full_rhs. rewrite map_length. apply (f_equal (fun g : vec I => g i)). f_equal; apply vsum_ext; intros k Hk; unfold F, parts.
    - rewrite if_lt by exact Hk. reflexivity.
    - rewrite if_ge by lia. replace (List.length labels + k - List.length labels)%nat with k by lia. reflexivity. }
  assert (inl : forall q v U, In (q, v, U) l -> (q < m)%nat /\ rk1 U /\ rk_bounded U /\ (p = 2%nat -> rk2 U)) by (intros q v U' Hi; apply (flat_in labels dyn_scheme dyn phys todo p p12 sd sp todo q v U' Hl Hi)).
  destruct (compose_bounded l ltac:(intros [[q v] U'] Hi; apply (inl q v U' Hi)) empty_ark 0 ltac:(intros q i j; cbn; rewrite Rabs_R0; split; lra) ltac:(lra)) as (B & B0 & HB).
  set (t := compose l empty_ark) in *.
  assert (wq : forall q, (q < m)%nat -> wsum (pw l) q = 1).
  { intros q Hq. unfold l. rewrite (flat_weight labels dyn_scheme dyn phys todo p p12 sd sp ed ep todo q ltac:(intros z Hz; exact Hz) Hl ND NP Hq). destruct (Nat.ltb_spec q (List.length labels)) as [A|A]; [apply wd; apply nth_In; exact A|]. apply wp. intros E. unfold m, mm in Hq. rewrite E in Hq. cbn in Hq. lia. }
  assert (oW : forall q, (q < m)%nat -> W t q = 1).
  { intros q Hq. unfold t. rewrite compose_W by (intros [[q' v] U'] Hi; apply (inl q' v U' Hi)). rewrite wq by exact Hq. unfold W. cbn. ring. }
  assert (order : ark_order m (sa t) (aa t) (ab t) p 0).
  { split; [intros _ q Hq; apply near_0; [lra|apply oW; exact Hq]|]. split; [|split; intros; lia]. intros Hp2 q r Hq Hr. assert (E2 : p = 2%nat) by lia. destruct (Hsym E2) as [HS H1].
    apply near_0; [lra|]. change (D t q r = 1 / 2). unfold t. rewrite compose_D by (intros [[q' v] U'] Hi; destruct (inl q' v U' Hi) as (_ & O1 & _ & O2); split; [exact O1|apply O2; exact E2]).
    rewrite (dsum_ext (pw l) (W empty_ark) (fun _ => 0)) by reflexivity. rewrite dsum_symmetric; [unfold D; cbn; ring| |apply wq; exact Hq|apply wq; exact Hr].
    unfold l. rewrite (flat_rev labels dyn_scheme dyn phys todo p p12 sd sp ed ep todo ltac:(intros z Hz; exact Hz) H1). rewrite HS. reflexivity. }
  assert (low : no_implicit (aa t)) by (unfold t; apply compose_no_implicit; [intros q v T' Hi; apply (flat_lower labels dyn_scheme phys todo todo q v T' xd xp Hl Hi)|intros q i j _; reflexivity]).
  destruct (smooth_all p m F (along y t0 T) ltac:(intros q Hq; apply (HF q Hq))) as (D1 & D2 & D3 & M & r & r0 & M0 & sm').
  destruct (explicit_converges p m (sa t) F y t0 T B L U D1 D2 D3 M r fin ltac:(lia) r0 M0 B0 sm' sv ltac:(intros q Hq; apply (HF q Hq)) nb L0) as (C & h0 & e1 & HC & H0 & E1 & H).
  exists C, h0, e1. split; [exact HC|]. split; [exact H0|]. split; [exact E1|]. intros dt n x e0 Hdt Hn Hst He Hx.
  assert (En : forall n, rsum n (fun _ => dt) = INR n * dt) by (induction n0 as [|n0 IHn]; [cbn; ring|]; rewrite S_INR; cbn [rsum]; rewrite IHn; ring).
  rewrite <- En. replace (C * (e0 + dt ^ p)) with (C * (e0 + dt ^ p + 0)) by ring.
  apply (H (aa t) (ab t) 0 (fun _ => dt) dt n x e0); try assumption; try lra.
  - intros; lra.
  - rewrite En. exact Hn.
  - intros k Hk. unfold t. apply (chain_ark m F l ltac:(intros q v U' Hi; apply (inl q v U' Hi)) empty_ark dt (x k) (x k) (x (S k))); [apply empty_step|].
    apply (step_chain labels dyn_scheme dyn phys todo p p12 sd sp todo dt Hl). apply Hst. exact Hk.
Qed.

(** C147.  Explicit schemes: the tendencies need be regular only near the solution (nonlinear terms such as advection or rates that are quadratic in the fields). *)
Theorem explicit_split_steps_converge :
  forall (I : Type) labels dyn_scheme (dyn : string -> vec I -> vec I) phys todo y t0 T L U, finite_index I -> 0 <= L -> neighbourhood y t0 T U ->
  valid_splitting 1 labels dyn_scheme phys todo ->
  (forall l, In l labels -> sub_explicit false (dyn_scheme l)) -> (forall sc P, In (sc, P) phys -> sub_explicit true sc) ->
  (forall l, In l labels -> regular 1 (dyn l) y t0 T L U) -> (forall P, In P (map snd phys) -> regular 1 P y t0 T L U) ->
  solution_of (full_rhs labels dyn (map snd phys)) y t0 T -> converges_nearby 1 (split_step dyn_scheme dyn phys todo) y t0 T.
Proof. intros I labels ds dyn phys todo y t0 T L U fin L0 nb V xd xp rd rp sol. apply (explicit_split_converges 1 labels ds dyn phys todo y t0 T L U); try assumption; [left; reflexivity|intros E; discriminate]. Qed.
Print Assumptions explicit_split_steps_converge.

Theorem explicit_strang_second_order :
  forall (I : Type) labels dyn_scheme (dyn : string -> vec I -> vec I) phys todo y t0 T L U, finite_index I -> 0 <= L -> neighbourhood y t0 T U ->
  valid_splitting 2 labels dyn_scheme phys todo -> symmetric_splitting todo -> (List.length phys <= 1)%nat ->
  (forall l, In l labels -> sub_explicit false (dyn_scheme l)) -> (forall sc P, In (sc, P) phys -> sub_explicit true sc) ->
  (forall l, In l labels -> regular 2 (dyn l) y t0 T L U) -> (forall P, In P (map snd phys) -> regular 2 P y t0 T L U) ->
  solution_of (full_rhs labels dyn (map snd phys)) y t0 T -> converges_nearby 2 (split_step dyn_scheme dyn phys todo) y t0 T.
Proof. intros I labels ds dyn phys todo y t0 T L U fin L0 nb V S1 S2 xd xp rd rp sol. apply (explicit_split_converges 2 labels ds dyn phys todo y t0 T L U); try assumption; [right; reflexivity|intros _; split; assumption]. Qed.
Print Assumptions explicit_strang_second_order.

(** ** The hypotheses are met by a nonlinear problem: y' = 2 y^2 - y^2 on [0, 1/2], split into growth and loss, neither of which is Lipschitz everywhere *)
Definition growth_loss (l : string) (v : vec unit) : vec unit := (if String.eqb l "growth" then 2 else -1) *v square v.
Lemma scaled_square_regular c : Rabs c <= 2 -> regular 2 (fun v => c *v square v) hyperbola 0 (1/2) 16 (fun v => sup_le v 4).
Proof.
  intros Hc. assert (Y2 : forall t, 0 <= t <= 1/2 -> 0 <= 1 / (1 - t) <= 2).
  { intros t Ht. split; [left; apply Rdiv_lt_0_compat; lra|]. apply (Rmult_le_reg_r (1 - t)); [lra|]. field_simplify; lra. }
  pose proof (Rabs_pos c) as Hc0. split; [|split].
  - split; [lra|]. intros x z rho Hx Hz Hd i. specialize (Hx i). specialize (Hz i). specialize (Hd i). unfold square. vunfold. cbn beta in *.
    replace (c * (x i * x i) - c * (z i * z i)) with ((c * (x i + z i)) * (x i - z i)) by ring. rewrite Rabs_mult. apply Rmult_le_compat; try apply Rabs_pos; [|exact Hd].
    rewrite Rabs_mult. replace 16 with (2 * 8) by ring. apply Rmult_le_compat; try apply Rabs_pos; [exact Hc|]. eapply Rle_trans; [apply Rabs_triang|]. lra.
  - exists 1. split; [lra|]. intros t v Ht Hv i. specialize (Hv i). specialize (Y2 t Ht). vunfold. unfold hyperbola. eapply Rle_trans; [apply Rabs_triang|]. rewrite (Rabs_pos_eq (1 / (1 - t))) by lra. lra.
  - exists (fun x v i => c * (2 * x i * v i)), (fun x v w i => 0), (fun x u v w i => 0), 8, 1. split; [lra|]. split; [lra|]. intros x (t & Ht & ->). pose proof (Y2 t Ht) as Y. unfold hyperbola.
    split; [|split; [|split; [|split]]].
    + intros i. unfold square. vunfold. rewrite Rabs_mult. replace 8 with (2 * 4) by ring. apply Rmult_le_compat; try apply Rabs_pos; [exact Hc|]. rewrite Rabs_pos_eq; nra.
    + split; [split; intros; apply functional_extensionality; intros i; vunfold; ring|]. intros v r Hv i. specialize (Hv i). rewrite <- Rmult_assoc, Rabs_mult. apply Rmult_le_compat; try apply Rabs_pos; [|exact Hv].
      rewrite Rabs_mult. replace 8 with (2 * 4) by ring. apply Rmult_le_compat; try apply Rabs_pos; [exact Hc|]. rewrite Rabs_pos_eq; lra.
    + split; [intros w; split; intros; apply functional_extensionality; intros i; vunfold; ring|]. split; [intros w; split; intros; apply functional_extensionality; intros i; vunfold; ring|].
      intros v w r s Hv Hw i. specialize (Hv i). specialize (Hw i). rewrite Rabs_R0. pose proof (Rabs_pos (v i)). pose proof (Rabs_pos (w i)). repeat apply Rmult_le_pos; lra.
    + split; [intros v w; split; intros; apply functional_extensionality; intros i; vunfold; ring|]. split; [intros v w; split; intros; apply functional_extensionality; intros i; vunfold; ring|].
      split; [intros v w; split; intros; apply functional_extensionality; intros i; vunfold; ring|]. intros u v w r s t' Hu Hv Hw i. specialize (Hu i). specialize (Hv i). specialize (Hw i). pose proof (Rabs_pos (u i)). pose proof (Rabs_pos (v i)). pose proof (Rabs_pos (w i)).
      rewrite Rabs_R0. repeat apply Rmult_le_pos; lra.
    + intros v rho Hv Hr i. pose proof (Hv i) as Hvi. pose proof (Rabs_pos (v i)). unfold taylor, square. cbn [Nat.leb]. vunfold.
      match goal with |- Rabs ?e <= _ => replace e with (c * (v i * v i)) by (field; lra) end. rewrite !Rabs_mult. cbn [pow]. rewrite Rmult_1_r. apply Rmult_le_compat; [lra| |lra|]; [apply Rmult_le_pos; lra|]. apply Rmult_le_compat; lra.
Qed.
Theorem explicit_strang_nonlinear_example :
  let todo := [("growth"%string, 1/2); ("loss"%string, 1); ("growth"%string, 1/2)] in
  converges_nearby 2 (split_step (fun _ => ExplicitSub tab_SSPRK2_2 2 Increment) growth_loss [] todo) hyperbola 0 (1/2) /\
  forall x, exists x', split_step (fun _ => ExplicitSub tab_SSPRK2_2 2 Increment) growth_loss [] todo (1/4) x x'.
Proof.
  cbv zeta. pose proof (proj1 (proj2 explicit_schemes_have_advertised_order)) as O2. destruct square_regular as ((_ & nb & _) & sol). split.
  - apply (explicit_strang_second_order unit ["growth"%string; "loss"%string] (fun _ => ExplicitSub tab_SSPRK2_2 2 Increment) growth_loss [] _ hyperbola 0 (1/2) 16 (fun v => sup_le v 4)).
    + exists [tt]. intros []. left. reflexivity.
    + lra.
    + exact nb.
    + constructor.
      * split; [repeat constructor; cbn; intuition discriminate|]. split; [cbn; intuition discriminate|]. intros l w [E|[E|[E|[]]]]; injection E as <- _; right; cbn; tauto.
      * intros l [<-|[<-|[]]]; cbn; lra.
      * intros N. contradiction.
      * intros l _. cbn [sub_order]. split; [lia|]. split; [apply table_bounded|exact O2].
      * intros sc P [].
      * intros l w w' _ _ _ K. discriminate K.
      * intros w w' sc P _ _ [].
    + reflexivity.
    + cbn; lia.
    + intros l _. exact Logic.I.
    + intros sc P [].
    + intros l _. apply (scaled_square_regular (if String.eqb l "growth" then 2 else -1)). destruct (String.eqb l "growth"); [rewrite Rabs_pos_eq; lra|rewrite Rabs_left; lra].
    + intros P [].
    + intros t i Ht. specialize (sol t i Ht). replace (full_rhs ["growth"%string; "loss"%string] growth_loss (map snd []) (hyperbola t) i) with (total square (fun _ => vzero) (hyperbola t) i); [exact sol|].
      unfold full_rhs, growth_loss, total. cbn. vunfold. ring.
  - intros x. unfold split_step. cbn [substeps String.eqb Ascii.eqb Bool.eqb used_weight keeps_first_dt]. cbn [sub_apply].
    eexists. eexists. split; [exists (fun _ => vzero); reflexivity|]. eexists. split; [exists (fun _ => vzero); reflexivity|]. eexists. split; [exists (fun _ => vzero); reflexivity|]. reflexivity.
Qed.
Print Assumptions explicit_strang_nonlinear_example.

(** ** Without equal weights: C147 fails at every order for a scheme whose forms hold the first length.  dy/dt = 1 in two substeps of dt/4 and 3 dt/4: both are made with dt/4. *)
Definition uneven : list (string * R) := [("push"%string, 1/4); ("push"%string, 3/4)].
Theorem uneven_weights_with_kept_forms_refuted :
  forall A s p, (0 < s)%nat -> order1 A s -> (1 <= p)%nat ->
  weight_of "push" uneven = 1 /\ ~ converges_nearby p (split_step (fun _ => ExplicitSub A s Predictor) (fun _ => push) [] uneven) (fun t b => if b then 0 else t) 0 1.
Proof.
  intros A s p Hs o1 Hp. split; [cbn; lra|]. intros (C & h0 & e1 & HC & H0 & E1 & H).
  destruct (small_step C (Rmin h0 1) (1/2) ltac:(apply Rmin_pos; lra) ltac:(lra)) as (n & n0 & nh & HCn). set (dt := / INR n) in *. assert (d0 : 0 < dt) by (apply Rinv_0_lt_compat; exact n0).
  assert (nh0 : dt <= h0 /\ dt <= 1) by (split; eapply Rle_trans; [exact nh|apply Rmin_l|exact nh|apply Rmin_r]).
  assert (nd : INR n * dt = 1) by (unfold dt; field; lra). set (x := fun k : nat => (fun b : bool => if b then 0 else INR k * (dt / 2)) : vec bool).
  assert (Hst : forall k, split_step (fun _ => ExplicitSub A s Predictor) (fun _ => push) [] uneven dt (x k) (x (S k))).
  { intros k. unfold split_step, uneven. cbn [substeps String.eqb Ascii.eqb Bool.eqb used_weight keeps_first_dt first_weight].
    set (x1 := x k +v (dt * (1/4)) *v push (x k)). exists x1. split; [apply (push_apply A s Predictor (dt * (1/4)) (x k) Hs o1)|]. exists (x1 +v (dt * (1/4)) *v push x1). split; [apply (push_apply A s Predictor (dt * (1/4)) x1 Hs o1)|].
    apply functional_extensionality. intros []; unfold x1, x, push; vunfold; [ring|rewrite S_INR; field]. }
  assert (S0 : sup_le (x 0%nat -v (fun b : bool => if b then 0 else 0)) 0) by (intros []; unfold x; vunfold; cbn [INR]; match goal with |- Rabs ?e <= 0 => replace e with 0 by field end; rewrite Rabs_R0; lra).
  specialize (H dt n x 0 (conj d0 (proj1 nh0)) ltac:(rewrite nd; lra) ltac:(intros; apply Hst) ltac:(lra) S0 false). unfold x in H. vunfold. rewrite Rplus_0_l, nd in H.
  replace (INR n * (dt / 2) - 1) with (- (1 / 2)) in H by (replace (INR n * (dt / 2)) with (INR n * dt / 2) by field; rewrite nd; field). rewrite Rabs_Ropp, Rabs_pos_eq in H by lra. rewrite Rplus_0_l in H.
  assert (P1 : dt ^ p <= dt). { destruct p as [|p]; [lia|]. cbn [pow]. rewrite <- (Rmult_1_r dt) at 3. apply Rmult_le_compat_l; [lra|]. rewrite <- (pow1 p). apply pow_incr. lra. }
  assert (P2 : C * dt ^ p <= C * dt) by (apply Rmult_le_compat_l; assumption).
  assert (P3 : C * dt ^ 2 = C * dt * dt) by ring. assert (P4 : C * dt < 1 / 2) by (apply (Rmult_lt_reg_r dt); [exact d0|lra]). lra.
Qed.
Print Assumptions uneven_weights_with_kept_forms_refuted.

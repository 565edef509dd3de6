(** Property C79: each scheme class computes the formula its documentation gives
    (class docstrings of explicit_runge_kutta.py l.457-465, 510-538, 604-630, 757-770;
    imex_runge_kutta.py l.290-300, 333-347, 380-397, 431-445, 478-492;
    implicit_runge_kutta.py l.265-274, 304-314). *)
From Verif Require Import Base Vec RKSpec RK RKFacts RKProps IMEXSpec IMEX IMEXFacts IMEXProps.
Open Scope R_scope.

(* ------------------------------------------------------------------ *)
(** ** Documented formulas, for dy/dt = F(y) *)
Definition doc_forward_euler {I} (F : vec I -> vec I) dt (y y1 : vec I) :=
  exists k0, k0 = F y /\ y1 = y +v dt *v k0.
Definition doc_ssprk2_2 {I} (F : vec I -> vec I) dt (y y1 : vec I) :=
  exists k0 k1, k0 = F y /\ k1 = F (y +v dt *v k0) /\ y1 = y +v (1/2 * dt) *v (k0 +v k1).
Definition doc_ssprk2_3 {I} (F : vec I -> vec I) dt (y y1 : vec I) :=
  exists k0 k1 k2, k0 = F y /\ k1 = F (y +v (1/2 * dt) *v k0) /\ k2 = F (y +v (1/2 * dt) *v (k0 +v k1)) /\
  y1 = y +v (1/3 * dt) *v (k0 +v k1 +v k2).
(** "k1 = F[y^n + (1/3)*dt*k1]" in the docstring (and similarly below) is read with k0 on
    the right: the schemes are explicit. *)
Definition doc_ssprk2_4 {I} (F : vec I -> vec I) dt (y y1 : vec I) :=
  exists k0 k1 k2 k3, k0 = F y /\ k1 = F (y +v (1/3 * dt) *v k0) /\ k2 = F (y +v (1/3 * dt) *v (k0 +v k1)) /\
  k3 = F (y +v (1/3 * dt) *v (k0 +v k1 +v k2)) /\ y1 = y +v (1/4 * dt) *v (k0 +v k1 +v k2 +v k3).
Definition doc_ssprk3_3 {I} (F : vec I -> vec I) dt (y y1 : vec I) :=
  exists k0 k1 k2, k0 = F y /\ k1 = F (y +v dt *v k0) /\ k2 = F (y +v (1/4 * dt) *v (k0 +v k1)) /\
  y1 = y +v (1/6 * dt) *v (k0 +v k1 +v 4 *v k2).
Definition doc_ssprk3_4 {I} (F : vec I -> vec I) dt (y y1 : vec I) :=
  exists k0 k1 k2 k3, k0 = F y /\ k1 = F (y +v (1/2 * dt) *v k0) /\ k2 = F (y +v (1/2 * dt) *v (k0 +v k1)) /\
  k3 = F (y +v (1/6 * dt) *v (k0 +v k1 +v k2)) /\ y1 = y +v (1/6 * dt) *v (k0 +v k1 +v k2 +v 3 *v k3).
Definition doc_rk4 {I} (F : vec I -> vec I) dt (y y1 : vec I) :=
  exists k0 k1 k2 k3, k0 = F y /\ k1 = F (y +v (1/2 * dt) *v k0) /\ k2 = F (y +v (1/2 * dt) *v k1) /\
  k3 = F (y +v dt *v k2) /\ y1 = y +v (1/6 * dt) *v (k0 +v 2 *v k1 +v 2 *v k2 +v k3).
Definition doc_implicit_midpoint {I} (F : vec I -> vec I) dt (y y1 : vec I) :=
  exists k0, k0 = F (y +v (1/2 * dt) *v k0) /\ y1 = y +v dt *v k0.
Definition doc_qin_zhang {I} (F : vec I -> vec I) dt (y y1 : vec I) :=
  exists k0 k1, k0 = F (y +v (1/4 * dt) *v k0) /\ k1 = F (y +v (1/2 * dt) *v k0 +v (1/4 * dt) *v k1) /\
  y1 = y +v (1/2 * dt) *v (k0 +v k1).

(** For dy/dt = F(y) + S(y), F implicit, S explicit. *)
Definition doc_imex_euler {I} (F S : vec I -> vec I) dt (y y1 : vec I) :=
  exists Y1, Y1 = y +v dt *v F Y1 +v dt *v S y /\ y1 = y +v dt *v F Y1 +v dt *v S y.
Definition doc_ark2 {I} (F S : vec I -> vec I) dt (y y1 : vec I) :=
  let g := 1 - 1 / sqrt 2 in let a := 1/6 * (3 + 2 * sqrt 2) in let d := 1 / (2 * sqrt 2) in
  exists Y1 Y2,
    Y1 = y +v dt *v (g *v F y +v g *v F Y1) +v (2 * dt * g) *v S y /\
    Y2 = y +v dt *v (d *v F y +v d *v F Y1 +v g *v F Y2) +v dt *v ((1 - a) *v S y +v a *v S Y1) /\
    y1 = y +v dt *v (d *v F y +v d *v F Y1 +v g *v F Y2) +v dt *v (d *v S y +v d *v S Y1 +v g *v S Y2).
Definition doc_ssp3 {I} (F S : vec I -> vec I) dt (y y1 : vec I) :=
  let g := 1 - 1 / sqrt 2 in
  exists Y1 Y2 Y3,
    Y1 = y +v (dt * g) *v F Y1 /\
    Y2 = y +v dt *v ((1 - 2 * g) *v F Y1 +v g *v F Y2) +v dt *v S Y1 /\
    Y3 = y +v dt *v ((1/2 - g) *v F Y1 +v g *v F Y3) +v dt *v ((1/4) *v S Y1 +v (1/4) *v S Y2) /\
    y1 = y +v dt *v ((1/6) *v F Y1 +v (1/6) *v F Y2 +v (2/3) *v F Y3)
           +v dt *v ((1/6) *v S Y1 +v (1/6) *v S Y2 +v (2/3) *v S Y3).
(** with e = 0, the value the code uses *)
Definition doc_trap2 {I} (F S : vec I -> vec I) dt (y y1 : vec I) :=
  exists Y1 Y2 Y3,
    Y1 = y +v dt *v S y /\
    Y2 = y +v dt *v ((1/2) *v F y +v (1/2) *v F Y2) +v dt *v ((1/2) *v S y +v (1/2) *v S Y1) /\
    Y3 = y +v dt *v ((1/2) *v F y +v (1/2) *v F Y3) +v dt *v ((1/2) *v S y +v (1/2) *v S Y2) /\
    y1 = y +v dt *v ((1/2) *v F y +v (1/2) *v F Y3) +v dt *v ((1/2) *v S y +v (1/2) *v S Y2).
(** IMEX_ARS3 as documented ... *)
Definition doc_ars3 {I} (F S : vec I -> vec I) dt (y y1 : vec I) :=
  let g := (3 + sqrt 3) / 6 in
  exists Y1 Y2,
    Y1 = y +v (dt * g) *v F Y1 +v (dt * g) *v S y /\
    Y2 = y +v dt *v ((1 - 2 * g) *v F Y1 +v g *v F Y2) +v dt *v ((g - 1) *v S y +v (2 * (g - 1)) *v S Y1) /\
    y1 = y +v dt *v (g *v F Y1 +v (1 - g) *v F Y2) +v dt *v ((1/2) *v S Y1 +v (1/2) *v S Y2).
(** ... and the published scheme (Ascher, Ruuth and Spiteri 1997, section 2.4). *)
Definition published_ars3 {I} (F S : vec I -> vec I) dt (y y1 : vec I) :=
  let g := (3 + sqrt 3) / 6 in
  exists Y1 Y2,
    Y1 = y +v (dt * g) *v F Y1 +v (dt * g) *v S y /\
    Y2 = y +v dt *v ((1 - 2 * g) *v F Y1 +v g *v F Y2) +v dt *v ((g - 1) *v S y +v (2 * (1 - g)) *v S Y1) /\
    y1 = y +v dt *v ((1/2) *v F Y1 +v (1/2) *v F Y2) +v dt *v ((1/2) *v S Y1 +v (1/2) *v S Y2).

(* ------------------------------------------------------------------ *)
(** ** Explicit schemes *)
Lemma a_coef_S A i j : a_coef A (S i) j = A i j. Proof. reflexivity. Qed.
Ltac veq := apply functional_extensionality; intros ?i; unfold vopp in *; vunfold; try field.
Ltac doc_rw := rewrite ?a_coef_S; unfold table; cbn [nth vsum].

Lemma erk_1 {I} (F : vec I -> vec I) A dt y y1 : erk_step A 1 F dt y y1 <->
  exists k0, k0 = F y /\ y1 = y +v dt *v (A 0%nat 0%nat *v k0).
Proof.
  split.
  - intros (k & Hk & E). exists (k 0%nat). pose proof (Hk 0%nat ltac:(lia)) as H0. cbn in H0, E. unfold b_coef in E; cbn in E. split.
    + rewrite H0. f_equal. veq.
    + rewrite E. veq.
  - intros (k0 & H0 & E). exists (fun _ => k0). split.
    + intros i Hi. assert (i = 0%nat) as -> by lia. cbn. rewrite H0 at 1. f_equal. veq.
    + rewrite E. unfold b_coef; cbn. veq.
Qed.
Lemma erk_2 {I} (F : vec I -> vec I) A dt y y1 : erk_step A 2 F dt y y1 <->
  exists k0 k1, k0 = F y /\ k1 = F (y +v dt *v (A 0 0 *v k0))%nat /\
    y1 = y +v dt *v (A 1 0 *v k0 +v A 1 1 *v k1)%nat.
Proof.
  split.
  - intros (k & Hk & E). exists (k 0%nat), (k 1%nat).
    pose proof (Hk 0%nat ltac:(lia)) as H0. pose proof (Hk 1%nat ltac:(lia)) as H1.
    unfold b_coef in E; cbn in H0, H1, E. repeat split.
    + rewrite H0. f_equal. veq.
    + rewrite H1. f_equal. veq.
    + rewrite E. veq.
  - intros (k0 & k1 & H0 & H1 & E). exists (fun i => match i with O => k0 | _ => k1 end). split.
    + intros i Hi. assert (i = 0 \/ i = 1)%nat as [-> | ->] by lia; cbn.
      * rewrite H0 at 1. f_equal. veq.
      * rewrite H1 at 1. f_equal. veq.
    + rewrite E. unfold b_coef; cbn. veq.
Qed.
Lemma erk_3 {I} (F : vec I -> vec I) A dt y y1 : erk_step A 3 F dt y y1 <->
  exists k0 k1 k2, k0 = F y /\ k1 = F (y +v dt *v (A 0 0 *v k0))%nat /\
    k2 = F (y +v dt *v (A 1 0 *v k0 +v A 1 1 *v k1))%nat /\
    y1 = y +v dt *v (A 2 0 *v k0 +v A 2 1 *v k1 +v A 2 2 *v k2)%nat.
Proof.
  split.
  - intros (k & Hk & E). exists (k 0%nat), (k 1%nat), (k 2%nat).
    pose proof (Hk 0%nat ltac:(lia)) as H0. pose proof (Hk 1%nat ltac:(lia)) as H1. pose proof (Hk 2%nat ltac:(lia)) as H2.
    unfold b_coef in E; cbn in H0, H1, H2, E. repeat split.
    + rewrite H0. f_equal. veq.
    + rewrite H1. f_equal. veq.
    + rewrite H2. f_equal. veq.
    + rewrite E. veq.
  - intros (k0 & k1 & k2 & H0 & H1 & H2 & E). exists (fun i => match i with O => k0 | 1%nat => k1 | _ => k2 end). split.
    + intros i Hi. assert (i = 0 \/ i = 1 \/ i = 2)%nat as [-> | [-> | ->]] by lia; cbn.
      * rewrite H0 at 1. f_equal. veq.
      * rewrite H1 at 1. f_equal. veq.
      * rewrite H2 at 1. f_equal. veq.
    + rewrite E. unfold b_coef; cbn. veq.
Qed.
Lemma erk_4 {I} (F : vec I -> vec I) A dt y y1 : erk_step A 4 F dt y y1 <->
  exists k0 k1 k2 k3, k0 = F y /\ k1 = F (y +v dt *v (A 0 0 *v k0))%nat /\
    k2 = F (y +v dt *v (A 1 0 *v k0 +v A 1 1 *v k1))%nat /\
    k3 = F (y +v dt *v (A 2 0 *v k0 +v A 2 1 *v k1 +v A 2 2 *v k2))%nat /\
    y1 = y +v dt *v (A 3 0 *v k0 +v A 3 1 *v k1 +v A 3 2 *v k2 +v A 3 3 *v k3)%nat.
Proof.
  split.
  - intros (k & Hk & E). exists (k 0%nat), (k 1%nat), (k 2%nat), (k 3%nat).
    pose proof (Hk 0%nat ltac:(lia)) as H0. pose proof (Hk 1%nat ltac:(lia)) as H1.
    pose proof (Hk 2%nat ltac:(lia)) as H2. pose proof (Hk 3%nat ltac:(lia)) as H3.
    unfold b_coef in E; cbn in H0, H1, H2, H3, E. repeat split.
    + rewrite H0. f_equal. veq.
    + rewrite H1. f_equal. veq.
    + rewrite H2. f_equal. veq.
    + rewrite H3. f_equal. veq.
    + rewrite E. veq.
  - intros (k0 & k1 & k2 & k3 & H0 & H1 & H2 & H3 & E).
    exists (fun i => match i with O => k0 | 1%nat => k1 | 2%nat => k2 | _ => k3 end). split.
    + intros i Hi. assert (i = 0 \/ i = 1 \/ i = 2 \/ i = 3)%nat as [-> | [-> | [-> | ->]]] by lia; cbn.
      * rewrite H0 at 1. f_equal. veq.
      * rewrite H1 at 1. f_equal. veq.
      * rewrite H2 at 1. f_equal. veq.
      * rewrite H3 at 1. f_equal. veq.
    + rewrite E. unfold b_coef; cbn. veq.
Qed.

Lemma ex_iff {X} (P Q : X -> Prop) : (forall x, P x <-> Q x) -> (exists x, P x) <-> (exists x, Q x).
Proof. intros H. split; intros [x Hx]; exists x; apply H; exact Hx. Qed.
Lemma eq_iff {X} (a b c : X) : b = c -> (a = b <-> a = c). Proof. intros ->. tauto. Qed.
Lemma and_cong (P P' Q Q' : Prop) : (P <-> P') -> (Q <-> Q') -> (P /\ Q <-> P' /\ Q'). Proof. tauto. Qed.
Ltac cong := repeat first
  [ apply ex_iff; intros ?
  | apply and_cong
  | apply eq_iff; first [reflexivity | solve [veq] | f_equal; solve [veq] ] ].

(** C79: explicit classes.  y1 is what one (unlimited) cycle returns from y. *)
Theorem explicit_documented_formulas :
  forall (I : Type) (F : vec I -> vec I) dt k (y y1 : vec I),
  let step A s := snd (increment_cycle A s no_limiter dt F no_physics k y) = y1 in
  (step tab_ForwardEuler 1%nat <-> doc_forward_euler F dt y y1) /\
  (step tab_SSPRK2_2 2%nat <-> doc_ssprk2_2 F dt y y1) /\
  (step tab_SSPRK2_3 3%nat <-> doc_ssprk2_3 F dt y y1) /\
  (step tab_SSPRK2_4 4%nat <-> doc_ssprk2_4 F dt y y1) /\
  (step tab_SSPRK3_3 3%nat <-> doc_ssprk3_3 F dt y y1) /\
  (step tab_SSPRK3_4 4%nat <-> doc_ssprk3_4 F dt y y1) /\
  (step tab_RK4 4%nat <-> doc_rk4 F dt y y1).
Proof.
  intros I F dt k y y1 step.
  assert (T : total F no_physics = F).
  { apply functional_extensionality. intros v. unfold total, no_physics. generalize (F v). intros; vring. }
  assert (H : forall A s, (0 < s)%nat -> step A s <-> erk_step A s F dt y y1).
  { intros A s Hs. unfold step. rewrite <- T at 2. apply increment_is_textbook; exact Hs. }
  rewrite !H by lia. rewrite erk_1, !erk_4, !erk_3, erk_2.
  unfold doc_forward_euler, doc_ssprk2_2, doc_ssprk2_3, doc_ssprk2_4, doc_ssprk3_3, doc_ssprk3_4, doc_rk4,
    tab_ForwardEuler, tab_SSPRK2_2, tab_SSPRK2_3, tab_SSPRK2_4, tab_SSPRK3_3, tab_SSPRK3_4, tab_RK4, table; cbn [nth].
  repeat match goal with |- _ /\ _ => split end; cong.
Qed.
Print Assumptions explicit_documented_formulas.

(* ------------------------------------------------------------------ *)
(** ** IMEX schemes *)
Lemma imex_2 {I} (F S : vec I -> vec I) A D b e dt y y1 : imex_step A D b e 2 F S dt y y1 <->
  exists Y0 Y1, Y0 = y +v dt *v (A 0 0 *v F Y0)%nat /\
    Y1 = y +v dt *v (A 1 0 *v F Y0 +v A 1 1 *v F Y1)%nat +v dt *v (D 1 0 *v S Y0)%nat /\
    y1 = y +v dt *v (b 0 *v F Y0 +v b 1 *v F Y1)%nat +v dt *v (e 0 *v S Y0 +v e 1 *v S Y1)%nat.
Proof.
  split.
  - intros (Y & HY & E). exists (Y 0%nat), (Y 1%nat).
    pose proof (HY 0%nat ltac:(lia)) as H0. pose proof (HY 1%nat ltac:(lia)) as H1. cbn in H0, H1, E. repeat split.
    + etransitivity; [exact H0|veq].
    + etransitivity; [exact H1|veq].
    + rewrite E. veq.
  - intros (Y0 & Y1 & H0 & H1 & E). exists (fun i => match i with O => Y0 | _ => Y1 end). split.
    + intros i Hi. assert (i = 0 \/ i = 1)%nat as [-> | ->] by lia; cbn.
      * etransitivity; [exact H0|veq].
      * etransitivity; [exact H1|veq].
    + rewrite E. cbn. veq.
Qed.
Lemma imex_3 {I} (F S : vec I -> vec I) A D b e dt y y1 : imex_step A D b e 3 F S dt y y1 <->
  exists Y0 Y1 Y2, Y0 = y +v dt *v (A 0 0 *v F Y0)%nat /\
    Y1 = y +v dt *v (A 1 0 *v F Y0 +v A 1 1 *v F Y1)%nat +v dt *v (D 1 0 *v S Y0)%nat /\
    Y2 = y +v dt *v (A 2 0 *v F Y0 +v A 2 1 *v F Y1 +v A 2 2 *v F Y2)%nat +v dt *v (D 2 0 *v S Y0 +v D 2 1 *v S Y1)%nat /\
    y1 = y +v dt *v (b 0 *v F Y0 +v b 1 *v F Y1 +v b 2 *v F Y2)%nat
           +v dt *v (e 0 *v S Y0 +v e 1 *v S Y1 +v e 2 *v S Y2)%nat.
Proof.
  split.
  - intros (Y & HY & E). exists (Y 0%nat), (Y 1%nat), (Y 2%nat).
    pose proof (HY 0%nat ltac:(lia)) as H0. pose proof (HY 1%nat ltac:(lia)) as H1. pose proof (HY 2%nat ltac:(lia)) as H2.
    cbn in H0, H1, H2, E. repeat split.
    + etransitivity; [exact H0|veq].
    + etransitivity; [exact H1|veq].
    + etransitivity; [exact H2|veq].
    + rewrite E. veq.
  - intros (Y0 & Y1 & Y2 & H0 & H1 & H2 & E). exists (fun i => match i with O => Y0 | 1%nat => Y1 | _ => Y2 end). split.
    + intros i Hi. assert (i = 0 \/ i = 1 \/ i = 2)%nat as [-> | [-> | ->]] by lia; cbn.
      * etransitivity; [exact H0|veq].
      * etransitivity; [exact H1|veq].
      * etransitivity; [exact H2|veq].
    + rewrite E. cbn. veq.
Qed.
Lemma imex_4 {I} (F S : vec I -> vec I) A D b e dt y y1 : imex_step A D b e 4 F S dt y y1 <->
  exists Y0 Y1 Y2 Y3, Y0 = y +v dt *v (A 0 0 *v F Y0)%nat /\
    Y1 = y +v dt *v (A 1 0 *v F Y0 +v A 1 1 *v F Y1)%nat +v dt *v (D 1 0 *v S Y0)%nat /\
    Y2 = y +v dt *v (A 2 0 *v F Y0 +v A 2 1 *v F Y1 +v A 2 2 *v F Y2)%nat +v dt *v (D 2 0 *v S Y0 +v D 2 1 *v S Y1)%nat /\
    Y3 = y +v dt *v (A 3 0 *v F Y0 +v A 3 1 *v F Y1 +v A 3 2 *v F Y2 +v A 3 3 *v F Y3)%nat
           +v dt *v (D 3 0 *v S Y0 +v D 3 1 *v S Y1 +v D 3 2 *v S Y2)%nat /\
    y1 = y +v dt *v (b 0 *v F Y0 +v b 1 *v F Y1 +v b 2 *v F Y2 +v b 3 *v F Y3)%nat
           +v dt *v (e 0 *v S Y0 +v e 1 *v S Y1 +v e 2 *v S Y2 +v e 3 *v S Y3)%nat.
Proof.
  split.
  - intros (Y & HY & E). exists (Y 0%nat), (Y 1%nat), (Y 2%nat), (Y 3%nat).
    pose proof (HY 0%nat ltac:(lia)) as H0. pose proof (HY 1%nat ltac:(lia)) as H1.
    pose proof (HY 2%nat ltac:(lia)) as H2. pose proof (HY 3%nat ltac:(lia)) as H3.
    cbn in H0, H1, H2, H3, E. repeat split.
    + etransitivity; [exact H0|veq].
    + etransitivity; [exact H1|veq].
    + etransitivity; [exact H2|veq].
    + etransitivity; [exact H3|veq].
    + rewrite E. veq.
  - intros (Y0 & Y1 & Y2 & Y3 & H0 & H1 & H2 & H3 & E).
    exists (fun i => match i with O => Y0 | 1%nat => Y1 | 2%nat => Y2 | _ => Y3 end). split.
    + intros i Hi. assert (i = 0 \/ i = 1 \/ i = 2 \/ i = 3)%nat as [-> | [-> | [-> | ->]]] by lia; cbn.
      * etransitivity; [exact H0|veq].
      * etransitivity; [exact H1|veq].
      * etransitivity; [exact H2|veq].
      * etransitivity; [exact H3|veq].
    + rewrite E. cbn. veq.
Qed.

(** A first stage without implicit part is y itself. *)
Lemma first_stage_is_y {I} (Y0 y z : vec I) dt : Y0 = y +v dt *v (0 *v z) -> Y0 = y.
Proof. intros ->. veq. Qed.
Ltac vlra := first [solve [veq] | apply functional_extensionality; intros ?; unfold vopp; vunfold; lra].
Ltac close := match goal with |- ?a = _ => match goal with H : a = _ |- _ => etransitivity; [exact H|vlra] end end.

(** C79: IMEX classes, for dy/dt = F(y) + S(y) with F = - (implicit terms), S = -
    (explicit terms and physics). *)
Theorem imex_documented_formulas :
  forall (I : Type) dt (Ni Ne Ns ev : vec I -> vec I) st y y1,
  let F v := vopp (Ni v) in
  let S v := vopp (Ne v +v Ns (ev v)) in
  let apply A D s := imex_apply A D s dt Ni Ne Ns ev no_limiter st y y1 in
  (apply imex_euler_imp imex_euler_exp 2%nat <-> doc_imex_euler F S dt y y1) /\
  (apply ark2_imp ark2_exp 3%nat <-> doc_ark2 F S dt y y1) /\
  (apply ssp3_imp ssp3_exp 3%nat <-> doc_ssp3 F S dt y y1) /\
  (apply trap2_imp trap2_exp 4%nat <-> doc_trap2 F S dt y y1) /\
  (apply ars3_imp ars3_exp 3%nat <-> published_ars3 F S dt y y1).
Proof.
  intros I dt Ni Ne Ns ev st y y1 F S apply.
  assert (H : forall A D s, (0 < s)%nat -> apply A D s <-> imex_step A D (A s) (D s) s F S dt y y1).
  { intros A D s Hs. apply imex_is_textbook; exact Hs. }
  rewrite !H by lia. rewrite !imex_3, imex_4, imex_2. clearbody F S. clear H apply.
  unfold doc_imex_euler, doc_ark2, doc_ssp3, doc_trap2, published_ars3,
    imex_euler_imp, imex_euler_exp, ark2_imp, ark2_exp, ssp3_imp, ssp3_exp, trap2_imp, trap2_exp, ars3_imp, ars3_exp, table; cbn [nth].
  fold ark2_g ark2_d ark2_a ars3_g.
  change (1 / 6 * (3 + 2 * sqrt 2)) with ark2_a. change (1 - 1 / sqrt 2) with ark2_g. change (1 / (2 * sqrt 2)) with ark2_d.
  change ((3 + sqrt 3) / 6) with ars3_g. cbv zeta.
  generalize ark2_a ark2_g ark2_d ars3_g. intros a g d q.
  repeat match goal with |- _ /\ _ => split end.
  - split.
    + intros (Y0 & Y1 & H0 & H1 & E). apply first_stage_is_y in H0. subst Y0. exists Y1. split; close.
    + intros (Y1 & H1 & E). exists y, Y1. split; [vlra|split; close].
  - split.
    + intros (Y0 & Y1 & Y2 & H0 & H1 & H2 & E). apply first_stage_is_y in H0. subst Y0. exists Y1, Y2. split; [|split]; close.
    + intros (Y1 & Y2 & H1 & H2 & E). exists y, Y1, Y2. split; [vlra|split; [|split]; close].
  - split.
    + intros (Y0 & Y1 & Y2 & H0 & H1 & H2 & E). exists Y0, Y1, Y2. split; [|split; [|split]]; close.
    + intros (Y0 & Y1 & Y2 & H0 & H1 & H2 & E). exists Y0, Y1, Y2. split; [|split; [|split]]; close.
  - split.
    + intros (Y0 & Y1 & Y2 & Y3 & H0 & H1 & H2 & H3 & E). apply first_stage_is_y in H0. subst Y0.
      exists Y1, Y2, Y3. split; [|split; [|split]]; close.
    + intros (Y1 & Y2 & Y3 & H1 & H2 & H3 & E). exists y, Y1, Y2, Y3. split; [vlra|split; [|split; [|split]]; close].
  - split.
    + intros (Y0 & Y1 & Y2 & H0 & H1 & H2 & E). apply first_stage_is_y in H0. subst Y0. exists Y1, Y2. split; [|split]; close.
    + intros (Y1 & Y2 & H1 & H2 & E). exists y, Y1, Y2. split; [vlra|split; [|split]; close].
Qed.
Print Assumptions imex_documented_formulas.

(** The docstring of IMEX_ARS3 gives other coefficients in the second stage: on
    dy/dt = S(y) = y, F = 0 the code's result is not the documented one. *)
Theorem ars3_documentation_refuted :
  exists (y y1 : vec unit),
    imex_apply ars3_imp ars3_exp 3 1 (fun _ => vzero) (fun v => vopp v) no_physics no_physics no_limiter
      {| xs := fun _ => vzero; source := fun _ => vzero; xo := vzero |} y y1 /\
    ~ doc_ars3 (fun _ => vzero) (fun v => v) 1 y y1.
Proof.
  pose (g := (3 + sqrt 3) / 6).
  assert (Hg : 0 < g < 1).
  { unfold g. assert (0 < sqrt 3) by (apply sqrt_lt_R0; lra).
    assert (sqrt 3 < 3) by (rewrite <- (sqrt_pow2 3) at 2 by lra; apply sqrt_lt_1_alt; lra). lra. }
  pose (Y1 := 1 + g). pose (Y2 := 1 + (g - 1) + 2 * (1 - g) * Y1).
  exists (fun _ => 1), (fun _ => 1 + 1/2 * Y1 + 1/2 * Y2). split.
  - apply (imex_documented_formulas unit 1 (fun _ => vzero) (fun v => vopp v) no_physics no_physics
             {| xs := fun _ => vzero; source := fun _ => vzero; xo := vzero |}).
    exists (fun _ => Y1), (fun _ => Y2). fold g. unfold no_physics.
    repeat split; apply functional_extensionality; intros ?; unfold vopp, Y2, Y1; vunfold; lra.
  - intros (Z1 & Z2 & H1 & H2 & H3). fold g in H1, H2, H3.
    apply (f_equal (fun v => v tt)) in H1, H2, H3. unfold Y2, Y1 in *. vunfold. cbv beta in *.
    rewrite H2, H1 in H3. nra.
Qed.
Print Assumptions ars3_documentation_refuted.

(* ------------------------------------------------------------------ *)
(** ** Implicit schemes: both formulations, at the first and at any later step. *)
Theorem implicit_documented_formulas :
  forall (I : Type) dt (N : vec I -> vec I) X0 y y1,
  let F v := vopp (N v) in
  (forall st, cached st = None \/ cached st = Some (1/2) ->
     (irk_increment tab_ImplicitMidpoint 1 dt N st y y1 <-> doc_implicit_midpoint F dt y y1)) /\
  (irk_predictor tab_ImplicitMidpoint 1 dt N X0 y y1 <-> doc_implicit_midpoint F dt y y1) /\
  (forall st, cached st = None \/ cached st = Some (1/4) ->
     (irk_increment tab_QinZhang 2 dt N st y y1 <-> doc_qin_zhang F dt y y1)) /\
  (irk_predictor tab_QinZhang 2 dt N X0 y y1 <-> doc_qin_zhang F dt y y1).
Proof.
  intros I dt N X0 y y1 F.
  assert (D1 : forall A b, A 0%nat 0%nat = 1/2 -> b 0%nat = 1 -> dirk_step A b 1 F dt y y1 <-> doc_implicit_midpoint F dt y y1).
  { intros A b HA Hb. split.
    - intros (k & Hk & E). exists (k 0%nat). pose proof (Hk 0%nat ltac:(lia)) as H0. cbn in H0, E. rewrite HA in H0. rewrite Hb in E.
      split; [etransitivity; [exact H0|f_equal; veq]|rewrite E; veq].
    - intros (k0 & H0 & E). exists (fun _ => k0). split.
      + intros i Hi. assert (i = 0%nat) as -> by lia. cbn. rewrite HA. etransitivity; [exact H0|f_equal; veq].
      + rewrite E. cbn. rewrite Hb. veq. }
  assert (D2 : forall A b, A 0%nat 0%nat = 1/4 -> A 1%nat 0%nat = 1/2 -> A 1%nat 1%nat = 1/4 -> b 0%nat = 1/2 -> b 1%nat = 1/2 ->
    dirk_step A b 2 F dt y y1 <-> doc_qin_zhang F dt y y1).
  { intros A b A00 A10 A11 B0 B1. split.
    - intros (k & Hk & E). exists (k 0%nat), (k 1%nat).
      pose proof (Hk 0%nat ltac:(lia)) as H0. pose proof (Hk 1%nat ltac:(lia)) as H1. cbn in H0, H1, E.
      rewrite A00 in H0. rewrite A10, A11 in H1. rewrite B0, B1 in E.
      split; [etransitivity; [exact H0|f_equal; veq]|split; [etransitivity; [exact H1|f_equal; veq]|rewrite E; veq]].
    - intros (k0 & k1 & H0 & H1 & E). exists (fun i => match i with O => k0 | _ => k1 end). split.
      + intros i Hi. assert (i = 0 \/ i = 1)%nat as [-> | ->] by lia; cbn.
        * rewrite A00. etransitivity; [exact H0|f_equal; veq].
        * rewrite A10, A11. etransitivity; [exact H1|f_equal; veq].
      + rewrite E. cbn. rewrite B0, B1. veq. }
  assert (M0 : tab_ImplicitMidpoint 0%nat 0%nat = 1/2) by (unfold tab_ImplicitMidpoint, table; cbn; lra).
  assert (Q0 : tab_QinZhang 0%nat 0%nat = 1/4) by (unfold tab_QinZhang, table; cbn; lra).
  split; [|split; [|split]].
  - intros st Hst. rewrite irk_increment_value by (rewrite M0; exact Hst).
    apply D1; unfold tab_ImplicitMidpoint, table; cbn; lra.
  - rewrite irk_predictor_is_textbook. apply D1; unfold tab_ImplicitMidpoint, table; cbn; lra.
  - intros st Hst. rewrite irk_increment_value by (rewrite Q0; exact Hst).
    apply D2; unfold tab_QinZhang, table; cbn; lra.
  - rewrite irk_predictor_is_textbook. apply D2; unfold tab_QinZhang, table; cbn; lra.
Qed.
Print Assumptions implicit_documented_formulas.

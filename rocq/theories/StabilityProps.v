(** Unconditional stability of the implicit schemes.  C141. *)
From Coq Require Import Reals Lra Lia List.
From Verif Require Import Base Vec.
From Verif Require Import Fml ThetaSpec Theta ThetaProps MultilevelFacts MultilevelSpec Multilevel MultilevelProps.
From Verif Require Import RK RKSpec RKFacts RKProps IMEXSpec IMEX IMEXFacts IMEXProps ConvergenceSpec MultistepSpec MultistepFacts MultistepMain MultistepProps MultistepOrderProps.
From Verif Require Import StabilitySpec.
Open Scope R_scope.

Section Energy.
  Context {I : Type}.
  Variable (B : vec I -> vec I -> R).
  Hypothesis HB : inner_product B.
  Lemma Bar x y z : B x (y +v z) = B x y + B x z. Proof. apply HB. Qed.
  Lemma Bmr x a y : B x (a *v y) = a * B x y. Proof. apply HB. Qed.
  Lemma Bsym x y : B x y = B y x. Proof. apply HB. Qed.
  Lemma Bpos x : 0 <= B x x. Proof. apply HB. Qed.
  Lemma Bdef x : B x x = 0 -> x = vzero. Proof. apply HB. Qed.
  Lemma Bal x y z : B (y +v z) x = B y x + B z x. Proof. rewrite Bsym, Bar, (Bsym x y), (Bsym x z); reflexivity. Qed.
  Lemma Bml x a y : B (a *v y) x = a * B y x. Proof. rewrite Bsym, Bmr, Bsym; reflexivity. Qed.
  Lemma vsub_add (x y : vec I) : x -v y = x +v (-1) *v y. Proof. vring. Qed.
  Lemma Bsr x y z : B x (y -v z) = B x y - B x z. Proof. rewrite vsub_add, Bar, Bmr; ring. Qed.
  Lemma Bsl x y z : B (y -v z) x = B y x - B z x. Proof. rewrite vsub_add, Bal, Bml; ring. Qed.
  Ltac bx := repeat (rewrite ?Bar, ?Bmr, ?Bal, ?Bml, ?Bsr, ?Bsl in * ).

  (** d1 - d0 = - h f with f acting on a weighted mean *)
  Lemma mean_step th h d0 d1 f : 1/2 <= th -> 0 <= h -> d1 = d0 -v h *v f ->
    0 <= B (th *v d1 +v (1 - th) *v d0) f -> B d1 d1 <= B d0 d0.
  Proof.
    intros Ht Hh -> H. bx. rewrite (Bsym f d0) in *. pose proof (Bpos f) as P.
    set (a := B d0 f) in *. set (b := B f f) in *.
    assert (H1 : th * h * b <= a) by nra.
    assert (H2 : 0 <= h * (a - th * h * b)) by (apply Rmult_le_pos; lra).
    assert (H3 : 0 <= (2 * th - 1) * (h * h * b)) by (repeat apply Rmult_le_pos; lra). nra.
  Qed.
  Lemma implicit_step h d0 d1 f : 0 <= h -> d1 = d0 -v h *v f -> 0 <= B d1 f -> B d1 d1 <= B d0 d0.
  Proof.
    intros Hh E H. apply (mean_step 1 h d0 d1 f); [lra|exact Hh|exact E|].
    replace (1 *v d1 +v (1 - 1) *v d0) with d1 by vring. exact H.
  Qed.
  (** theta scheme for a nonlinear problem *)
  Lemma theta_pair th h d0 d1 f0 f1 : 1/2 <= th -> 0 <= h -> d1 +v (th * h) *v f1 = d0 -v ((1 - th) * h) *v f0 -> 0 <= B d0 f0 ->
    B (d1 +v (th * h) *v f1) (d1 +v (th * h) *v f1) <= B (d0 +v (th * h) *v f0) (d0 +v (th * h) *v f0).
  Proof.
    intros Ht Hh E H. rewrite E. bx. rewrite (Bsym f0 d0). pose proof (Bpos f0) as P.
    set (a := B d0 f0) in *. set (b := B f0 f0) in *. set (c := B d0 d0).
    assert (0 <= h * a) by nra. assert (0 <= (2 * th - 1) * (h * h * b)) by (repeat apply Rmult_le_pos; lra). nra.
  Qed.
  Lemma theta_dominates th h d f : 0 <= th -> 0 <= h -> 0 <= B d f -> B d d <= B (d +v (th * h) *v f) (d +v (th * h) *v f).
  Proof.
    intros Ht Hh H. bx. rewrite (Bsym f d). pose proof (Bpos f) as P. assert (0 <= th * h) by nra. set (q := th * h) in *.
    assert (0 <= q * B d f) by nra. assert (0 <= q * q * B f f) by (repeat apply Rmult_le_pos; lra). nra.
  Qed.
  (** BDF2: Dahlquist's energy *)
  Definition pair_energy (a b : vec I) : R := B a a + B (2 *v a -v b) (2 *v a -v b).
  Lemma bdf2_pair h d0 d1 d2 f2 : 0 <= h -> d2 = (4/3) *v d1 -v (1/3) *v d0 -v (2/3 * h) *v f2 -> 0 <= B d2 f2 ->
    pair_energy d2 d1 <= pair_energy d1 d0.
  Proof.
    intros Hh E H. unfold pair_energy.
    assert (E2 : h * B d2 f2 = B d2 (2 *v d1 -v (1/2) *v d0 -v (3/2) *v d2)).
    { assert (K : (2 *v d1 -v (1/2) *v d0 -v (3/2) *v d2) = h *v f2).
      { apply functional_extensionality; intros i. apply (f_equal (fun v => v i)) in E. vunfold. lra. }
      rewrite K, Bmr. reflexivity. }
    pose proof (Bpos (d2 -v 2 *v d1 +v d0)) as P. assert (0 <= h * B d2 f2) by nra. bx.
    rewrite (Bsym d1 d2), (Bsym d0 d2), (Bsym d0 d1) in *. lra.
  Qed.
  (** (I + aL)(I + bL) w -> (I - cL) w with c^2 <= a^2 + b^2 *)
  Lemma two_poles (L : vec I -> vec I) a b c w : linear_dissipative B L -> 0 <= a -> 0 <= b -> 0 <= c -> c * c <= a * a + b * b ->
    B (w -v c *v L w) (w -v c *v L w) <= B (w +v (a + b) *v L w +v (a * b) *v L (L w)) (w +v (a + b) *v L w +v (a * b) *v L (L w)).
  Proof.
    intros [HL HD] Ha Hb Hc Hcc. set (v := L w). set (u := L v).
    pose proof (HD w) as D1. pose proof (HD v) as D2. fold v in D1. fold u in D2.
    assert (D3 : forall t : R, 0 <= B (w +v t *v v) (v +v t *v u)).
    { intros t. pose proof (HD (w +v t *v v)) as K. rewrite (proj1 HL), (proj2 HL) in K. exact K. }
    (* discriminant form: s(w,w) + 2 t s(w,v) + t^2 s(v,v) >= 0 *)
    pose proof (D3 (a + b)) as D4. bx. clear D3.
    rewrite (Bsym v w) in *. rewrite (Bsym u w), (Bsym u v) in *.
    set (ww := B w w) in *. set (wv := B w v) in *. set (wu := B w u) in *. set (vv := B v v) in *. set (vu := B v u) in *. 
    pose proof (Bpos u) as P. pose proof (Bpos v) as Pv. set (uu := B u u) in *. fold vv in Pv.
    assert (Hab : 0 <= a * b) by nra.
    assert (K1 : 0 <= a * b * uu * (a * b)) by (repeat apply Rmult_le_pos; lra).
    assert (K2 : 0 <= (a * a + b * b - c * c) * vv) by (apply Rmult_le_pos; lra).
    (* 2(a+b+c) wv + 2ab (vv + wu) + 2ab(a+b) vu + ((a^2+b^2-c^2) vv + a^2b^2 uu >= 0 *)
    assert (K3 : 0 <= 2 * (a + b + c) * wv + 2 * (a * b) * (vv + wu) + 2 * (a * b) * (a + b) * vu).
    { destruct (Req_dec (a + b) 0) as [Z|Z].
      - assert (a = 0) by lra. assert (b = 0) by lra. subst a b. nra.
      - assert (Hs : 0 < a + b) by lra. set (s := a + b) in *.
        (* D4 * (2ab/s): 2ab/s wv + 2ab(vv+wu) + 2ab s vu *)
        assert (K4 : 0 <= (a * b) * (wv + s * (vv + wu) + s * s * vu)).
        { apply Rmult_le_pos; [exact Hab|]. lra. }
        assert (K5 : a * b <= s * s) by (unfold s; nra).
        assert (K6 : 0 <= (s * (s + c) - a * b) * wv) by (apply Rmult_le_pos; [nra|exact D1]).
        apply Rmult_le_reg_l with s; [exact Hs|]. rewrite Rmult_0_r. nra. }
    nra.
  Qed.
  (** a positive multiple of the identity plus a dissipative operator is injective *)
  Lemma shifted_injective (L : vec I -> vec I) a e : linear_dissipative B L -> 0 <= a -> e +v a *v L e = vzero -> e = vzero.
  Proof.
    intros [_ HD] Ha E. apply Bdef. pose proof (HD e) as D. pose proof (Bpos e) as P.
    assert (K : B e (e +v a *v L e) = 0). { rewrite E. replace (@vzero I) with (0 *v e) by vring. rewrite Bmr. ring. }
    bx. assert (0 <= a * B e (L e)) by nra. lra.
  Qed.
  Lemma energy_of_steps (step : vec I -> vec I -> Prop) : (forall x y, step x y -> B y y <= B x x) -> energy_stable B step.
  Proof.
    intros H n. induction n as [|n IH]; intros x y K; cbn in K; [subst; lra|]. destruct K as (z & K1 & K2).
    apply H in K1. apply IH in K2. lra.
  Qed.
  Lemma contractive_of_steps (step : vec I -> vec I -> Prop) :
    (forall x y x' y', step x y -> step x' y' -> B (y -v y') (y -v y') <= B (x -v x') (x -v x')) -> contractive B step.
  Proof.
    intros H n. induction n as [|n IH]; intros x y x' y' K K'; cbn in K, K'; [subst; lra|]. destruct K as (z & K1 & K2), K' as (z' & K1' & K2').
    pose proof (H _ _ _ _ K1 K1'). pose proof (IH _ _ _ _ K2 K2'). lra.
  Qed.
End Energy.
Ltac bx HB := repeat (rewrite ?(Bar _ HB), ?(Bmr _ HB), ?(Bal _ HB), ?(Bml _ HB), ?(Bsr _ HB), ?(Bsl _ HB) in * ).
Ltac vlin E := apply functional_extensionality; let i := fresh "i" in intros i; apply (f_equal (fun v => v i)) in E; vunfold.

(** ** Backward Euler, theta method, trapezium rule (without physics) *)
(** Linear dissipative problems: the energy never grows, for any time step, number of subcycles and steps, if theta >= 1/2. *)
Theorem theta_energy_stable : forall (I : Type) (B : vec I -> vec I -> R) (N : vec I -> vec I) dt X th m,
  inner_product B -> linear_dissipative B N -> 1/2 <= th <= 1 -> 0 <= dt ->
  energy_stable B (fun x y => exists src src', theta_apply N (fun _ => vzero) dt X th m src x y src') /\
  energy_stable B (fun x y => exists src src', be_apply N (fun _ => vzero) dt X m src x y src') /\
  energy_stable B (fun x y => exists src src', trapezium_apply N (fun _ => vzero) dt X m src x y src').
Proof.
  intros I B N dt X th m HB [HL HD] Ht Hdt.
  assert (S1 : forall t x y, 1/2 <= t -> theta_step t (neg N) (neg (fun _ => vzero)) dt x y -> B y y <= B x x).
  { intros t x y Hh E. apply (mean_step B HB t dt x y (N (t *v y +v (1 - t) *v x))); [exact Hh|exact Hdt| |apply HD].
    rewrite (proj1 HL), !(proj2 HL). unfold theta_step, neg in E. rewrite E at 1. vring. }
  assert (Sn : forall t k x y, 1/2 <= t -> steps (theta_step t (neg N) (neg (fun _ => vzero)) dt) k x y -> B y y <= B x x).
  { intros t k. induction k as [|k IH]; intros x y Hh H; cbn in H; [subst; lra|]. destruct H as (z & H1 & H2).
    apply S1 in H1; [|exact Hh]. apply IH in H2; [lra|exact Hh]. }
  destruct Ht as [Ht _].
  split; [|split]; apply energy_of_steps; intros x y (src & H);
    destruct (theta_schemes_are_textbook I N (fun _ => vzero) dt X src m x y) as (T1 & T2 & T3).
  - apply (T1 th) in H. apply (Sn th m); assumption.
  - apply T2 in H. apply (Sn 1 m); [lra|assumption].
  - apply T3 in H. apply (Sn (1/2) m); [lra|assumption].
Qed.
(** Nonlinear dissipative problems: two runs of backward Euler never move apart; for theta >= 1/2 they stay within the
    distance of x + theta dt N(x) at the start. *)
Theorem backward_euler_contractive : forall (I : Type) (B : vec I -> vec I -> R) (N : vec I -> vec I) dt X m,
  inner_product B -> dissipative B N -> 0 <= dt ->
  contractive B (fun x y => exists src src', be_apply N (fun _ => vzero) dt X m src x y src').
Proof.
  intros I B N dt X m HB HD Hdt.
  assert (S1 : forall x y x' y', theta_step 1 (neg N) (neg (fun _ => vzero)) dt x y -> theta_step 1 (neg N) (neg (fun _ => vzero)) dt x' y' ->
     B (y -v y') (y -v y') <= B (x -v x') (x -v x')).
  { intros x y x' y' E E'. apply (implicit_step B HB dt (x -v x') (y -v y') (N y -v N y')); [exact Hdt| |apply HD].
    unfold theta_step, neg in E, E'. rewrite E at 1. rewrite E' at 1. vring. }
  apply contractive_of_steps. intros x y x' y' (src & H) (src' & H').
  apply (proj1 (proj2 (theta_schemes_are_textbook I N (fun _ => vzero) dt X src m x y))) in H.
  apply (proj1 (proj2 (theta_schemes_are_textbook I N (fun _ => vzero) dt X src' m x' y'))) in H'.
  clear src src'. revert x x' H H'. induction m as [|m IH]; intros x x' H H'; cbn in H, H'; [subst; lra|].
  destruct H as (z & H1 & H2), H' as (z' & H1' & H2'). pose proof (S1 _ _ _ _ H1 H1'). pose proof (IH _ _ H2 H2'). lra.
Qed.
Theorem theta_runs_stay_close : forall (I : Type) (B : vec I -> vec I -> R) (N : vec I -> vec I) dt X th n x y x' y' src src',
  inner_product B -> dissipative B N -> 0 <= dt -> 1/2 <= th <= 1 ->
  theta_apply N (fun _ => vzero) dt X th n src x y src' -> theta_apply N (fun _ => vzero) dt X th n src x' y' src' ->
  let start := (x +v (th * dt) *v N x) -v (x' +v (th * dt) *v N x') in
  B (y -v y') (y -v y') <= B start start.
Proof.
  intros I B N dt X th n x y x' y' src src' HB HD Hdt Ht H H' start.
  assert (T : steps (theta_step th (neg N) (neg (fun _ => vzero)) dt) n x y).
  { apply (proj1 (theta_schemes_are_textbook I N (fun _ => vzero) dt X src n x y)). exists src'; exact H. }
  assert (T' : steps (theta_step th (neg N) (neg (fun _ => vzero)) dt) n x' y').
  { apply (proj1 (theta_schemes_are_textbook I N (fun _ => vzero) dt X src n x' y')). exists src'; exact H'. }
  clear H H'. unfold start. clear start.
  replace ((x +v (th * dt) *v N x) -v (x' +v (th * dt) *v N x')) with ((x -v x') +v (th * dt) *v (N x -v N x')) by vring.
  apply Rle_trans with (B ((y -v y') +v (th * dt) *v (N y -v N y')) ((y -v y') +v (th * dt) *v (N y -v N y'))).
  { apply (theta_dominates B HB); [lra|exact Hdt|apply HD]. }
  revert x x' T T'. induction n as [|n IH]; intros x x' T T'; cbn in T, T'; [subst; lra|].
  destruct T as (z & E & T), T' as (z' & E' & T'). eapply Rle_trans; [apply (IH z z' T T')|].
  apply (theta_pair B HB); [lra|exact Hdt| |apply HD].
  unfold theta_step, neg in E, E'.
  apply functional_extensionality; intros i. apply (f_equal (fun v => v i)) in E, E'. vunfold. lra.
Qed.

(** ** Implicit midpoint and Qin-Zhang, both formulations *)
Lemma midpoint_pair {I} (B : vec I -> vec I -> R) (N : vec I -> vec I) : inner_product B -> dissipative B N -> forall h x y x' y', 0 <= h ->
  y = x -v h *v N ((1/2) *v y +v (1/2) *v x) -> y' = x' -v h *v N ((1/2) *v y' +v (1/2) *v x') -> B (y -v y') (y -v y') <= B (x -v x') (x -v x').
Proof.
  intros HB HD h x y x' y' Hh E E'. apply (mean_step B HB (1/2) h (x -v x') (y -v y') (N ((1/2) *v y +v (1/2) *v x) -v N ((1/2) *v y' +v (1/2) *v x'))); [lra|exact Hh| |].
  + rewrite E at 1. rewrite E' at 1. vring.
  + replace ((1 / 2) *v (y -v y') +v (1 - 1 / 2) *v (x -v x')) with (((1/2) *v y +v (1/2) *v x) -v ((1/2) *v y' +v (1/2) *v x'))
      by (apply functional_extensionality; intros i; vunfold; lra). apply HD.
Qed.
Lemma midpoint_form {I} (N : vec I -> vec I) dt X0 x y : irk_predictor tab_ImplicitMidpoint 1 dt N X0 x y -> y = x -v dt *v N ((1/2) *v y +v (1/2) *v x).
Proof.
  intros H. apply irk_predictor_is_textbook in H. destruct H as (k & Hk & E). specialize (Hk 0%nat ltac:(lia)).
  unfold tab_ImplicitMidpoint, table, vopp in Hk, E; cbn in Hk, E.
  assert (A : x +v dt *v (vzero +v 0.5 *v k 0%nat) = (1/2) *v y +v (1/2) *v x) by (rewrite E; apply functional_extensionality; intros i; vunfold; lra).
  rewrite A in Hk. rewrite E at 1. rewrite Hk at 1. apply functional_extensionality; intros i; vunfold; lra.
Qed.
Lemma qin_zhang_form {I} (N : vec I -> vec I) dt X0 x y : irk_predictor tab_QinZhang 2 dt N X0 x y ->
  exists z, z = x -v (dt/2) *v N ((1/2) *v z +v (1/2) *v x) /\ y = z -v (dt/2) *v N ((1/2) *v y +v (1/2) *v z).
Proof.
  intros H. apply irk_predictor_is_textbook in H. destruct H as (k & Hk & E). pose proof (Hk 0%nat ltac:(lia)) as H0. pose proof (Hk 1%nat ltac:(lia)) as H1. clear Hk.
  unfold tab_QinZhang, table, vopp in H0, H1, E; cbn in H0, H1, E. exists (x +v (dt/2) *v k 0%nat).
  assert (A0 : x +v dt *v (vzero +v 0.25 *v k 0%nat) = (1/2) *v (x +v (dt/2) *v k 0%nat) +v (1/2) *v x) by (apply functional_extensionality; intros i; vunfold; lra).
  assert (A1 : x +v dt *v (vzero +v 0.5 *v k 0%nat +v 0.25 *v k 1%nat) = (1/2) *v y +v (1/2) *v (x +v (dt/2) *v k 0%nat)) by (rewrite E; apply functional_extensionality; intros i; vunfold; lra).
  rewrite A0 in H0. rewrite A1 in H1. clear A0 A1. split.
  - rewrite H0 at 1. vring.
  - rewrite E at 1. rewrite H1 at 1. apply functional_extensionality; intros i; vunfold; lra.
Qed.
(** Two runs never move apart (nonlinear problems). *)
Theorem implicit_runge_kutta_contractive : forall (I : Type) (B : vec I -> vec I -> R) (N : vec I -> vec I) dt,
  inner_product B -> dissipative B N -> 0 <= dt ->
  contractive B (fun x y => (exists X0, irk_predictor tab_ImplicitMidpoint 1 dt N X0 x y) \/
     exists st, (cached st = None \/ cached st = Some (tab_ImplicitMidpoint 0%nat 0%nat)) /\ irk_increment tab_ImplicitMidpoint 1 dt N st x y) /\
  contractive B (fun x y => (exists X0, irk_predictor tab_QinZhang 2 dt N X0 x y) \/
     exists st, (cached st = None \/ cached st = Some (tab_QinZhang 0%nat 0%nat)) /\ irk_increment tab_QinZhang 2 dt N st x y).
Proof.
  intros I B N dt HB HD Hdt. destruct irk_provided_schemes_constant_diagonal as [D1 D2].
  pose proof (midpoint_pair B N HB HD) as M. split; apply contractive_of_steps.
  - assert (R : forall x y, (exists X0, irk_predictor tab_ImplicitMidpoint 1 dt N X0 x y) \/
       (exists st, (cached st = None \/ cached st = Some (tab_ImplicitMidpoint 0%nat 0%nat)) /\ irk_increment tab_ImplicitMidpoint 1 dt N st x y) ->
       y = x -v dt *v N ((1/2) *v y +v (1/2) *v x)).
    { intros x y [[X0 H]|(st & Hc & H)]; [apply midpoint_form in H; exact H|].
      apply (irk_formulations_agree_partial I tab_ImplicitMidpoint 1 dt N st (fun _ => vzero) x y Hc D1) in H. apply midpoint_form in H; exact H. }
    intros x y x' y' H H'. apply R in H, H'. apply (M dt); assumption.
  - assert (R : forall x y, (exists X0, irk_predictor tab_QinZhang 2 dt N X0 x y) \/
       (exists st, (cached st = None \/ cached st = Some (tab_QinZhang 0%nat 0%nat)) /\ irk_increment tab_QinZhang 2 dt N st x y) ->
       exists z, z = x -v (dt/2) *v N ((1/2) *v z +v (1/2) *v x) /\ y = z -v (dt/2) *v N ((1/2) *v y +v (1/2) *v z)).
    { intros x y [[X0 H]|(st & Hc & H)]; [apply qin_zhang_form in H; exact H|].
      apply (irk_formulations_agree_partial I tab_QinZhang 2 dt N st (fun _ => vzero) x y Hc D2) in H. apply qin_zhang_form in H; exact H. }
    intros x y x' y' H H'. apply R in H as (z & Z1 & Z2). apply R in H' as (z' & Z1' & Z2').
    pose proof (M (dt/2) x z x' z' ltac:(lra) Z1 Z1'). pose proof (M (dt/2) z y z' y' ltac:(lra) Z2 Z2'). lra.
Qed.

(** ** BDF2 *)
(** Two runs of the whole scheme (backward Euler first, then BDF2) stay, at every step, within sqrt 2 times their starting distance. *)
Theorem bdf2_runs_stay_close : forall (I : Type) (B : vec I -> vec I -> R) (N : vec I -> vec I) dt n (x y : nat -> vec I),
  inner_product B -> dissipative B N -> 0 <= dt ->
  ml_run CBDF2 0 N dt x n -> ml_run CBDF2 0 N dt y n ->
  B (x n -v y n) (x n -v y n) <= 2 * B (x 0%nat -v y 0%nat) (x 0%nat -v y 0%nat).
Proof.
  intros I B N dt n x y HB HD Hdt Hx Hy.
  pose proof (proj1 (bdf2_run N dt x n) Hx) as Rx. pose proof (proj1 (bdf2_run N dt y n) Hy) as Ry. clear Hx Hy.
  destruct n as [|n]. { pose proof (Bpos B HB (x 0%nat -v y 0%nat)). lra. }
  assert (S1 : pair_energy B (x 1%nat -v y 1%nat) (x 0%nat -v y 0%nat) <= 2 * B (x 0%nat -v y 0%nat) (x 0%nat -v y 0%nat)).
  { pose proof (proj1 (Rx 0%nat ltac:(lia)) ltac:(lia)) as E. pose proof (proj1 (Ry 0%nat ltac:(lia)) ltac:(lia)) as E'.
    unfold backward_euler_step, F_of in E, E'. pose proof (HD (x 1%nat) (y 1%nat)) as D.
    set (d1 := x 1%nat -v y 1%nat) in *. set (d0 := x 0%nat -v y 0%nat) in *. set (f := N (x 1%nat) -v N (y 1%nat)) in *.
    assert (K : d0 = d1 +v dt *v f).
    { apply functional_extensionality; intros i. apply (f_equal (fun v => v i)) in E, E'. unfold d0, d1, f. vunfold. unfold vopp in *. lra. }
    rewrite K. unfold pair_energy. clear K E E'. pose proof (Bpos B HB f) as P. bx HB. rewrite (Bsym B HB f d1) in *.
    assert (0 <= dt * B d1 f) by nra. assert (0 <= dt * dt * B f f) by (repeat apply Rmult_le_pos; lra). nra. }
  assert (Sk : forall k, (S k <= S n)%nat -> pair_energy B (x (S k) -v y (S k)) (x k -v y k) <= 2 * B (x 0%nat -v y 0%nat) (x 0%nat -v y 0%nat)).
  { induction k as [|k IH]; intros Hk; [exact S1|]. eapply Rle_trans; [|apply IH; lia].
    pose proof (proj2 (Rx (S k) ltac:(lia)) ltac:(lia)) as E. pose proof (proj2 (Ry (S k) ltac:(lia)) ltac:(lia)) as E'.
    replace (S k - 1)%nat with k in E, E' by lia. unfold bdf2_step, F_of in E, E'.
    apply (bdf2_pair B HB dt (x k -v y k) (x (S k) -v y (S k)) (x (S (S k)) -v y (S (S k))) (N (x (S (S k))) -v N (y (S (S k))))); [exact Hdt| |apply HD].
    apply functional_extensionality; intros i. apply (f_equal (fun v => v i)) in E, E'. vunfold. unfold vopp in *. lra. }
  pose proof (Sk n ltac:(lia)) as K. unfold pair_energy in K. pose proof (Bpos B HB (2 *v (x (S n) -v y (S n)) -v (x n -v y n))). lra.
Qed.

(** ** TR-BDF2 *)
Lemma scaled_dissipative {I} (B : vec I -> vec I -> R) (N : vec I -> vec I) dt : inner_product B -> linear_dissipative B N -> 0 <= dt ->
  linear_dissipative B (fun v => dt *v N v).
Proof.
  intros HB [[H1 H2] HD] Hdt. split; [split|].
  - intros u v. rewrite H1. vring.
  - intros a v. rewrite H2. vring.
  - intros v. rewrite (Bmr B HB). apply Rmult_le_pos; [exact Hdt|apply HD].
Qed.
(** x = p + b L p, y + a L y = p - c L p *)
Lemma two_stage_energy {I} (B : vec I -> vec I -> R) (L : vec I -> vec I) a b c p x y : inner_product B -> linear_dissipative B L ->
  0 <= a -> 0 <= b -> 0 < c -> c * c <= a * a + b * b -> x = p +v b *v L p -> y +v a *v L y = p -v c *v L p -> B y y <= B x x.
Proof.
  intros HB HL Ha Hb Hc Hcc Ex Ey. pose proof HL as [[L1 L2] _].
  set (w := (c / (a + c)) *v p +v (a / (a + c)) *v y).
  assert (Lw : L w = (c / (a + c)) *v L p +v (a / (a + c)) *v L y) by (unfold w; rewrite L1, !L2; reflexivity).
  assert (E1 : p = w +v a *v L w).
  { rewrite Lw. unfold w. apply functional_extensionality; intros i. apply (f_equal (fun v => v i)) in Ey. vunfold.
    assert (K : y i = p i - c * L p i - a * L y i) by lra. rewrite K. field. lra. }
  assert (E2 : y = w -v c *v L w).
  { rewrite Lw. unfold w. apply functional_extensionality; intros i. apply (f_equal (fun v => v i)) in Ey. vunfold.
    assert (K : p i = y i + a * L y i + c * L p i) by lra. rewrite K. field. lra. }
  rewrite E2. replace x with (w +v (a + b) *v L w +v (a * b) *v L (L w)).
  - apply (two_poles B HB L a b c w HL); lra.
  - rewrite Ex, E1 at 1. rewrite E1. rewrite L1, L2. vring.
Qed.
Lemma tr_bdf2_energy {I} (B : vec I -> vec I -> R) (N : vec I -> vec I) g dt x y : inner_product B -> linear_dissipative B N -> 0 <= dt -> 0 < g <= 1 ->
  tr_bdf2_step g (neg N) dt x y -> B y y <= B x x.
Proof.
  intros HB HL Hdt Hg (z & Z & Y). pose proof HL as [[L1 L2] _].
  pose proof (scaled_dissipative B N dt HB HL Hdt) as HL'.
  apply (two_stage_energy B (fun v => dt *v N v) ((1 - g) / (2 - g)) (g / 2) ((1 + (1 - g) * (1 - g)) / (2 * (2 - g))) ((1/2) *v x +v (1/2) *v z) x y HB HL').
  - apply Rmult_le_pos; [lra|]. apply Rlt_le, Rinv_0_lt_compat; lra.
  - lra.
  - apply Rmult_lt_0_compat; [nra|]. apply Rinv_0_lt_compat; lra.
  - right. field. lra.
  - rewrite L1, !L2. unfold neg in Z. apply functional_extensionality; intros i. apply (f_equal (fun v => v i)) in Z. vunfold. lra.
  - rewrite L1, !L2. unfold neg in Z, Y. apply functional_extensionality; intros i. apply (f_equal (fun v => v i)) in Z, Y. vunfold.
    assert (K : dt * N x i + dt * N z i = 2 / g * (x i - z i)).
    { apply Rmult_eq_reg_l with (g / 2); [|lra]. replace (g / 2 * (2 / g * (x i - z i))) with (x i - z i) by (field; lra). lra. }
    assert (K2 : y i + (1 - g) / (2 - g) * (dt * N y i) = 1 / (g * (2 - g)) * z i - (1 - g) ^ 2 / (g * (2 - g)) * x i) by lra.
    rewrite K2. replace (dt * (1 / 2 * N x i + 1 / 2 * N z i)) with (/2 * (dt * N x i + dt * N z i)) by lra. rewrite K. field. lra.
Qed.
(** The energy of a linear dissipative problem never grows, for any time step, number of steps and gamma in (0, 1]. *)
Theorem tr_bdf2_energy_stable : forall (I : Type) (B : vec I -> vec I -> R) (N : vec I -> vec I) dt X g,
  inner_product B -> linear_dissipative B N -> 0 <= dt -> 0 < g <= 1 ->
  energy_stable B (fun x y => exists s, tr_bdf2_apply N dt X g vzero x (Ok y) s).
Proof.
  intros I B N dt X g HB HL Hdt Hg. apply energy_of_steps. intros x y H. apply tr_bdf2_is_textbook in H; [|exact Hg].
  apply (tr_bdf2_energy B N g dt x y); assumption.
Qed.

(** ** IMEX schemes, all terms implicit *)
Section Imex.
  Context {I : Type}.
  Definition all_implicit A D s dt (N : vec I -> vec I) (x y : vec I) : Prop :=
    exists ev st, imex_apply A D s dt N (fun _ => vzero) (fun _ => vzero) ev no_limiter st x y.
  Lemma all_implicit_stages A D s dt N x y : (0 < s)%nat -> all_implicit A D s dt N x y ->
    exists Y : nat -> vec I, (forall i, (i < s)%nat -> Y i = x -v dt *v vsum (S i) (fun j => A i j *v N (Y j))) /\
      y = x -v dt *v vsum s (fun j => A s j *v N (Y j)).
  Proof.
    intros Hs (ev & st & H). apply imex_is_textbook in H as (Y & HY & E); [|exact Hs]. exists Y.
    assert (Z : forall n (c : nat -> R), vsum n (fun j => c j *v vopp (vzero +v @vzero I)) = vzero).
    { intros n c. apply vsum_0. intros j _. unfold vopp. vring. }
    assert (Ng : forall n (c : nat -> R), vsum n (fun j => c j *v vopp (N (Y j))) = (-1) *v vsum n (fun j => c j *v N (Y j))).
    { intros n c. rewrite <- vsum_scal. apply vsum_ext. intros j _. unfold vopp. vring. }
    split; [intros i Hi; rewrite (HY i Hi) at 1|rewrite E]; rewrite Z, Ng; vring.
  Qed.
End Imex.
(** Two runs of IMEX_Euler and IMEX_ARS3 never move apart (nonlinear problems). *)
Theorem imex_contractive : forall (I : Type) (B : vec I -> vec I -> R) (N : vec I -> vec I) dt,
  inner_product B -> dissipative B N -> 0 <= dt ->
  contractive B (all_implicit imex_euler_imp imex_euler_exp 2 dt N) /\ contractive B (all_implicit ars3_imp ars3_exp 3 dt N).
Proof.
  intros I B N dt HB HD Hdt. split; apply contractive_of_steps; intros x y x' y' H H';
    apply all_implicit_stages in H as (Y & HY & E); try lia; apply all_implicit_stages in H' as (Y' & HY' & E'); try lia;
    pose proof (HY 1%nat ltac:(lia)) as E1; pose proof (HY' 1%nat ltac:(lia)) as E1'.
  - unfold imex_euler_imp, table in E, E', E1, E1'. cbn in E, E', E1, E1'.
    assert (K : y = Y 1%nat) by (rewrite E; symmetry; exact E1). assert (K' : y' = Y' 1%nat) by (rewrite E'; symmetry; exact E1').
    rewrite <- K in *. rewrite <- K' in *. apply (implicit_step B HB dt (x -v x') (y -v y') (N y -v N y')); [exact Hdt| |apply HD].
    apply functional_extensionality; intros i. apply (f_equal (fun v => v i)) in E1, E1'. vunfold. lra.
  - pose proof (HY 2%nat ltac:(lia)) as E2. pose proof (HY' 2%nat ltac:(lia)) as E2'. clear HY HY'.
    unfold ars3_imp, table in E, E', E1, E1', E2, E2'. cbn in E, E', E1, E1', E2, E2'.
    pose proof (HD (Y 1%nat) (Y' 1%nat)) as D1. pose proof (HD (Y 2%nat) (Y' 2%nat)) as D2.
    set (k1 := N (Y 1%nat) -v N (Y' 1%nat)) in *. set (k2 := N (Y 2%nat) -v N (Y' 2%nat)) in *.
    assert (F1 : Y 1%nat -v Y' 1%nat = (x -v x') -v (dt * ars3_g) *v k1).
    { unfold k1. apply functional_extensionality; intros i. apply (f_equal (fun v => v i)) in E1, E1'. vunfold. lra. }
    assert (F2 : Y 2%nat -v Y' 2%nat = (x -v x') -v (dt * (1 - 2 * ars3_g)) *v k1 -v (dt * ars3_g) *v k2).
    { unfold k1, k2. apply functional_extensionality; intros i. apply (f_equal (fun v => v i)) in E2, E2'. vunfold. lra. }
    assert (F : y -v y' = (x -v x') -v (dt / 2) *v (k1 +v k2)).
    { unfold k1, k2. apply functional_extensionality; intros i. apply (f_equal (fun v => v i)) in E, E'. vunfold. lra. }
    rewrite F1 in D1. rewrite F2 in D2. rewrite F. clear E E' E1 E1' E2 E2' F F1 F2.
    set (d := x -v x') in *. pose proof (Bpos B HB (k1 -v k2)) as P.
    assert (G : 1/4 <= ars3_g). { unfold ars3_g. pose proof (sqrt_pos 3). lra. }
    bx HB. rewrite (Bsym B HB k2 k1), (Bsym B HB k1 d), (Bsym B HB k2 d) in *.
    set (g := ars3_g) in *. set (b11 := B k1 k1) in *. set (b12 := B k1 k2) in *. set (b22 := B k2 k2) in *. set (c1 := B d k1) in *. set (c2 := B d k2) in *.
    assert (0 <= dt * (c1 - dt * g * b11)) by (apply Rmult_le_pos; lra).
    assert (0 <= dt * (c2 - dt * (1 - 2 * g) * b12 - dt * g * b22)) by (apply Rmult_le_pos; lra).
    assert (0 <= (g - 1/4) * (dt * dt) * (b11 - 2 * b12 + b22)) by (repeat apply Rmult_le_pos; lra). nra.
Qed.
(** The energy of linear problems never grows with IMEX_ARK2, IMEX_SSP3 and IMEX_Trap2. *)
Theorem imex_energy_stable : forall (I : Type) (B : vec I -> vec I -> R) (N : vec I -> vec I) dt,
  inner_product B -> linear_dissipative B N -> 0 <= dt ->
  energy_stable B (all_implicit ark2_imp ark2_exp 3 dt N) /\ energy_stable B (all_implicit ssp3_imp ssp3_exp 3 dt N) /\
  energy_stable B (all_implicit trap2_imp trap2_exp 4 dt N).
Proof.
  intros I B N dt HB HL Hdt. pose proof HL as [[L1 L2] HD]. pose proof (scaled_dissipative B N dt HB HL Hdt) as HL'.
  pose proof sqrt2_sq as S2. pose proof inv_sqrt2 as S3. pose proof inv_2sqrt2 as S4. pose proof (sqrt_pos 2) as S5.
  assert (S6 : 1 < sqrt 2 < 3/2) by (split; nra). 
  split; [|split]; apply energy_of_steps; intros x y H; apply all_implicit_stages in H as (Y & HY & E); try lia.
  - pose proof (HY 0%nat ltac:(lia)) as E0. pose proof (HY 1%nat ltac:(lia)) as E1. pose proof (HY 2%nat ltac:(lia)) as E2. clear HY.
    unfold ark2_imp, ark2_g, ark2_d, table in E, E0, E1, E2. cbn in E, E0, E1, E2.
    assert (K : y = Y 2%nat) by (rewrite E; symmetry; exact E2).
    assert (K0 : Y 0%nat = x) by (rewrite E0; apply functional_extensionality; intros i; vunfold; ring).
    rewrite <- K in *. rewrite K0 in *. clear E E0 K K0. rewrite S3 in E1, E2. rewrite S4 in E2.
    set (q := sqrt 2) in *.
    apply (two_stage_energy B (fun v => dt *v N v) (1 - q / 2) (1 - q / 2) (q - 1) ((1/2) *v x +v (1/2) *v Y 1%nat) x y HB HL'); try lra; try nra.
    + rewrite L1, !L2. apply functional_extensionality; intros i. apply (f_equal (fun v => v i)) in E1. vunfold. lra.
    + rewrite L1, !L2. apply functional_extensionality; intros i. apply (f_equal (fun v => v i)) in E1, E2. vunfold. nra.
  - pose proof (HY 0%nat ltac:(lia)) as E0. pose proof (HY 1%nat ltac:(lia)) as E1. pose proof (HY 2%nat ltac:(lia)) as E2. clear HY.
    unfold ssp3_imp, table in E, E0, E1, E2. cbn in E, E0, E1, E2. rewrite S3 in E0, E1, E2. 
    set (q := sqrt 2) in *. set (L := fun v => dt *v N v) in *. set (g := 1 - q / 2) in *.
    assert (G : 2 * g * g = (1 - 2 * g) * (1 - 2 * g)) by (unfold g; nra).
    assert (G1 : 0 < g) by (unfold g; lra). assert (G2 : 0 < 1 - 2 * g) by (unfold g; lra).
    assert (G3 : g * g = 2 * g - 1/2) by lra.
    assert (LL1 : forall u v, L (u +v v) = L u +v L v) by apply HL'. assert (LL2 : forall a v, L (a *v v) = a *v L v) by apply HL'.
    assert (LLs : forall u v, L (u -v v) = L u -v L v).
    { intros u v. replace (u -v v) with (u +v (-1) *v v) by vring. rewrite LL1, LL2. vring. }
    assert (F0 : Y 0%nat +v g *v L (Y 0%nat) = x).
    { apply functional_extensionality; intros i. apply (f_equal (fun v => v i)) in E0. unfold L. vunfold. lra. }
    assert (F1 : Y 1%nat +v g *v L (Y 1%nat) = x -v (1 - 2 * g) *v L (Y 0%nat)).
    { apply functional_extensionality; intros i. apply (f_equal (fun v => v i)) in E1. unfold L. vunfold. lra. }
    assert (F2 : Y 2%nat +v g *v L (Y 2%nat) = x -v (1/2 - g) *v L (Y 0%nat)).
    { apply functional_extensionality; intros i. apply (f_equal (fun v => v i)) in E2. unfold L. vunfold. lra. }
    assert (F : y = x -v (1/6) *v L (Y 0%nat) -v (1/6) *v L (Y 1%nat) -v (2/3) *v L (Y 2%nat)).
    { apply functional_extensionality; intros i. apply (f_equal (fun v => v i)) in E. unfold L. vunfold. lra. }
    clear E E0 E1 E2. set (V := (/ (1 - 2 * g)) *v (Y 0%nat -v Y 1%nat)).
    assert (LV : V +v g *v L V = L (Y 0%nat)).
    { unfold V. rewrite LL2, LLs. apply functional_extensionality; intros i. apply (f_equal (fun v => v i)) in F0, F1. vunfold.
      apply Rmult_eq_reg_l with (1 - 2 * g); [|lra].
      replace ((1 - 2 * g) * (/ (1 - 2 * g) * (Y 0%nat i - Y 1%nat i) + g * (/ (1 - 2 * g) * (L (Y 0%nat) i - L (Y 1%nat) i))))
        with (Y 0%nat i - Y 1%nat i + g * (L (Y 0%nat) i - L (Y 1%nat) i)) by (field; lra). lra. }
    set (w := Y 0%nat -v g *v V).
    assert (Lw : L w = V). { unfold w. rewrite LLs, LL2. rewrite <- LV. vring. }
    assert (W2 : Y 2%nat -v (w +v (2 * g - 1/2) *v L w) = vzero).
    { apply (shifted_injective B HB L g _ HL'); [lra|]. rewrite LLs, LL1, LL2, Lw. unfold w.
      apply functional_extensionality; intros i. apply (f_equal (fun v => v i)) in F0, F2, LV. vunfold. nra. }
    assert (Y0 : Y 0%nat = w +v g *v L w). { rewrite Lw. unfold w. vring. }
    assert (Y1 : Y 1%nat = w +v (3 * g - 1) *v L w).
    { rewrite Lw. unfold w, V. apply functional_extensionality; intros i. vunfold. field. lra. }
    assert (Y2 : Y 2%nat = w +v (2 * g - 1/2) *v L w).
    { apply functional_extensionality; intros i. apply (f_equal (fun v => v i)) in W2. vunfold. lra. }
    assert (Ex : x = w +v (g + g) *v L w +v (g * g) *v L (L w)). { rewrite <- F0, Y0, LL1, LL2. vring. }
    assert (Ey : y = w -v (1 - 2 * g) *v L w).
    { rewrite F, Y0, Y1, Y2, Ex, !LL1, !LL2. apply functional_extensionality; intros i. vunfold. rewrite G3. field. }
    rewrite Ex, Ey. apply (two_poles B HB L g g (1 - 2 * g) w HL'); lra.
  - pose proof (HY 0%nat ltac:(lia)) as E0. pose proof (HY 3%nat ltac:(lia)) as E3. clear HY.
    unfold trap2_imp, table in E, E0, E3. cbn in E, E0, E3.
    assert (K : y = Y 3%nat) by (rewrite E; symmetry; exact E3).
    assert (K0 : Y 0%nat = x) by (rewrite E0; apply functional_extensionality; intros i; vunfold; ring).
    rewrite <- K in *. rewrite K0 in *. clear E E0.
    apply (mean_step B HB (1/2) dt x y (N ((1/2) *v y +v (1 - 1/2) *v x))); [lra|exact Hdt| |apply HD].
    rewrite L1, !L2. apply functional_extensionality; intros i. apply (f_equal (fun v => v i)) in E3. vunfold. lra.
Qed.

(** ** Uniqueness: for a dissipative problem a run is determined by its start *)
Lemma contractive_determines {I} (B : vec I -> vec I -> R) (step : vec I -> vec I -> Prop) : inner_product B -> contractive B step ->
  forall n x y y', repeated step n x y -> repeated step n x y' -> y = y'.
Proof.
  intros HB HC n x y y' H H'. pose proof (HC n x y x y' H H') as K. replace (x -v x) with (0 *v x) in K by vring.
  rewrite (Bmr B HB), Rmult_0_l in K. pose proof (Bpos B HB (y -v y')).
  assert (Z : y -v y' = vzero) by (apply (Bdef B HB); lra).
  apply functional_extensionality; intros i. apply (f_equal (fun v => v i)) in Z. vunfold. lra.
Qed.
Theorem implicit_runs_are_determined : forall (I : Type) (B : vec I -> vec I -> R) (N : vec I -> vec I) dt X m n x y y',
  inner_product B -> dissipative B N -> 0 <= dt ->
  (repeated (fun x y => exists src src', be_apply N (fun _ => vzero) dt X m src x y src') n x y ->
   repeated (fun x y => exists src src', be_apply N (fun _ => vzero) dt X m src x y src') n x y' -> y = y') /\
  (forall th, 1/2 <= th <= 1 -> forall src src', theta_apply N (fun _ => vzero) dt X th n src x y src' -> theta_apply N (fun _ => vzero) dt X th n src x y' src' -> y = y') /\
  (forall u v, u 0%nat = v 0%nat -> ml_run CBDF2 0 N dt u n -> ml_run CBDF2 0 N dt v n -> u n = v n) /\
  (forall scheme, In scheme [all_implicit imex_euler_imp imex_euler_exp 2; all_implicit ars3_imp ars3_exp 3] ->
     repeated (scheme dt N) n x y -> repeated (scheme dt N) n x y' -> y = y').
Proof.
  intros I B N dt X m n x y y' HB HD Hdt.
  assert (Q : forall u v : vec I, B (u -v v) (u -v v) <= 0 -> u = v).
  { intros u v K. pose proof (Bpos B HB (u -v v)). assert (Z : u -v v = vzero) by (apply (Bdef B HB); lra).
    apply functional_extensionality; intros i. apply (f_equal (fun v => v i)) in Z. vunfold. lra. }
  assert (Z0 : forall u : vec I, B (u -v u) (u -v u) = 0).
  { intros u. replace (u -v u) with (0 *v u) by vring. rewrite (Bmr B HB). ring. }
  split; [|split; [|split]].
  - apply contractive_determines with B; [exact HB|]. apply backward_euler_contractive; assumption.
  - intros th Ht src src' H H'. apply Q. pose proof (theta_runs_stay_close I B N dt X th n x y x y' src src' HB HD Hdt Ht H H') as K. cbv zeta in K. rewrite Z0 in K. exact K.
  - intros u v E Hu Hv. apply Q. pose proof (bdf2_runs_stay_close I B N dt n u v HB HD Hdt Hu Hv) as K. rewrite E, Z0 in K. lra.
  - intros scheme Hs. destruct (imex_contractive I B N dt HB HD Hdt) as [C1 C2].
    destruct Hs as [<-|[<-|[]]]; (apply contractive_determines with B; assumption).
Qed.

(** ** Adams-Moulton of order 2 and more is not unconditionally stable *)
Definition product1 (x y : vec unit) : R := x tt * y tt.
Lemma product1_inner : inner_product product1.
Proof.
  unfold product1. repeat split; intros; vunfold; try ring.
  - nra.
  - apply functional_extensionality; intros []. nra.
Qed.
Lemma decay_dissipative l : 0 <= l -> linear_dissipative product1 (fun y => l *v y).
Proof. intros H. split; [split; intros; vring|]. intros x. unfold product1. vunfold. assert (0 <= x tt * x tt) by nra. nra. Qed.
Definition am_c : R := (3888 * 82) / (3977 * 133).
Definition am_growth (n : nat) : vec unit := fun _ => am_c * (-3/2) ^ n + (1 - am_c) * (5/41) ^ n.
Lemma am_growth_run n : ml_run CAM 2 (fun y => (180/7) *v y) 1 am_growth n.
Proof.
  apply am_run; [lia|]. intros j _. split; intros H.
  - assert (j = 0)%nat by lia. subst j. unfold trapezium_step, F_of, vopp. apply functional_extensionality; intros []. vunfold. unfold am_growth, am_c. cbn. field.
  - destruct j as [|j]; [cbn in H; lia|]. unfold adams_step, F_of, vopp. cbn [vsum nth snd fst am_coefficients].
    replace (S j - 0)%nat with (S j) by lia. replace (S j - 1)%nat with j by lia. apply functional_extensionality; intros []. vunfold. unfold am_growth. cbn [pow].
    generalize ((-3/2) ^ j) ((5/41) ^ j) am_c. intros a b c. field.
Qed.
Lemma am_growth_large M : exists n, M < product1 (am_growth n) (am_growth n).
Proof.
  assert (A : 1/2 < am_c <= 1) by (unfold am_c; lra).
  destruct (INR_above (16 * (Rabs M + 1))) as [n Hn]. exists n. unfold product1, am_growth.
  assert (P : 1 + INR n / 2 <= (3/2) ^ n).
  { clear Hn. induction n as [|n IH]; [cbn; lra|]. rewrite S_INR. cbn [pow]. pose proof (pos_INR n). nra. }
  assert (P2 : 0 <= (5/41) ^ n <= 1).
  { clear. induction n as [|n IH]; [cbn; lra|]. cbn [pow]. nra. }
  assert (P3 : (-3/2) ^ n * (-3/2) ^ n = (3/2) ^ n * (3/2) ^ n).
  { rewrite <- !Rpow_mult_distr. f_equal. lra. }
  pose proof (Rle_abs M). pose proof (Rabs_pos M).
  set (p := (-3/2) ^ n) in *. set (q := (3/2) ^ n) in *. set (r := (5/41) ^ n) in *.
  assert (Q1 : 1 <= q) by (pose proof (pos_INR n); lra). assert (Q2 : 8 * (Rabs M + 1) < q) by lra.
  assert (Q3 : (am_c * p) * (am_c * p) = (am_c * q) * (am_c * q)) by nra.
  assert (Q4 : q / 2 <= am_c * q) by nra.
  assert (Q5 : 0 <= (1 - am_c) * r <= 1) by nra.
  set (u := am_c * p) in *. set (v := am_c * q) in *. set (w := (1 - am_c) * r) in *.
  assert (V : 4 * (Rabs M + 1) < v) by lra.
  assert (U : (v - 1) * (v - 1) <= (u + w) * (u + w)).
  { destruct (Rle_dec 0 u); [assert (u = v) by nra; subst u; nra|assert (u = - v) by nra; nra]. }
  nra.
Qed.
(** C141 fails for AdamsMoulton(order=2), although implicit: for pure friction with dt times the rate 180/7 the energy of its
    runs (trapezium start included) exceeds every multiple of the initial energy. *)
Theorem adams_moulton_unstable_refuted :
  exists (B : vec unit -> vec unit -> R) N, inner_product B /\ linear_dissipative B N /\
  forall C, exists n x, ml_run CAM 2 N 1 x n /\ C * B (x 0%nat) (x 0%nat) < B (x n) (x n).
Proof.
  exists product1, (fun y => (180/7) *v y). split; [exact product1_inner|]. split; [apply decay_dissipative; lra|].
  intros C. destruct (am_growth_large C) as [n Hn]. exists n, am_growth. split; [apply am_growth_run|].
  replace (product1 (am_growth 0) (am_growth 0)) with 1; [lra|]. unfold product1, am_growth. cbn. lra.
Qed.
(** Order 1 is stable. *)
Theorem adams_moulton_1_energy_stable : forall (I : Type) (B : vec I -> vec I -> R) (N : vec I -> vec I) dt x n,
  inner_product B -> linear_dissipative B N -> 0 <= dt -> ml_run CAM 1 N dt x n -> B (x n) (x n) <= B (x 0%nat) (x 0%nat).
Proof.
  intros I B N dt x n HB [[L1 L2] HD] Hdt H. pose proof (proj1 (am_run 1 N dt x n ltac:(lia)) H) as R. clear H.
  assert (K : forall j, (j <= n)%nat -> B (x j) (x j) <= B (x 0%nat) (x 0%nat)); [|apply K; lia].
  induction j as [|j IH]; intros Hj; [lra|]. eapply Rle_trans; [|apply IH; lia].
  pose proof (proj2 (R j ltac:(lia)) ltac:(cbn; lia)) as E. unfold adams_step, F_of, vopp in E. cbn [vsum nth snd fst am_coefficients] in E.
  replace (j - 0)%nat with j in E by lia.
  apply (mean_step B HB (1/2) dt (x j) (x (S j)) (N ((1/2) *v x (S j) +v (1 - 1/2) *v x j))); [lra|exact Hdt| |apply HD].
  rewrite L1, !L2. apply functional_extensionality; intros i. apply (f_equal (fun v => v i)) in E. vunfold. lra.
Qed.

(** ** The hypotheses are met *)
(** rotation (f-plane inertial oscillations) plus friction, energy u^2 + v^2 *)
Definition product2 (x y : vec bool) : R := x true * y true + x false * y false.
Definition inertial (f r : R) (x : vec bool) : vec bool := fun b => if b then r * x true - f * x false else r * x false + f * x true.
Example stability_hypotheses_met : inner_product product2 /\ (forall f r, 0 <= r -> linear_dissipative product2 (inertial f r) /\ dissipative product2 (inertial f r)) /\
  (forall f, exists src', be_apply (inertial f 0) (fun _ => vzero) 1 vzero 1 vzero (fun b : bool => 1) (fun b : bool => if b then (1 + f) / (1 + f * f) else (1 - f) / (1 + f * f)) src') /\
  dissipative product1 (fun y => fun _ => y tt * y tt * y tt).
Proof.
  assert (P : inner_product product2).
  { unfold product2. repeat split; intros; vunfold; try ring.
    - nra.
    - apply functional_extensionality; intros []; nra. }
  split; [exact P|]. split; [|split].
  - intros f r Hr. assert (L : linear_dissipative product2 (inertial f r)).
    { split; [split; intros; apply functional_extensionality; intros []; unfold inertial; vunfold; ring|].
      intros x. unfold product2, inertial. replace (x true * (r * x true - f * x false) + x false * (r * x false + f * x true)) with (r * (x true * x true + x false * x false)) by ring.
      apply Rmult_le_pos; [exact Hr|nra]. }
    split; [exact L|]. intros x y. replace (inertial f r x -v inertial f r y) with (inertial f r (x -v y)); [apply L|].
    apply functional_extensionality; intros []; unfold inertial; vunfold; ring.
  - intros f. apply (proj1 (proj2 (theta_schemes_are_textbook bool (inertial f 0) (fun _ => vzero) 1 vzero vzero 1 _ _))). cbn [steps].
    eexists. split; [|reflexivity]. unfold theta_step, neg, inertial. assert (0 <= f * f) by nra.
    apply functional_extensionality; intros []; vunfold; field; lra.
  - intros x y. unfold product1. vunfold. generalize (x tt) (y tt). intros a b. 
    replace ((a - b) * (a * a * a - b * b * b)) with ((a - b) * (a - b) * (a * a + a * b + b * b)) by ring. apply Rmult_le_pos; [apply Rle_0_sqr|].
    pose proof (Rle_0_sqr (a + b / 2)). pose proof (Rle_0_sqr b). unfold Rsqr in *. nra.
Qed.

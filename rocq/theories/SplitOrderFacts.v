(** Composition of Runge-Kutta substeps for different parts is an additive Runge-Kutta method: order conditions. *)
From Coq Require Import Lra Lia.
From Verif Require Import Base Vec ConvergenceSpec ConvergenceFacts.
Open Scope R_scope.

(** a Runge-Kutta table: stages, coefficients, weights *)
Record rk := mk_rk { st : nat; ra : nat -> nat -> R; rb : nat -> R }.
Definition rk_step {I} (T : rk) (F : vec I -> vec I) (h : R) (x x' : vec I) : Prop :=
  exists k : nat -> vec I, (forall i, (i < st T)%nat -> k i = F (x +v h *v vsum (st T) (fun j => ra T i j *v k j))) /\ x' = x +v h *v vsum (st T) (fun j => rb T j *v k j).
Definition rk_bounded (T : rk) : Prop := exists B, 0 <= B /\ forall i j, Rabs (ra T i j) <= B /\ Rabs (rb T i) <= B.

(** an additive table *)
Record ark := mk_ark { sa : nat; aa : nat -> nat -> nat -> R; ab : nat -> nat -> R }.
Definition empty_ark : ark := mk_ark 0 (fun _ _ _ => 0) (fun _ _ => 0).
Definition append (t : ark) (e : nat * R * rk) : ark :=
  let '(q, w, T) := e in
  mk_ark (sa t + st T)
    (fun r i j => if Nat.ltb i (sa t) then (if Nat.ltb j (sa t) then aa t r i j else 0)
                  else if Nat.ltb j (sa t) then ab t r j else if Nat.eqb r q then w * ra T (i - sa t) (j - sa t) else 0)
    (fun r j => if Nat.ltb j (sa t) then ab t r j else if Nat.eqb r q then w * rb T (j - sa t) else 0).

Lemma vsum_pick {I} m q (f : nat -> vec I) : (q < m)%nat -> vsum m (fun r => if Nat.eqb r q then f r else vzero) = f q.
Proof.
  induction m as [|m IH]; intros Hq; [lia|]. cbn [vsum]. destruct (Nat.eq_dec q m) as [->|N].
  - rewrite Nat.eqb_refl. rewrite vsum_0; [vring|]. intros k Hk. destruct (Nat.eqb_spec k m); [lia|reflexivity].
  - rewrite IH by lia. destruct (Nat.eqb_spec m q); [lia|]. vring.
Qed.
Lemma if_lt {X} (a b : X) i n : (i < n)%nat -> (if Nat.ltb i n then a else b) = a.
Proof. intros H. destruct (Nat.ltb_spec i n); [reflexivity|lia]. Qed.
Lemma if_ge {X} (a b : X) i n : (n <= i)%nat -> (if Nat.ltb i n then a else b) = b.
Proof. intros H. destruct (Nat.ltb_spec i n); [lia|reflexivity]. Qed.

Section Append.
Context {I : Type}.
Variables (m : nat) (F : nat -> vec I -> vec I).
Lemma part_sum (t : ark) q w T (k : nat -> nat -> vec I) (c : nat -> nat -> R) (d : nat -> R) :
  (q < m)%nat ->
  vsum m (fun r => vsum (sa t + st T) (fun j => (if Nat.ltb j (sa t) then c r j else if Nat.eqb r q then w * d (j - sa t)%nat else 0) *v k r j)) =
  vsum m (fun r => vsum (sa t) (fun j => c r j *v k r j)) +v w *v vsum (st T) (fun j => d j *v k q (sa t + j)%nat).
Proof.
  intros Hq. transitivity (vsum m (fun r => vsum (sa t) (fun j => c r j *v k r j) +v (if Nat.eqb r q then w *v vsum (st T) (fun j => d j *v k r (sa t + j)%nat) else vzero))).
  - apply vsum_ext. intros r Hr. rewrite vsum_split. f_equal.
    + apply vsum_ext. intros j Hj. rewrite if_lt by exact Hj. reflexivity.
    + destruct (Nat.eqb_spec r q) as [->|N].
      * rewrite <- vsum_scal. apply vsum_ext. intros j Hj. rewrite if_ge by lia. replace (sa t + j - sa t)%nat with j by lia. vring.
      * apply vsum_0. intros j Hj. rewrite if_ge by lia. vring.
  - rewrite vsum_add. f_equal. apply (vsum_pick m q (fun r => w *v vsum (st T) (fun j => d j *v k r (sa t + j)%nat))). exact Hq.
Qed.
Lemma append_step t q w T h x z x' : (q < m)%nat -> ark_step m (sa t) (aa t) (ab t) F everywhere h x z -> rk_step T (F q) (h * w) z x' ->
  ark_step m (sa (append t (q, w, T))) (aa (append t (q, w, T))) (ab (append t (q, w, T))) F everywhere h x x'.
Proof.
  intros Hq (k1 & _ & K1 & E1) (k2 & K2 & E2). cbn [append sa aa ab].
  set (v := fun i => z +v (h * w) *v vsum (st T) (fun j => ra T i j *v k2 j)).
  set (k := fun r i => if Nat.ltb i (sa t) then k1 r i else F r (v (i - sa t)%nat)).
  assert (k_lo : forall r i, (i < sa t)%nat -> k r i = k1 r i) by (intros; unfold k; apply if_lt; assumption).
  assert (k_hi : forall j, (j < st T)%nat -> k q (sa t + j)%nat = k2 j). { intros j Hj. unfold k. rewrite if_ge by lia. replace (sa t + j - sa t)%nat with j by lia. unfold v. symmetry. apply K2. exact Hj. }
  assert (hi : forall d, x +v h *v vsum m (fun r => vsum (sa t + st T) (fun j => (if Nat.ltb j (sa t) then ab t r j else if Nat.eqb r q then w * d (j - sa t)%nat else 0) *v k r j)) =
    z +v (h * w) *v vsum (st T) (fun j => d j *v k2 j)).
  { intros d. rewrite (part_sum t q w T k (ab t) d Hq).
    rewrite (vsum_ext (st T) (fun j => d j *v k q (sa t + j)%nat) (fun j => d j *v k2 j)) by (intros j Hj; rewrite k_hi by exact Hj; reflexivity).
    rewrite E1. rewrite (vsum_ext m _ (fun q0 => vsum (sa t) (fun i => ab t q0 i *v k1 q0 i))). { vring. } intros r Hr. apply vsum_ext. intros j Hj. rewrite k_lo by exact Hj. reflexivity. }
  exists k. split; [intros; exact Logic.I|]. split.
  - intros r i Hr Hi. destruct (Nat.ltb_spec i (sa t)) as [Hlo|Hhi].
    + rewrite k_lo by exact Hlo. rewrite (K1 r i Hr Hlo). f_equal. f_equal. f_equal. apply vsum_ext. intros r' Hr'. rewrite vsum_split.
      rewrite (vsum_0 (st T)). { transitivity (vsum (sa t) (fun j => aa t r' i j *v k1 r' j) +v vzero); [vring|]. f_equal. apply vsum_ext. intros j Hj. rewrite if_lt, k_lo by exact Hj. reflexivity. }
      intros j Hj. rewrite if_ge by lia. vring.
    + unfold k at 1. rewrite if_ge by exact Hhi. f_equal. unfold v. symmetry. apply (hi (fun j => ra T (i - sa t) j)).
  - rewrite E2. symmetry. apply (hi (rb T)).
Qed.
End Append.

(** weights and second-order sums of an additive table *)
Definition W (t : ark) (r : nat) : R := rsum (sa t) (fun i => ab t r i).
Definition D (t : ark) (q r : nat) : R := rsum (sa t) (fun i => ab t q i * cc (sa t) (aa t) r i).
Definition on (r q : nat) (w : R) : R := if Nat.eqb r q then w else 0.
Lemma append_W t q w T r : rsum (st T) (rb T) = 1 -> W (append t (q, w, T)) r = W t r + on r q w.
Proof.
  intros H. unfold W. cbn [append sa ab]. rewrite rsum_split. f_equal.
  - apply rsum_ext. intros j Hj. rewrite if_lt by exact Hj. reflexivity.
  - transitivity (rsum (st T) (fun j => on r q w * rb T j)).
    + apply rsum_ext. intros j Hj. rewrite if_ge by lia. replace (sa t + j - sa t)%nat with j by lia. unfold on. destruct (Nat.eqb r q); ring.
    + rewrite rsum_scal. transitivity (on r q w * 1); [f_equal; exact H|ring].
Qed.
Lemma append_cc_lo t q w T r i : (i < sa t)%nat -> cc (sa (append t (q, w, T))) (aa (append t (q, w, T))) r i = cc (sa t) (aa t) r i.
Proof.
  intros Hi. unfold cc. cbn [append sa aa]. rewrite rsum_split. rewrite (rsum_0 (st T)). { rewrite Rplus_0_r. apply rsum_ext. intros j Hj. rewrite if_lt, if_lt by assumption. reflexivity. }
  intros j Hj. rewrite if_lt by exact Hi. rewrite if_ge by lia. reflexivity.
Qed.
Lemma append_cc_hi t q w T r i : cc (sa (append t (q, w, T))) (aa (append t (q, w, T))) r (sa t + i) = W t r + on r q w * rsum (st T) (ra T i).
Proof.
  unfold cc, W. cbn [append sa aa]. rewrite rsum_split. f_equal.
  - apply rsum_ext. intros j Hj. rewrite if_ge by lia. rewrite if_lt by exact Hj. reflexivity.
  - rewrite <- rsum_scal. apply rsum_ext. intros j Hj. rewrite !if_ge by lia. replace (sa t + i - sa t)%nat with i by lia. replace (sa t + j - sa t)%nat with j by lia. unfold on. destruct (Nat.eqb r q); ring.
Qed.
Lemma append_D t p w T q r : rsum (st T) (rb T) = 1 -> rsum (st T) (fun i => rb T i * rsum (st T) (ra T i)) = 1 / 2 ->
  D (append t (p, w, T)) q r = D t q r + on q p w * (W t r + on r p w / 2).
Proof.
  intros H1 H2. unfold D at 1. change (sa (append t (p, w, T))) with (sa t + st T)%nat at 1. rewrite rsum_split. f_equal.
  - apply rsum_ext. intros i Hi. rewrite append_cc_lo by exact Hi. cbn [append ab]. rewrite if_lt by exact Hi. reflexivity.
  - transitivity (rsum (st T) (fun i => (on q p w * W t r) * rb T i + (on q p w * on r p w) * (rb T i * rsum (st T) (ra T i)))).
    + apply rsum_ext. intros i Hi. rewrite append_cc_hi. cbn [append ab]. rewrite if_ge by lia. replace (sa t + i - sa t)%nat with i by lia. unfold on. destruct (Nat.eqb q p); ring.
    + rewrite rsum_add, !rsum_scal, H2. transitivity (on q p w * W t r * 1 + on q p w * on r p w * (1 / 2)); [f_equal; f_equal; exact H1|field].
Qed.
Lemma append_bounded t q w T B : coefficients_at_most (aa t) (ab t) B -> 0 <= B -> rk_bounded T -> exists B', 0 <= B' /\ coefficients_at_most (aa (append t (q, w, T))) (ab (append t (q, w, T))) B'.
Proof.
  intros H B0 (C & C0 & HC). exists (B + Rabs w * C). pose proof (Rmult_le_pos _ _ (Rabs_pos w) C0) as P. split; [lra|].
  intros r i j. cbn [append aa ab]. split.
  - destruct (Nat.ltb i (sa t)), (Nat.ltb j (sa t)); [pose proof (proj1 (H r i j)); lra|rewrite Rabs_R0; lra|pose proof (proj2 (H r j j)); lra|].
    destruct (Nat.eqb r q); [|rewrite Rabs_R0; lra]. rewrite Rabs_mult. pose proof (Rmult_le_compat_l (Rabs w) _ _ (Rabs_pos w) (proj1 (HC (i - sa t) (j - sa t))%nat)). lra.
  - destruct (Nat.ltb i (sa t)); [pose proof (proj2 (H r i j)); lra|]. destruct (Nat.eqb r q); [|rewrite Rabs_R0; lra]. rewrite Rabs_mult. pose proof (Rmult_le_compat_l (Rabs w) _ _ (Rabs_pos w) (proj2 (HC (i - sa t) j)%nat)). lra.
Qed.

(** ** Lists of substeps *)
Definition compose (l : list (nat * R * rk)) (t : ark) : ark := fold_left append l t.
Fixpoint chain {I} (F : nat -> vec I -> vec I) (l : list (nat * R * rk)) (h : R) (x x' : vec I) : Prop :=
  match l with [] => x' = x | (q, w, T) :: tl => exists z, rk_step T (F q) (h * w) x z /\ chain F tl h z x' end.
Lemma chain_ark {I} m (F : nat -> vec I -> vec I) l : (forall q w T, In (q, w, T) l -> (q < m)%nat) -> forall t h x z x',
  ark_step m (sa t) (aa t) (ab t) F everywhere h x z -> chain F l h z x' -> ark_step m (sa (compose l t)) (aa (compose l t)) (ab (compose l t)) F everywhere h x x'.
Proof.
  induction l as [|[[q w] T] tl IH]; intros Hq t h x z x' H1 H2.
  - cbn in H2. subst. exact H1.
  - destruct H2 as (z' & Hz & Hc). cbn [compose fold_left]. apply (IH ltac:(intros q' w' T' Hi; apply (Hq q' w' T'); right; exact Hi) _ h x z' x'); [|exact Hc].
    apply (append_step m F t q w T h x z z'); [apply (Hq q w T); left; reflexivity|exact H1|exact Hz].
Qed.
Lemma empty_step {I} m (F : nat -> vec I -> vec I) h x : ark_step m 0 (aa empty_ark) (ab empty_ark) F everywhere h x x.
Proof. exists (fun q i => F q (x +v h *v vsum m (fun r => vsum 0 (fun j => aa empty_ark r i j *v vzero)))). split; [intros; exact Logic.I|]. split; [intros; lia|]. cbn [vsum]. rewrite vsum_0 by reflexivity. vring. Qed.

Definition pw (l : list (nat * R * rk)) : list (nat * R) := map fst l.
Fixpoint wsum (l : list (nat * R)) (r : nat) : R := match l with [] => 0 | (q, w) :: tl => on r q w + wsum tl r end.
Fixpoint dsum (W0 : nat -> R) (l : list (nat * R)) (q r : nat) : R :=
  match l with [] => 0 | (p, w) :: tl => on q p w * (W0 r + on r p w / 2) + dsum (fun v => W0 v + on v p w) tl q r end.
Definition rk1 (T : rk) := rsum (st T) (rb T) = 1.
Definition rk2 (T : rk) := rsum (st T) (fun i => rb T i * rsum (st T) (ra T i)) = 1 / 2.
Lemma compose_W l : (forall e, In e l -> rk1 (snd e)) -> forall t r, W (compose l t) r = W t r + wsum (pw l) r.
Proof.
  induction l as [|[[q w] T] tl IH]; intros H t r; [cbn; ring|]. cbn [compose fold_left pw map fst wsum]. change (fold_left append tl (append t (q, w, T))) with (compose tl (append t (q, w, T))).
  rewrite IH by (intros e He; apply H; right; exact He). rewrite append_W by (apply (H (q, w, T)); left; reflexivity). unfold pw. ring.
Qed.
Lemma dsum_ext l : forall W0 W1, (forall v, W0 v = W1 v) -> forall q r, dsum W0 l q r = dsum W1 l q r.
Proof. induction l as [|[p w] tl IH]; intros W0 W1 H q r; [reflexivity|]. cbn [dsum]. rewrite H. f_equal. apply IH. intros v. rewrite H. reflexivity. Qed.
Lemma compose_D l : (forall e, In e l -> rk1 (snd e) /\ rk2 (snd e)) -> forall t q r, D (compose l t) q r = D t q r + dsum (W t) (pw l) q r.
Proof.
  induction l as [|[[p w] T] tl IH]; intros H t q r; [cbn; ring|]. cbn [compose fold_left pw map fst dsum]. change (fold_left append tl (append t (p, w, T))) with (compose tl (append t (p, w, T))).
  destruct (H (p, w, T) ltac:(left; reflexivity)) as [H1 H2]. rewrite IH by (intros e He; apply H; right; exact He). rewrite append_D by assumption.
  rewrite (dsum_ext _ (W (append t (p, w, T))) (fun v => W t v + on v p w)) by (intros v; apply append_W; exact H1). unfold pw. ring.
Qed.
Lemma compose_bounded l : (forall e, In e l -> rk_bounded (snd e)) -> forall t B, coefficients_at_most (aa t) (ab t) B -> 0 <= B -> exists B', 0 <= B' /\ coefficients_at_most (aa (compose l t)) (ab (compose l t)) B'.
Proof.
  induction l as [|[[p w] T] tl IH]; intros H t B Hc B0; [exists B; split; assumption|]. destruct (append_bounded t p w T B Hc B0 (H (p, w, T) ltac:(left; reflexivity))) as (B1 & P1 & H1).
  cbn [compose fold_left]. apply (IH ltac:(intros e He; apply H; right; exact He) _ B1 H1 P1).
Qed.

(** ** The second-order sums of symmetric lists *)
Lemma dsum_sym l : forall W0 q r, dsum W0 l q r + dsum W0 l r q = (W0 r + wsum l r) * (W0 q + wsum l q) - W0 r * W0 q.
Proof. induction l as [|[p w] tl IH]; intros W0 q r; cbn [dsum wsum]; [ring|]. specialize (IH (fun v => W0 v + on v p w) q r). cbv beta in IH. transitivity (on q p w * (W0 r + on r p w / 2) + on r p w * (W0 q + on q p w / 2) + (dsum (fun v => W0 v + on v p w) tl q r + dsum (fun v => W0 v + on v p w) tl r q)); [ring|]. rewrite IH. field. Qed.
Lemma dsum_base l : forall W0 q r, dsum W0 l q r = dsum (fun _ => 0) l q r + W0 r * wsum l q.
Proof.
  induction l as [|[p w] tl IH]; intros W0 q r; cbn [dsum wsum]; [ring|]. rewrite (IH (fun v => W0 v + on v p w)). rewrite (IH (fun v => 0 + on v p w)). field.
Qed.
Lemma wsum_app l1 l2 r : wsum (l1 ++ l2) r = wsum l1 r + wsum l2 r.
Proof. induction l1 as [|[p w] tl IH]; cbn [app wsum]; [ring|rewrite IH; ring]. Qed.
Lemma wsum_rev l r : wsum (rev l) r = wsum l r.
Proof. induction l as [|[p w] tl IH]; [reflexivity|]. cbn [rev wsum]. rewrite wsum_app, IH. cbn [wsum]. ring. Qed.
Lemma dsum_app l1 : forall W0 l2 q r, dsum W0 (l1 ++ l2) q r = dsum W0 l1 q r + dsum (fun v => W0 v + wsum l1 v) l2 q r.
Proof.
  induction l1 as [|[p w] tl IH]; intros W0 l2 q r; cbn [app dsum wsum].
  - rewrite Rplus_0_l. apply dsum_ext. intros; ring.
  - rewrite IH. rewrite (dsum_ext l2 (fun v => W0 v + on v p w + wsum tl v) (fun v => W0 v + (on v p w + wsum tl v))) by (intros; ring). ring.
Qed.
Lemma dsum_rev l q r : dsum (fun _ => 0) (rev l) q r = dsum (fun _ => 0) l r q.
Proof.
  induction l as [|[p w] tl IH]; [reflexivity|]. cbn [rev dsum]. rewrite dsum_app, IH. cbn [dsum]. rewrite wsum_rev. rewrite (dsum_base tl (fun v => 0 + on v p w)). cbv beta. field.
Qed.
Lemma dsum_symmetric l q r : rev l = l -> wsum l q = 1 -> wsum l r = 1 -> dsum (fun _ => 0) l q r = 1 / 2.
Proof. intros E Hq Hr. pose proof (dsum_sym l (fun _ => 0) q r) as S. rewrite Hq, Hr in S. pose proof (dsum_rev l q r) as V. rewrite E in V. lra. Qed.

(** Coefficient vectors of finite-element functions: I -> R for an arbitrary index
    type I, with pointwise operations, and finite sums. *)
From Verif Require Import Base.
From Coq Require Export Reals Lra FunctionalExtensionality.
Close Scope Q_scope.
Open Scope R_scope.

Definition vec (I : Type) := I -> R.
Definition vzero {I} : vec I := fun _ => 0.
Definition vadd {I} (x y : vec I) : vec I := fun i => x i + y i.
Definition vsub {I} (x y : vec I) : vec I := fun i => x i - y i.
Definition vscal {I} (a : R) (x : vec I) : vec I := fun i => a * x i.

Declare Scope vec_scope.
Delimit Scope vec_scope with V.
Infix "+v" := vadd (at level 50, left associativity).
Infix "-v" := vsub (at level 50, left associativity).
Infix "*v" := vscal (at level 40, left associativity).

(** Finite sums over 0 .. n-1. *)
Fixpoint rsum (n : nat) (f : nat -> R) : R :=
  match n with O => 0 | S k => rsum k f + f k end.
Fixpoint vsum {I} (n : nat) (f : nat -> vec I) : vec I :=
  match n with O => vzero | S k => vsum k f +v f k end.

Ltac vunfold := unfold vadd, vsub, vscal, vzero in *.
Ltac vring := apply functional_extensionality; intros ?; vunfold; ring.
Ltac vfield := apply functional_extensionality; intros ?; vunfold; field.

Lemma vsum_at {I} n (f : nat -> vec I) i : vsum n f i = rsum n (fun k => f k i).
Proof. induction n as [|n IH]; cbn; [reflexivity|]. unfold vadd; rewrite IH; reflexivity. Qed.

Lemma rsum_ext n f g : (forall k, (k < n)%nat -> f k = g k) -> rsum n f = rsum n g.
Proof.
  induction n as [|n IH]; cbn; intros H; [reflexivity|].
  rewrite IH, H by lia || (intros; apply H; lia). reflexivity.
Qed.
Lemma vsum_ext {I} n (f g : nat -> vec I) : (forall k, (k < n)%nat -> f k = g k) -> vsum n f = vsum n g.
Proof.
  induction n as [|n IH]; cbn; intros H; [reflexivity|].
  rewrite IH, H by lia || (intros; apply H; lia). reflexivity.
Qed.
Lemma rsum_0 n f : (forall k, (k < n)%nat -> f k = 0) -> rsum n f = 0.
Proof.
  induction n as [|n IH]; cbn; intros H; [reflexivity|].
  rewrite IH, H by lia || (intros; apply H; lia). ring.
Qed.
Lemma vsum_0 {I} n (f : nat -> vec I) : (forall k, (k < n)%nat -> f k = vzero) -> vsum n f = vzero.
Proof.
  induction n as [|n IH]; cbn; intros H; [reflexivity|].
  rewrite IH, H by lia || (intros; apply H; lia). vring.
Qed.
Lemma rsum_add n f g : rsum n (fun k => f k + g k) = rsum n f + rsum n g.
Proof. induction n as [|n IH]; cbn; [ring|rewrite IH; ring]. Qed.
Lemma rsum_scal n a f : rsum n (fun k => a * f k) = a * rsum n f.
Proof. induction n as [|n IH]; cbn; [ring|rewrite IH; ring]. Qed.
Lemma vsum_add {I} n (f g : nat -> vec I) : vsum n (fun k => f k +v g k) = vsum n f +v vsum n g.
Proof. induction n as [|n IH]; cbn; [vring|rewrite IH; vring]. Qed.
Lemma vsum_scal {I} n a (f : nat -> vec I) : vsum n (fun k => a *v f k) = a *v vsum n f.
Proof. induction n as [|n IH]; cbn; [vring|rewrite IH; vring]. Qed.
Lemma vsum_sub {I} n (f g : nat -> vec I) : vsum n (fun k => f k -v g k) = vsum n f -v vsum n g.
Proof. induction n as [|n IH]; cbn; [vring|rewrite IH; vring]. Qed.
Lemma vsum_scal_const {I} n (a : nat -> R) (x : vec I) : vsum n (fun k => a k *v x) = rsum n a *v x.
Proof. induction n as [|n IH]; cbn; [vring|rewrite IH; vring]. Qed.
Lemma rsum_split n m f : rsum (n + m) f = rsum n f + rsum m (fun k => f (n + k)%nat).
Proof.
  induction m as [|m IH]; [rewrite Nat.add_0_r; cbn; ring|].
  rewrite Nat.add_succ_r; cbn. rewrite IH; ring.
Qed.
Lemma vsum_split {I} n m (f : nat -> vec I) : vsum (n + m) f = vsum n f +v vsum m (fun k => f (n + k)%nat).
Proof.
  induction m as [|m IH]; [rewrite Nat.add_0_r; cbn; vring|].
  rewrite Nat.add_succ_r; cbn. rewrite IH; vring.
Qed.

(** Linear operators and functionals, as hypotheses of theorems. *)
Definition linear_op {I J} (L : vec I -> vec J) : Prop :=
  (forall x y, L (x +v y) = L x +v L y) /\ (forall a x, L (a *v x) = a *v L x).
Definition linear_fun {I} (l : vec I -> R) : Prop :=
  (forall x y, l (x +v y) = l x + l y) /\ (forall a x, l (a *v x) = a * l x).

Lemma linear_op_zero {I J} (L : vec I -> vec J) : linear_op L -> L vzero = vzero.
Proof.
  intros [_ H]. replace (@vzero I) with (0 *v (@vzero I)) by vring. rewrite H. vring.
Qed.
Lemma linear_op_sub {I J} (L : vec I -> vec J) x y : linear_op L -> L (x -v y) = L x -v L y.
Proof.
  intros [Ha Hs]. replace (x -v y) with (x +v (-1) *v y) by vring. rewrite Ha, Hs. vring.
Qed.
Lemma linear_op_sum {I J} (L : vec I -> vec J) n f : linear_op L ->
  L (vsum n f) = vsum n (fun k => L (f k)).
Proof.
  intros H. induction n as [|n IH]; cbn; [apply linear_op_zero; exact H|].
  rewrite (proj1 H), IH; reflexivity.
Qed.
Lemma linear_fun_zero {I} (l : vec I -> R) : linear_fun l -> l vzero = 0.
Proof.
  intros [_ H]. replace (@vzero I) with (0 *v (@vzero I)) by vring. rewrite H. ring.
Qed.
Lemma linear_fun_sub {I} (l : vec I -> R) x y : linear_fun l -> l (x -v y) = l x - l y.
Proof.
  intros [Ha Hs]. replace (x -v y) with (x +v (-1) *v y) by vring. rewrite Ha, Hs. ring.
Qed.
Lemma linear_fun_sum {I} (l : vec I -> R) n f : linear_fun l ->
  l (vsum n f) = rsum n (fun k => l (f k)).
Proof.
  intros H. induction n as [|n IH]; cbn; [apply linear_fun_zero; exact H|].
  rewrite (proj1 H), IH; reflexivity.
Qed.

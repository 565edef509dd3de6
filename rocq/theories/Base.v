(** Shared vocabulary: Python exceptions as values. *)
From Coq Require Export String.
From Coq Require Export Arith ZArith QArith Lia Bool List.
Export ListNotations.
Close Scope Q_scope.
Close Scope string_scope.

(** The exception classes raised by the modelled gusto code. *)
Inductive exn :=
| ValueError | RuntimeError | TypeError | KeyError | AttributeError
| AssertionError | GustoIOError | OSError | NotImplementedError | ZeroDivisionError
| IndexError.

(** Outcome of a Python call: a value or a raised exception. *)
Inductive res (A : Type) :=
| Ok (a : A)
| Err (e : exn).
Arguments Ok {A} a.
Arguments Err {A} e.

Definition bind {A B} (r : res A) (f : A -> res B) : res B :=
  match r with Ok a => f a | Err e => Err e end.
Notation "'do' x <- r ; k" := (bind r (fun x => k))
  (at level 200, x pattern, r at level 100, k at level 200).

Definition is_ok {A} (r : res A) : Prop := exists a, r = Ok a.
Definition is_err {A} (r : res A) : Prop := exists e, r = Err e.

Lemma bind_ok {A B} (r : res A) (f : A -> res B) b :
  bind r f = Ok b <-> exists a, r = Ok a /\ f a = Ok b.
Proof.
  destruct r as [a|e]; simpl; split.
  - intros H; exists a; auto.
  - intros (a' & H1 & H2); injection H1 as ->; exact H2.
  - discriminate.
  - intros (a' & H1 & _); discriminate.
Qed.

(** Executing an operation sequence on a state (histories). *)
Definition runs {S O : Type} (step : S -> O -> S) (s : S) (ops : list O) : S :=
  fold_left step ops s.

(** [niter n f x] applies [f] n times. *)
Fixpoint niter {A : Type} (n : nat) (f : A -> A) (x : A) : A :=
  match n with O => x | S k => niter k f (f x) end.

Lemma niter_add {A} (f : A -> A) n k x : niter (n + k) f x = niter k f (niter n f x).
Proof. revert x; induction n as [|n IH]; intros x; simpl; [reflexivity|apply IH]. Qed.

Lemma niter_S_out {A} (f : A -> A) n x : niter (S n) f x = f (niter n f x).
Proof. replace (S n) with (n + 1)%nat by lia. rewrite niter_add; reflexivity. Qed.

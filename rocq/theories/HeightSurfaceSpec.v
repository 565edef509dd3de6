(** Height above the surface: definitions (no code is modelled here).  The degrees of freedom of a rank have horizontal coordinates x, y and a height z. *)
From Coq Require Import Reals List Lra.
Open Scope R_scope.

Definition value (l : list R) (i : nat) : R := nth i l 0.
(** i and j are above each other *)
Definition above_each_other (x y : list R) (i j : nat) : Prop := value x i = value x j /\ value y i = value y j.
(** s is the height of the lowest of the n degrees of freedom above or below i *)
Definition surface_below (n : nat) (x y z : list R) (i : nat) (s : R) : Prop :=
  (exists j, (j < n)%nat /\ above_each_other x y i j /\ value z j = s) /\ (forall j, (j < n)%nat -> above_each_other x y i j -> s <= value z j).
(** a field holds the height above the surface *)
Definition is_height_above_surface (n : nat) (x y z f : list R) : Prop :=
  length f = n /\ forall i, (i < n)%nat -> exists s, surface_below n x y z i s /\ value f i = value z i - s.

Lemma surface_unique n x y z i s s' : surface_below n x y z i s -> surface_below n x y z i s' -> s = s'.
Proof. intros ((j & Hj & Aj & <-) & M) ((j' & Hj' & Aj' & <-) & M'). apply Rle_antisym; [apply M|apply M']; assumption. Qed.

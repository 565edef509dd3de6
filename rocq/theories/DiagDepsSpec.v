(** Specification for C143: what it means that the values of all diagnostics in one output belong together.
    Independent of how diagnostics are ordered, set up or computed. *)
From Coq Require Import List String.
Import ListNotations.

Section Consistent.
Context {D V : Type}.
Variable name : D -> string.           (* the field a diagnostic fills *)
Variable reads : D -> list string.     (* the fields its formula uses *)
Variable formula : D -> V -> list V -> V.   (* from its own previous value (only sums over time use it) and the fields it uses *)

(** [before], [after]: the values of all fields before and after the computation of the diagnostics [ds] of one output.
    Every diagnostic is its formula of the fields as they are in the same output, and no other field has changed. *)
Definition consistent (ds : list D) (before after : string -> V) : Prop :=
  (forall d, In d ds -> after (name d) = formula d (before (name d)) (map after (reads d))) /\
  (forall n, ~ In n (map name ds) -> after n = before n).
End Consistent.

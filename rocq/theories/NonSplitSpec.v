(** What a user expects of several physics parametrisations in one scheme: their tendencies are added. *)
From Verif Require Import Base Vec.
Open Scope R_scope.

(** Sum of a list of vectors. *)
Definition lsum {I} (l : list (vec I)) : vec I := fold_right vadd vzero l.

(** The right-hand side of the whole problem: the dynamics F and the tendency of every parametrisation. *)
Definition with_physics {I} (F : vec I -> vec I) (tendencies : list (vec I -> vec I)) : vec I -> vec I :=
  fun x => F x +v lsum (map (fun T => T x) tendencies).

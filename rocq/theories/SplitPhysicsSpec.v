(** What a user expects of physics that is split from the dynamics: the dynamics, then each parametrisation of the list,
    each with its own scheme, one after the other. *)
From Verif Require Import Base.

(** One thing after another. *)
Definition in_turn {X} (steps : list (X -> X)) (x : X) : X := fold_left (fun x step => step x) steps x.

(** A small model of firedrake.fml labelled forms, as used by
    gusto/time_discretisation/*.py: a residual is a list of labelled terms; label_map
    applies one of two maps to every term; replace_subject sets the field a term is
    evaluated at; drop removes the term.

    [assemble] gives the value of a form on coefficient vectors after applying the
    inverse mass matrix: a time-derivative term is its subject, the remaining terms
    with a subject are together one operator N (arbitrary), and the physics source
    terms are together one vector that does not depend on the subject (the source
    Functions are filled by evaluate before the solve).  Simplification: one term of
    each kind. *)
From Verif Require Import Base Vec.
Open Scope R_scope.

(** Auxiliary, nothing in the code by itself. *)
Inductive lab := TimeDerivative | Operator | Source.

(** A term with its labels, as used at time_discretisation.py l.160-210. *)
Record term (I : Type) := mk_term { t_coef : R; t_lab : lab; t_subj : vec I }.
Arguments mk_term {I}. Arguments t_coef {I}. Arguments t_lab {I}. Arguments t_subj {I}.
(** Auxiliary, nothing in the code by itself. *)
Definition form (I : Type) := list (term I).

(** LabelledForm.label_map(predicate, map_if_true, map_if_false), default: identity *)
(** fml; used at time_discretisation.py l.160-210. *)
Definition label_map {I} (p : term I -> bool) (yes no : term I -> list (term I)) (f : form I) : form I :=
  flat_map (fun t => if p t then yes t else no t) f.
(** t.has_label(time_derivative), time_discretisation.py l.236-300. *)
Definition has_td {I} (t : term I) : bool := match t_lab t with TimeDerivative => true | _ => false end.
(** Auxiliary, nothing in the code by itself. *)
Definition all_terms {I} (t : term I) : bool := true.
(** Auxiliary, nothing in the code by itself. *)
Definition keep {I} (t : term I) : list (term I) := [t].
(** Auxiliary, nothing in the code by itself. *)
Definition drop {I} (t : term I) : list (term I) := [].
(** fml; time_discretisation.py l.280-330. *)
Definition replace_subject {I} (x : vec I) (t : term I) : list (term I) := [mk_term (t_coef t) (t_lab t) x].
(** lambda t: a * t *)
(** time_discretisation.py l.280-330. *)
Definition times {I} (a : R) (t : term I) : list (term I) := [mk_term (a * t_coef t) (t_lab t) (t_subj t)].
(** Auxiliary, nothing in the code by itself. *)
Definition fscale {I} (a : R) (f : form I) : form I := flat_map (times a) f.
(** residual -= r *)
(** time_discretisation.py l.280-330. *)
Definition fminus {I} (f g : form I) : form I := (f ++ fscale (-1) g)%list.

(** The equation's residual, with subject the equation's own field x
    (TimeDiscretisation.setup, time_discretisation.py l.160-210). *)
Definition residual {I} (x : vec I) : form I :=
  [mk_term 1 TimeDerivative x; mk_term 1 Operator x; mk_term 1 Source x].

(** What a term of time_discretisation.py l.160-210 stands for. *)
Definition term_value {I} (N : vec I -> vec I) (src : vec I) (t : term I) : vec I :=
  match t_lab t with
  | TimeDerivative => t_subj t
  | Operator => N (t_subj t)
  | Source => src
  end.
(** What the residuals of the schemes (e.g. time_discretisation.py l.280-330) are solved for. *)
Definition assemble {I} (N : vec I -> vec I) (src : vec I) (f : form I) : vec I :=
  fold_right (fun t acc => t_coef t *v term_value N src t +v acc) vzero f.

(** Evaluate a residual given as an explicit composition of the operations above. *)
Ltac fml := cbn [assemble fold_right fminus fscale label_map flat_map residual app times replace_subject keep drop
                 has_td all_terms t_coef t_lab t_subj term_value List.app].

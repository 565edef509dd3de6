(** Model of the term selection in TimeDiscretisation.setup,
    gusto/time_discretisation/time_discretisation.py l.147-270, and of the way the
    scheme classes pass their arguments on. *)
From Verif Require Import Base.
From Coq Require Import String.
Close Scope Q_scope.
Open Scope string_scope.

(** A labelled term: its prognostic, its labels, the physics parametrisation object it
    belongs to (the evaluate method stored under its label, l.229-232, represented by a name
    that is different for different objects), whether it has a mass-weighted form, and an
    identifier of the form itself. *)
(** The terms of l.160-210. *)
Record lterm := mk_lterm {
  form_id : nat;
  prognostic : string;
  labels : list string;
  physics : option string;
  mass_weighted : option nat;     (* the form stored under mass_weighted *)
}.
(** Auxiliary, nothing in the code by itself. *)
Definition has (l : string) (t : lterm) : bool := existsb (String.eqb l) (labels t).
(** Auxiliary, nothing in the code by itself. *)
Definition td : string := "time_derivative".

(** firedrake.fml Term.has_label: a bool for one label, a tuple of bools otherwise
    (this is why l.207 wraps it in any()).  Truth value of the result: *)
Inductive pyval := PyBool (b : bool) | PyTuple (l : list bool).
(** fml Term.has_label, as called at l.160-210. *)
Definition has_label (ls : list string) (t : lterm) : pyval :=
  match ls with [l] => PyBool (has l t) | _ => PyTuple (map (fun l => has l t) ls) end.
(** Auxiliary, nothing in the code by itself. *)
Definition truthy (v : pyval) : bool :=
  match v with PyBool b => b | PyTuple l => match l with [] => false | _ => true end end.
(** any(v); any() of a bool is a TypeError but does not arise (at least two labels). *)
(** Auxiliary, nothing in the code by itself. *)
Definition py_any (v : pyval) : bool := match v with PyBool b => b | PyTuple l => existsb (fun b => b) l end.

(** The field_name attribute. *)
(** l.75-146. *)
Inductive target := WholeSystem | OneField (f : string) | FieldList (fs : list string).

(** l.160-182: restriction to a prognostic *)
Definition select_prognostic (w : target) (r : list lterm) : list lterm :=
  match w with
  | OneField f => filter (fun t => String.eqb (prognostic t) f) r
  | _ => r
  end.
(** l.189-212: active labels *)
Definition select_active (w : target) (active : list string) (r : list lterm) : list lterm :=
  match active with
  | [] => r
  | _ => match w with
         | FieldList fs =>
             fold_left (fun acc f => acc ++
                 filter (fun t => truthy (has_label active t))
                        (filter (fun t => String.eqb (prognostic t) f) r))%list
               fs (filter (has td) r)
         | _ => filter (fun t => py_any (has_label (td :: active) t)) r
         end
  end.
(** l.160-210. *)
Definition setup_terms (w : target) (active : list string) (r : list lterm) : list lterm :=
  select_active w active (select_prognostic w r).

(** l.225-232: evaluate_source / physics_names *)
Definition evaluate_source (r : list lterm) : list string :=
  fold_left (fun acc t => match physics t with
                          | Some p => if existsb (String.eqb p) acc then acc else (acc ++ [p])%list
                          | None => acc
                          end) r [].

(** l.234-268: mass-weighted terms *)
Definition is_mw (t : lterm) : bool := match mass_weighted t with Some _ => true | None => false end.
(** l.235-270. *)
Definition weight_term (t : lterm) : lterm :=
  match mass_weighted t with
  | Some i => mk_lterm i (prognostic t) (labels t) (physics t) None
  | None => t
  end.
(** l.235-270. *)
Definition of_field (f : string) (t : lterm) : bool := String.eqb (prognostic t) f.
(** l.235-270. *)
Definition weight_field (f : string) (r : list lterm) : res (list lterm) :=
  if Nat.eqb (List.length (filter (fun t => of_field f t && has td t && is_mw t) r)) 1 then
    let field_terms := filter (fun t => of_field f t && negb (has td t)) r in
    if Nat.ltb 0 (List.length (filter is_mw field_terms)) then
      if Nat.ltb 0 (List.length (filter (fun t => negb (is_mw t)) field_terms)) then Err ValueError
      else Ok (map (fun t => if of_field f t && is_mw t then weight_term t else t) r)
    else Ok r
  else Ok r.
(** l.235-270. *)
Fixpoint weight_fields (fs : list string) (r : list lterm) : res (list lterm) :=
  match fs with
  | [] => Ok r
  | f :: tl => match weight_field f r with Ok r' => weight_fields tl r' | Err e => Err e end
  end.
(** l.235-270. *)
Definition setup_mass_weighted (field_names : list string) (r : list lterm) : res (list lterm) :=
  if Nat.ltb 0 (List.length (filter is_mw r)) then weight_fields field_names r else Ok r.

(** How a call  f(equation=equation, apply_bcs=apply_bcs, *active_labels)  of
      def f(self, equation, apply_bcs=True, *active_labels)
    binds: positional arguments first, then keywords; a parameter bound twice is a
    TypeError (Python language reference, Calls). *)
(** The calls super().setup(...) of the scheme classes. *)
Definition keyword_call (active : list string) : res (list string) :=
  match active with [] => Ok [] | _ => Err TypeError end.
(** f(equation, apply_bcs, *active_labels) *)
(** The calls super().setup(...) of the scheme classes. *)
Definition positional_call (active : list string) : res (list string) := Ok active.

(** Which style the scheme classes use: multi_level_schemes.py l.52, 299-300, 456;
    all others positional (time_discretisation.py l.510, 661, 801, 955;
    explicit_runge_kutta.py l.138; implicit_runge_kutta.py l.103; imex_runge_kutta.py
    l.132). *)
Inductive scheme_class :=
| SExplicitRK | SImplicitRK | SIMEX | SBackwardEuler | STheta | STRBDF2
| SBDF2 | SLeapfrog | SAdamsBashforth | SAdamsMoulton.
(** multi_level_schemes.py l.21-42. *)
Definition is_multilevel (c : scheme_class) : bool :=
  match c with SBDF2 | SLeapfrog | SAdamsBashforth | SAdamsMoulton => true | _ => false end.
(** MultilevelTimeDiscretisation.setup, multi_level_schemes.py l.51-59: after the base
    class setup, source terms are refused. *)
Definition refuse_sources (r : list lterm) : res (list lterm) :=
  if existsb (has "source_label") r then Err NotImplementedError else Ok r.
(** The setup methods of the scheme classes. *)
Definition scheme_setup (c : scheme_class) (w : target) (active : list string) (r : list lterm) : res (list lterm) :=
  match (if is_multilevel c then keyword_call active else positional_call active) with
  | Err e => Err e
  | Ok a => if is_multilevel c then refuse_sources (setup_terms w a r) else Ok (setup_terms w a r)
  end.

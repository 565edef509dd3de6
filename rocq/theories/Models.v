(** Model of the model classes (gusto/model/model.py), which choose the discretisation for every prognostic of an equation set. *)
From Coq Require Import List String Bool Arith.
Import ListNotations.
From Verif Require Import Base Transport SpatialSetup.
Open Scope string_scope.

Section Models.
Context {F V L : Type}.   (* forms, velocities, limiters *)
Variables (form_of : string -> built -> F * V) (mass_form_of : string -> F * V) (diffusion_form : string -> F).

(** An equation set: names of prognostics, names of their spaces, residual *)
(** prognostic_equations.py l.60-130, as model.py l.94-97 uses it. *)
Record equation_set := { e_names : list string; e_space : string -> string; e_residual : list (term F V) }.
(** A keyword argument: absent, None, or a value *)
(** The **kwargs of l.171. *)
Inductive kwarg (A : Type) := Absent | IsNone | Given (a : A).
Arguments Absent {A}. Arguments IsNone {A}. Arguments Given {A} a.

(** ** ModelBase.__init__ *)
(** l.58-73 *)
Definition default_family (cell : string) : res string :=
  if cell =? "interval" then Ok "CG" else if cell =? "quadrilateral" then Ok "RTCF" else if cell =? "triangle" then Ok "BDM" else Err ValueError.
(** l.79-92: the tracers given to the equation, and the list of the caller afterwards *)
Definition model_tracers {A} (z : A) (consistent_metric : bool) (tracers : kwarg (list A)) : res (kwarg (list A) * kwarg (list A)) :=
  if consistent_metric then
    match tracers with
    | Absent => Ok (Given [z], Absent)
    | IsNone => Err AttributeError
    | Given l => Ok (Given (l ++ [z])%list, Given (l ++ [z])%list)     (* the same list *)
    end
  else Ok (tracers, tracers).
(** l.99: kwargs.get("diffusion_options", []); iterated over when the model is set up *)
Definition diffused (options : kwarg (list string)) : res (list string) :=
  match options with Absent => Ok [] | IsNone => Err TypeError | Given l => Ok l end.

(** ** Schemes *)
(** The options of l.279-326, 449-500. *)
Inductive wrapper := Unwrapped | EmbeddedDG | Recovered (space : string).
(** The discretisations of l.279-326, 449-500. *)
Record scheme := { s_euler : bool (* ForwardEuler instead of SSPRK3 *); s_linear : bool (* the linear formulation *); s_wrapper : wrapper; s_limiter : option L }.
Variable limiters : string -> option L.
(** SIQNModel.transported_fields, l.279-326 *)
Definition siqn_scheme (space_of : string -> string) (v : string) : scheme :=
  if space_of v =? "L2" then {| s_euler := false; s_linear := true; s_wrapper := Unwrapped; s_limiter := limiters v |}
  else if space_of v =? "theta" then {| s_euler := false; s_linear := false; s_wrapper := EmbeddedDG; s_limiter := limiters v |}
  else {| s_euler := false; s_linear := false; s_wrapper := Unwrapped; s_limiter := limiters v |}.
(** transported_fields, l.279-326. *)
Definition siqn_schemes (consistent_metric : bool) (space_of : string -> string) (names : list string) : list (string * scheme) :=
  ((if consistent_metric then [("z", {| s_euler := true; s_linear := false; s_wrapper := EmbeddedDG; s_limiter := None |})] else []) ++
  flat_map (fun v =>
    if (space_of v =? "L2") || (space_of v =? "theta") then [(v, siqn_scheme space_of v)]
    else if consistent_metric && (v =? "z") then []
    else [(v, siqn_scheme space_of v)]) names)%list.
(** Auxiliary, nothing in the code by itself. *)
Fixpoint mapM {A B} (f : A -> res B) (l : list A) : res (list B) :=
  match l with [] => Ok [] | a :: l => do b <- f a; do bs <- mapM f l; Ok (b :: bs) end.
(** SIQNModel.transport_methods, l.329-354 *)
Definition siqn_method (one_d : bool) (E : equation_set) (v : string) : res (method F V) :=
  new_dg_upwind form_of mass_form_of one_d (e_residual E) v false false (e_space E v =? "L2").
(** transport_methods, l.329-354. *)
Definition siqn_methods (consistent_metric one_d : bool) (E : equation_set) : res (list (method F V)) :=
  do z <- (if consistent_metric then mapM (fun v => new_dg_upwind form_of mass_form_of one_d (e_residual E) v false false false) ["z"] else Ok []);
  do rest <- mapM (siqn_method one_d E) (filter (fun v => (e_space E v =? "L2") || negb (consistent_metric && (v =? "z"))) (e_names E));
  Ok (z ++ rest)%list.
(** LowestOrderSIQNModel.transported_fields, l.449-500; RecoverySpaces: recovery/recovery_options.py l.49-72 (self.mesh is not defined) *)
Definition lowest_schemes (consistent_metric extruded : bool) (space_of : string -> string) (names : list string) : res (list (string * scheme)) :=
  if negb extruded then Err AttributeError else Ok
  ((if consistent_metric then [("z", {| s_euler := true; s_linear := false; s_wrapper := Recovered "theta"; s_limiter := None |})] else []) ++
  flat_map (fun v =>
    let rec_in sp := [(v, {| s_euler := false; s_linear := false; s_wrapper := Recovered sp; s_limiter := limiters v |})] in
    if space_of v =? "HDiv" then rec_in "HDiv"
    else if space_of v =? "L2" then rec_in "DG"
    else if consistent_metric && (v =? "z") then []
    else if space_of v =? "theta" then rec_in "theta"
    else []) names)%list.
(** LowestOrderSIQNModel.transport_methods, l.502-519 *)
Definition lowest_methods (consistent_metric one_d : bool) (E : equation_set) : res (list (method F V)) :=
  do z <- (if consistent_metric then mapM (fun v => new_dg_upwind form_of mass_form_of one_d (e_residual E) v false false false) ["z"] else Ok []);
  do rest <- mapM (fun v => new_dg_upwind form_of mass_form_of one_d (e_residual E) v false false false)
       (filter (fun v => negb (consistent_metric && (v =? "z"))) (e_names E));
  Ok (z ++ rest)%list.
(** diffusion_methods, l.251-263 and 405-417 *)
Definition diffusion_methods (E : equation_set) (fields : list string) : res (list (method F V)) := mapM (fun v => new_diffusion diffusion_form (e_residual E) v) fields.

(** ** setup, l.171-201.  The result: the schemes applied in every outer iteration, and the methods *)
Definition setup_siqn (consistent_metric one_d : bool) (E : equation_set) (options : kwarg (list string)) : res (list (string * scheme) * list (method F V)) :=
  let schemes := siqn_schemes consistent_metric (e_space E) (e_names E) in
  do ms <- siqn_methods consistent_metric one_d E;
  do fields <- diffused options;
  do ds <- diffusion_methods E fields;
  do a <- active_transport (e_names E) (ms ++ ds)%list schemes;
  Ok (a, (ms ++ ds)%list).
(** l.171-201 with l.449-519. *)
Definition setup_lowest (consistent_metric extruded one_d : bool) (E : equation_set) (options : kwarg (list string)) : res (list (string * scheme) * list (method F V)) :=
  do schemes <- lowest_schemes consistent_metric extruded (e_space E) (e_names E);
  do ms <- lowest_methods consistent_metric one_d E;
  do fields <- diffused options;
  do ds <- diffusion_methods E fields;
  do a <- active_transport (e_names E) (ms ++ ds)%list schemes;
  Ok (a, (ms ++ ds)%list).
(** tau_values, l.158-169 *)
Definition tau_values (E : equation_set) : list (string * nat) := map (fun v => (v, 1)) (filter (fun v => negb (v =? "u")) (e_names E)).
End Models.
Arguments kwarg : clear implicits. Arguments Absent {A}. Arguments IsNone {A}. Arguments Given {A} a.
Arguments equation_set : clear implicits.
Arguments scheme : clear implicits.

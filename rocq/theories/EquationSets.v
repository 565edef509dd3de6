(** Model of how equations are put together from their parts: gusto/equations/transport_equations.py, advection_diffusion_equations.py,
    diffusion_equations.py, and of prognostic_equations.py: PrognosticEquation.__init__ (l.27-55), PrognosticEquationSet: generate_mass_terms
    (l.135-176), set_no_normal_flow_bcs (l.261-298), add_tracers_to_prognostics (l.304-351), generate_tracer_transport_terms (l.353-418),
    get_active_tracer (l.420-442); the choice of boundary conditions by a scheme (time_discretisation.py l.219-223, 358-378).
    Fields are scalar and given at quadrature points of the cells (CommonForms.v); spaces are names of spaces of the domain. *)
From Coq Require Import String.
From Verif Require Import Base Vec Transport CommonForms.
From Verif Require Tracers.
Open Scope R_scope.
Open Scope list_scope.

(** ** Active tracers (active_tracers.py l.54-96); the enumeration TransportEquationType has more members than can be used here: Other *)
Inductive transport_eqn := NoTransport | AdvectiveEq | ConservativeEq | TracerConservative | OtherEq.
(** ActiveTracer, active_tracers.py l.45-96. *)
Record active_tracer := { a_name : string; a_space : string; a_eqn : transport_eqn; a_density : option string }.
(** ActiveTracer.__init__, active_tracers.py l.54-96. *)
Definition make_tracer (name space : string) (e : transport_eqn) (density : option string) : res active_tracer :=
  match e, density with
  | TracerConservative, None => Err ValueError
  | _, _ => Ok {| a_name := name; a_space := space; a_eqn := e; a_density := density |}
  end.

(** ** Names and spaces *)
(** list.index *)
(** Auxiliary, nothing in the code by itself. *)
Fixpoint index_of (n : string) (l : list string) : option nat :=
  match l with [] => None | m :: r => if String.eqb m n then Some 0%nat else option_map S (index_of n r) end.
(** l.322-330. *)
Definition position (n : string) (l : list active_tracer) : option nat := index_of n (map a_name l).
(** l.322-330: the density of a conservative tracer is moved before it; no tracer of that name: the tracer itself, no change *)
Definition order_step (l : list active_tracer) (i : nat) : list active_tracer :=
  match nth_error l i with
  | None => l
  | Some t => match a_eqn t, a_density t with
              | TracerConservative, Some dn => match position dn l with Some j => if Nat.ltb i j then Tracers.swap i j l else l | None => l end
              | _, _ => l
              end
  end.
(** l.322-330. *)
Definition order (l : list active_tracer) : list active_tracer := fold_left order_step (seq 0 (List.length l - 1)) l.
(** field_names, space_names (a dictionary) and spaces (by name); l.333-351 *)
Record names_spaces := { field_names : list string; space_names : list (string * string); spaces : list string }.
(** Auxiliary, nothing in the code by itself. *)
Fixpoint lookup (n : string) (l : list (string * string)) : option string :=
  match l with [] => None | (m, s) :: r => if String.eqb m n then Some s else lookup n r end.
(** l.333-351. *)
Definition add_tracer (known : list string) (N : names_spaces) (t : active_tracer) : res names_spaces :=
  if existsb (String.eqb (a_name t)) (field_names N) then Err ValueError
  else do sn <- match lookup (a_name t) (space_names N) with
                | Some s => if String.eqb s (a_space t) then Ok (space_names N) else Err AssertionError
                | None => Ok (space_names N ++ [(a_name t, a_space t)])
                end;
       if existsb (String.eqb (a_space t)) known
       then Ok {| field_names := field_names N ++ [a_name t]; space_names := sn; spaces := spaces N ++ [a_space t] |}
       else Err ValueError.
(** add_tracers_to_prognostics, l.304-351. *)
Fixpoint add_all (known : list string) (N : names_spaces) (l : list active_tracer) : res names_spaces :=
  match l with [] => Ok N | t :: r => do N' <- add_tracer known N t; add_all known N' r end.

(** ** Terms *)
(** l.373-381. *)
Inductive velocity := Component (i : nat) | PrescribedU.
(** The forms of l.135-176, 353-418 and of the transport equations. *)
Inductive form :=
| Mass                          (* inner(prog, test) *)
| WeightedMass (density : nat)  (* inner(prog*density, test) *)
| Advection (u : velocity) | Continuity (u : velocity) | ConservativeTracer (density : nat) (u : velocity)
| Diffusion (kappa : R).
(** a term: its form; the component of X it is about and of the test functions it uses; the labels prognostic and time_derivative; the form stored in mass_weighted *)
(** A labelled term (l.135-176, 353-418). *)
Record term := { t_form : form; t_comp : nat; t_test : nat; t_prog : string; t_dt : bool; t_weighted : option form }.
(** Auxiliary, nothing in the code by itself. *)
Definition plain (f : form) (i : nat) (n : string) (dt : bool) : term := {| t_form := f; t_comp := i; t_test := i; t_prog := n; t_dt := dt; t_weighted := None |}.

(** generate_mass_terms: for every field; the tracers of that name are looked at in turn *)
(** l.135-176. *)
Definition mass_term (names : list string) (tracers : list active_tracer) (i : nat) (n : string) : res term :=
  fold_left (fun acc t => do m <- acc;
      if String.eqb n (a_name t) then
        match a_eqn t, a_density t with
        | TracerConservative, Some dn => match index_of dn names with
                                         | Some j => Ok {| t_form := Mass; t_comp := i; t_test := i; t_prog := n; t_dt := true; t_weighted := Some (WeightedMass j) |}
                                         | None => Err ValueError
                                         end
        | TracerConservative, None => Err ValueError
        | _, _ => Ok m
        end
      else Ok m) tracers (Ok (plain Mass i n true)).
(** l.135-176. *)
Fixpoint mass_terms_from (names : list string) (tracers : list active_tracer) (i : nat) (l : list string) : res (list term) :=
  match l with [] => Ok [] | n :: r => do m <- mass_term names tracers i n; do ms <- mass_terms_from names tracers (S i) r; Ok (m :: ms) end.
(** l.135-176. *)
Definition generate_mass_terms (names : list string) (tracers : list active_tracer) : res (list term) := mass_terms_from names tracers 0 names.

(** generate_tracer_transport_terms, l.373-381: the velocity *)
Definition transport_velocity (names prescribed : list string) : res velocity :=
  match index_of "u" names with
  | Some i => Ok (Component i)
  | None => if existsb (String.eqb "u") prescribed then Ok PrescribedU else Err ValueError
  end.
(** l.383-416 *)
Definition tracer_term (names : list string) (u : velocity) (t : active_tracer) : res (list term) :=
  match a_eqn t with
  | NoTransport => Ok []
  | _ => match index_of (a_name t) names with
         | None => Err ValueError
         | Some i => match a_eqn t with
                     | AdvectiveEq => Ok [plain (Advection u) i (a_name t) false]
                     | ConservativeEq => Ok [plain (Continuity u) i (a_name t) false]
                     | TracerConservative =>
                         match a_density t with
                         | Some dn => match index_of dn names with
                                      | Some j => Ok [{| t_form := Advection u; t_comp := i; t_test := i; t_prog := a_name t; t_dt := false; t_weighted := Some (ConservativeTracer j u) |}]
                                      | None => Err ValueError
                                      end
                         | None => Err ValueError
                         end
                     | _ => Err ValueError
                     end
         end
  end.
(** l.383-418. *)
Fixpoint tracer_terms (names : list string) (u : velocity) (l : list active_tracer) : res (list term) :=
  match l with [] => Ok [] | t :: r => do a <- tracer_term names u t; do b <- tracer_terms names u r; Ok (a ++ b) end.
(** None (l.370, 418) when no tracer is transported *)
Definition generate_tracer_transport_terms (names prescribed : list string) (l : list active_tracer) : res (option (list term)) :=
  do u <- transport_velocity names prescribed; do ts <- tracer_terms names u l; Ok (match ts with [] => None | _ => Some ts end).

(** ** Equations: their fields and residual *)
(** l.78-129. *)
Record equation := { e_fields : list string; e_spaces : list string; e_tracers : list active_tracer; e_residual : list term }.
(** CoupledTransportEquation (transport_equations.py l.97-146): no field to make a mixed space of is an error; adding None to the residual leaves it (firedrake.fml) *)
Definition coupled_transport (known : list string) (tracers : option (list active_tracer)) : res equation :=
  let l := order (match tracers with Some l => l | None => [] end) in
  do N <- add_all known {| field_names := []; space_names := []; spaces := [] |} l;
  match field_names N with
  | [] => Err IndexError
  | _ => if negb (existsb (String.eqb "HDiv") known) then Err ValueError else
         do m <- generate_mass_terms (field_names N) l;
         do t <- generate_tracer_transport_terms (field_names N) ["u"%string] l;
         Ok {| e_fields := field_names N; e_spaces := spaces N; e_tracers := l; e_residual := m ++ match t with None => [] | Some t => t end |}
  end.
(** AdvectionEquation, ContinuityEquation, AdvectionDiffusionEquation (whose diffusion parameters are None by default), DiffusionEquation *)
(** transport_equations.py l.12-39. *)
Definition advection_equation (n : string) : list term := [plain Mass 0 n true; plain (Advection PrescribedU) 0 n false].
(** transport_equations.py l.42-69. *)
Definition continuity_equation (n : string) : list term := [plain Mass 0 n true; plain (Continuity PrescribedU) 0 n false].
(** advection_diffusion_equations.py l.15-44. *)
Definition advection_diffusion_equation (n : string) (kappa : option R) : res (list term) :=
  match kappa with None => Err AttributeError | Some k => Ok [plain Mass 0 n true; plain (Advection PrescribedU) 0 n false; plain (Diffusion k) 0 n false] end.
(** diffusion_equations.py l.15-34. *)
Definition diffusion_equation (n : string) (kappa : R) : list term := [plain Mass 0 n true; plain (Diffusion kappa) 0 n false].
(** get_active_tracer *)
(** l.421-443. *)
Definition get_active_tracer (E : equation) (n : string) : res active_tracer :=
  match find (fun t => String.eqb (a_name t) n) (e_tracers E) with Some t => Ok t | None => Err RuntimeError end.

(** ** Meaning of a residual, at quadrature points: states and their rates of change by component, test functions by component; the Laplacian for the strong diffusion
    form (common_forms.py l.292-304) is given with the field *)
Section Meaning.
Variables (G : geometry) (d : nat).
(** Auxiliary, nothing in the code by itself. *)
Record sfun := { at_ : nat -> spoint; laplacian : nat -> R }.
(** Auxiliary, nothing in the code by itself. *)
Definition value (u : velocity -> nat -> vpoint) (X dX : nat -> sfun) (i : nat) (dt : bool) (f : form) (test : nat -> R) : R :=
  let q := if dt then dX i else X i in
  match f with
  | Mass => dx G (fun c => s_val (at_ q c) * test c)
  | WeightedMass j => (* d/dt of the product *)
      dx G (fun c => (if dt then s_val (at_ (dX i) c) * s_val (at_ (X j) c) + s_val (at_ (X i) c) * s_val (at_ (dX j) c) else s_val (at_ (X i) c) * s_val (at_ (X j) c)) * test c)
  | Advection w => dx G (fun c => advection d (test c) (at_ q c) (u w c))
  | Continuity w => dx G (fun c => continuity d (test c) (at_ q c) (u w c))
  | ConservativeTracer j w => dx G (fun c => tracer_conservative d (test c) (at_ q c) (at_ (X j) c) (u w c))
  | Diffusion k => dx G (fun c => - (test c * (k * laplacian q c)))
  end.
(** Auxiliary, nothing in the code by itself. *)
Definition term_value u X dX (tests : nat -> nat -> R) (t : term) : R := value u X dX (t_comp t) (t_dt t) (t_form t) (tests (t_test t)).
(** Auxiliary, nothing in the code by itself. *)
Definition residual_value u X dX (tests : nat -> nat -> R) (l : list term) : R := fold_right (fun t acc => term_value u X dX tests t + acc) 0 l.
(** the mass-weighted variant: the forms stored in the label, where there is one *)
(** The mass_weighted label, l.150-176, 400-416. *)
Definition weighted (t : term) : term := match t_weighted t with Some f => {| t_form := f; t_comp := t_comp t; t_test := t_test t; t_prog := t_prog t; t_dt := t_dt t; t_weighted := None |} | None => t end.
End Meaning.

(** ** Boundary conditions: a space (a space of its own, or a component of a mixed one) and the part of the boundary; the value is 0 *)
(** l.261-298. *)
Inductive bc_space := Own (s : string) | Sub (mixed : string) (i : nat).
(** Auxiliary, nothing in the code by itself. *)
Inductive wall := Bottom | Top | Id (i : nat).
(** l.261-298. *)
Record bc := { b_space : bc_space; b_wall : wall }.
(** Auxiliary, nothing in the code by itself. *)
Definition dict := string -> list bc.
(** Auxiliary, nothing in the code by itself. *)
Definition set (D : dict) (n : string) (l : list bc) : dict := fun m => if String.eqb m n then l else D m.
(** "_".join *)
(** l.96-104. *)
Definition full_name (names : list string) : string := String.concat "_" names.
(** l.42-55: an empty list for every field and for the full name *)
Definition no_bcs : dict := fun _ => [].
(** l.261-298 *)
Definition set_no_normal_flow_bcs (names : list string) (extruded periodic : bool) (ids : list nat) (D : dict) : res dict :=
  if negb (existsb (String.eqb "u") names) then Err NotImplementedError
  else
    let walls := (if extruded && negb periodic then [Bottom; Top] else []) ++ map Id ids in
    let D1 := set D "u" (D "u"%string ++ map (fun w => {| b_space := Own "HDiv"; b_wall := w |}) walls) in
    let full := full_name names in
    Ok (fold_left (fun D '(i, n) => set D full (D full ++ map (fun b => {| b_space := Sub "W" i; b_wall := b_wall b |}) (D n)))
                  (combine (seq 0 (List.length names)) names) (set D1 full [])).
(** time_discretisation.py l.219-223, 358-378: the conditions of a scheme for the field; fs is the name of the space of its wrapper *)
Inductive wrapper := NoWrapper | Supg | MixedOptions (fs : string) | Other (fs : string).
(** time_discretisation.py l.219-223, 358-378. *)
Definition scheme_bcs (names : list string) (D : dict) (field : string) (apply_bcs : bool) (w : wrapper) : option (list bc) :=
  if negb apply_bcs then None else
  match w with
  | NoWrapper | Supg => Some (D field)
  | MixedOptions fs => Some (flat_map (fun '(i, n) => map (fun b => {| b_space := Sub fs i; b_wall := b_wall b |}) (D n)) (combine (seq 0 (List.length names)) names))
  | Other fs => Some (map (fun b => {| b_space := Own fs; b_wall := b_wall b |}) (D field))
  end.

(** ** The space of the prescribed velocity (transport_equations.py l.30-33 and likewise in the other equations): domain.spaces.add_space("HDiv", Vu, overwrite_space=True).  Spaces are numbered *)
Definition domain_spaces := string -> option nat.
(** transport_equations.py l.30-33. *)
Definition velocity_space (D : domain_spaces) (Vu : option nat) : res (domain_spaces * nat) :=
  let D' := match Vu with Some v => fun n => if String.eqb n "HDiv" then Some v else D n | None => D end in
  match D' "HDiv"%string with Some v => Ok (D', v) | None => Err ValueError end.

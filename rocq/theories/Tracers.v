(** Model of PrognosticEquationSet.add_tracers_to_prognostics and of the density lookup in
    generate_tracer_transport_terms (gusto/equations/prognostic_equations.py l.304-351,
    401), of MixedFSWrapper (gusto/time_discretisation/wrappers.py l.425-511) and of the
    mixed-wrapper part of TimeDiscretisation.setup (time_discretisation.py l.279-300). *)
From Verif Require Import Base.

(** ** Active tracers: name, and the density name if transport_eqn is tracer_conservative *)
(** equations/active_tracers.py ActiveTracer. *)
Record tracer := { t_name : string; t_density : option string }.

(** Auxiliary, nothing in the code by itself. *)
Definition first_pos (n : string) (l : list tracer) : option nat :=
  (fix go l i := match l with [] => None | t :: r => if String.eqb (t_name t) n then Some i else go r (S i) end) l 0.
(** Auxiliary, nothing in the code by itself. *)
Fixpoint set_at {A} (i : nat) (x : A) (l : list A) : list A :=
  match l, i with _ :: r, O => x :: r | y :: r, S k => y :: set_at k x r | [], _ => [] end.
(** a[i], a[j] = a[j], a[i] *)
(** Auxiliary, nothing in the code by itself. *)
Definition swap {A} (i j : nat) (l : list A) : list A :=
  match nth_error l i, nth_error l j with Some x, Some y => set_at j x (set_at i y l) | _, _ => l end.
(** body of the loop, l.322-329.  If no tracer has the density's name, ref_density is the
    tracer itself, which is never behind itself. *)
Definition order_step (l : list tracer) (i : nat) : list tracer :=
  match nth_error l i with
  | Some t => match t_density t with
              | Some d => match first_pos d l with Some j => if Nat.ltb i j then swap i j l else l | None => l end
              | None => l
              end
  | None => l
  end.
(** prognostic_equations.py l.304-351. *)
Definition order_tracers (l : list tracer) : list tracer := fold_left order_step (seq 0 (List.length l - 1)) l.
(** l.332-337 *)
Fixpoint append_names (names : list string) (l : list tracer) : res (list string) :=
  match l with
  | [] => Ok names
  | t :: r => if existsb (String.eqb (t_name t)) names then Err ValueError else append_names (names ++ [t_name t]) r
  end.
(** prognostic_equations.py l.304-351. *)
Definition add_tracers (names : list string) (l : list tracer) : res (list string * list tracer) :=
  let l' := order_tracers l in do n <- append_names names l'; Ok (n, l').
(** l.401: field_names.index(tracer.density_name) for every conservative tracer *)
Definition densities_found (names : list string) (l : list tracer) : res unit :=
  if forallb (fun t => match t_density t with Some d => existsb (String.eqb d) names | None => true end) l then Ok tt else Err ValueError.

(** ** MixedFSWrapper.pre_apply (l.447-465, 487-498) and post_apply (l.467-485, 500-511).
    One pass over the fields; every subwrapper keeps a pair of fields that others read:
    (x_in_orig, x_in) before, (x_projected, x_out) after.  [Plain f]: the pair as a
    function of the field; [Conservative rho f]: also of the pair found in the
    subwrapper of rho at that moment. *)
Inductive subwrapper (V : Type) := Plain (f : V -> V * V) | Conservative (rho : string) (f : V * V -> V -> V * V).
Arguments Plain {V} f.
Arguments Conservative {V} rho f.
Section Pass.
  Context {V : Type}.
  Variable sub : string -> option (subwrapper V).
  Variable field : string -> V.
  (** time_discretisation/wrappers.py MixedFSWrapper. *)
  Definition store := string -> V * V.
  (** Auxiliary, nothing in the code by itself. *)
  Definition sset (s : store) (n : string) (p : V * V) : store := fun m => if String.eqb m n then p else s m.
  (** time_discretisation/wrappers.py MixedFSWrapper, l.425-510. *)
  Definition pass_field (s : store) (n : string) : res store :=
    match sub n with
    | None => Ok s
    | Some (Plain f) => Ok (sset s n (f (field n)))
    | Some (Conservative rho f) => match sub rho with None => Err KeyError | Some _ => Ok (sset s n (f (s rho) (field n))) end
    end.
  (** time_discretisation/wrappers.py MixedFSWrapper, l.425-510. *)
  Fixpoint pass (names : list string) (s : store) : res store :=
    match names with [] => Ok s | n :: r => do s' <- pass_field s n; pass r s' end.
End Pass.

(** ** setup of a mixed wrapper: wrapper_spaces = equation.spaces aliases the list *)
(** time_discretisation.py l.276-300. *)
Definition heap := nat -> list string.   (* list objects, by address *)
(** Auxiliary, nothing in the code by itself. *)
Definition hset (h : heap) (a : nat) (l : list string) : heap := fun b => if Nat.eqb b a then l else h b.
Section Setup.
  Variable names : list string.
  (** Auxiliary, nothing in the code by itself. *)
  Fixpoint pos_of (x : string) (l : list string) (i : nat) : option nat :=
    match l with [] => None | y :: r => if String.eqb x y then Some i else pos_of x r (S i) end.
  (** l.284-294: [eq_spaces] is the address of equation.spaces, [wr_spaces] that of
      wrapper.wrapper_spaces; [fs] the function space each subwrapper makes of its
      original space; the result also lists what each subwrapper.setup received *)
  Fixpoint setup_loop (eq_spaces wr_spaces : nat) (subs : list (string * (string -> string))) (h : heap) (got : list (string * string))
    : res (heap * list (string * string)) :=
    match subs with
    | [] => Ok (h, got)
    | (n, fs) :: r =>
        match pos_of n names 0 with
        | None => Err ValueError
        | Some i =>
            let orig := nth i (h eq_spaces) EmptyString in
            setup_loop eq_spaces wr_spaces r (hset h wr_spaces (set_at i (fs orig) (h wr_spaces))) (got ++ [(n, orig)])
        end
    end.
  (** l.281: self.wrapper.wrapper_spaces = equation.spaces *)
  Definition mixed_setup (eq_spaces : nat) subs h := setup_loop eq_spaces eq_spaces subs h [].
End Setup.

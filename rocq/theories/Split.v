(** Model of gusto/timestepping/split_timestepper.py: SplitTimestepper (l.15-163) and
    SplitPhysicsTimestepper (l.166-241).  Weights and times are rationals (the effect of
    floating-point sums is treated separately in SplitFloat). *)
From Verif Require Import Base.
From Coq Require Import String.
Open Scope string_scope.
Open Scope Q_scope.

(** l.63-73. *)
Definition physics_name : string := "physics".

(** sum of weights[idx] over the indices at which [p] holds for the entry of the
    splitting; weights[idx] out of range is an IndexError. *)
(** l.63-73, 110-121. *)
Fixpoint weight_sum (p : string -> bool) (splitting : list string) (weights : list Q) : res Q :=
  match splitting, weights with
  | [], _ => Ok 0
  | s :: ss, [] => if p s then Err IndexError else weight_sum p ss []
  | s :: ss, w :: ws =>
      match weight_sum p ss ws with
      | Err e => Err e
      | Ok c => Ok (if p s then w + c else c)
      end
  end.

(** A physics scheme: does the parametrisation demand an explicit scheme, is the scheme
    explicit. *)
(** l.172-208. *)
Record phys := mk_phys { explicit_only : bool; is_explicit : bool }.

(** l.112-121: every term must be covered with total weight 1 *)
Fixpoint check_terms (splitting : list string) (ws : list Q) (ps : list phys) (ts : list (list string)) : res (list Q * list phys) :=
  match ts with
  | [] => Ok (ws, ps)
  | labels :: ts' =>
      match weight_sum (fun s => existsb (String.eqb s) labels) splitting ws with
      | Err e => Err e
      | Ok c => if Qeq_bool c 1 then check_terms splitting ws ps ts' else Err ValueError
      end
  end.

(** __init__, l.23-124.  [dynamics]: the (label, nlevels) pairs of dynamics_schemes;
    [terms]: the label sets of the equation's terms that are neither time derivatives
    nor physics.  Result: the weights in use and the physics schemes in use. *)
Definition split_construct (splitting : list string) (dynamics : list (string * nat))
    (weights : option (list Q)) (physics_schemes : option (list phys)) (terms : list (list string))
  : res (list Q * list phys) :=
  (* l.56-73 *)
  let uses_physics := existsb (String.eqb physics_name) splitting in
  match
    (if uses_physics then
       match physics_schemes with
       | None => Err ValueError
       | Some ps =>
           match weights with
           | None => Ok ps
           | Some ws => match weight_sum (String.eqb physics_name) splitting ws with
                        | Err e => Err e
                        | Ok c => if Qeq_bool c 1 then Ok ps else Err ValueError
                        end
           end
       end
     else Ok [])
  with
  | Err e => Err e
  | Ok ps =>
      (* l.75-80 *)
      if existsb (fun p => explicit_only p && negb (is_explicit p)) ps then Err AssertionError else
      (* l.85-88 *)
      let ws := match weights with Some ws => ws | None => repeat 1 (List.length splitting) end in
      (* l.92-95 *)
      if existsb (fun s => negb (String.eqb s physics_name) && negb (existsb (fun d => String.eqb s (fst d)) dynamics)) splitting
      then Err AssertionError else
      (* l.98-100 *)
      if existsb (fun d => negb (Nat.eqb (snd d) 1)) dynamics then Err AssertionError else
      (* l.110-121 *)
      check_terms splitting ws ps terms
  end.

(** ** The time step *)

(** How a scheme uses self.dt: it is read in every cycle (explicit Runge-Kutta in
    increment form: explicit_runge_kutta.py l.325, 341), or it is part of a form built
    once and cached (predictor form l.201-263; BackwardEuler, ThetaMethod, IMEX:
    cached_property solver). *)
Inductive dt_use := EveryCycle | CachedForm.
(** The schemes of l.23-60 with their subcycling options. *)
Record sscheme := mk_ss {
  use : dt_use;
  ncycles : nat;            (* 1 unless fixed_subcycles is given *)
  by_courant : bool;        (* adaptive subcycling requested *)
  cached : option Q;        (* dt inside the cached form *)
}.

(** scheme.dt = split_dt; scheme.apply(...): the time advanced and the new scheme
    state.  update_subcycling assigns to self.dt (time_discretisation.py l.451), which
    is now a UFL product and has no assign: AttributeError. *)
Definition apply_with (split_dt : Q) (s : sscheme) : res (Q * sscheme) :=
  if by_courant s then Err AttributeError
  else
    let d := match use s, cached s with CachedForm, Some c => c | _, _ => split_dt end in
    let c := match use s with CachedForm => Some d | EveryCycle => cached s end in
    Ok (inject_Z (Z.of_nat (ncycles s)) * d, mk_ss (use s) (ncycles s) (by_courant s) c).

(** l.23-60. *)
Record split_state := mk_split { dyn : string -> sscheme; physs : list sscheme }.

(** Auxiliary, nothing in the code by itself. *)
Definition upd_dyn (f : string -> sscheme) (l : string) (s : sscheme) : string -> sscheme :=
  fun m => if String.eqb m l then s else f m.

(** l.150-163. *)
Fixpoint apply_all (split_dt : Q) (l : list sscheme) : res (list Q * list sscheme) :=
  match l with
  | [] => Ok ([], [])
  | s :: tl =>
      match apply_with split_dt s with
      | Err e => Err e
      | Ok (d, s') => match apply_all split_dt tl with
                      | Err e => Err e
                      | Ok (ds, tl') => Ok (d :: ds, s' :: tl')
                      end
      end
  end.

(** timestep, l.149-163, with split_dts from l.124.  Events: (label, index of the scheme,
    time advanced). *)
Fixpoint split_timestep (dt : Q) (todo : list (string * Q)) (st : split_state)
  : res (list (string * nat * Q) * split_state) :=
  match todo with
  | [] => Ok ([], st)
  | (term, w) :: tl =>
      let split_dt := dt * w in
      match
        (if String.eqb term physics_name then
           match apply_all split_dt (physs st) with
           | Err e => Err e
           | Ok (ds, ps') => Ok (combine (combine (repeat term (List.length ds)) (seq 0 (List.length ds))) ds, mk_split (dyn st) ps')
           end
         else
           match apply_with split_dt (dyn st term) with
           | Err e => Err e
           | Ok (d, s') => Ok ([(term, 0%nat, d)], mk_split (upd_dyn (dyn st) term s') (physs st))
           end)
      with
      | Err e => Err e
      | Ok (ev, st') => match split_timestep dt tl st' with
                        | Err e => Err e
                        | Ok (evs, st'') => Ok ((ev ++ evs)%list, st'')
                        end
      end
  end.

(** zip(term_splitting, weights): split_dts[idx] needs an entry for every index *)
(** l.150-163. *)
Definition todo_of (splitting : list string) (weights : list Q) : list (string * Q) := combine splitting weights.

(** n time steps: the events of each *)
(** l.150-163. *)
Fixpoint split_run (n : nat) (dt : Q) (todo : list (string * Q)) (st : split_state) : res (list (list (string * nat * Q))) :=
  match n with
  | O => Ok []
  | S k => match split_timestep dt todo st with
           | Err e => Err e
           | Ok (ev, st') => match split_run k dt todo st' with
                             | Err e => Err e
                             | Ok evs => Ok (ev :: evs)
                             end
           end
  end.

(** total time advanced by the events selected *)
(** Auxiliary, nothing in the code by itself. *)
Definition total (p : string * nat -> bool) (evs : list (string * nat * Q)) : Q :=
  fold_right (fun e acc => if p (fst e) then snd e + acc else acc) 0 evs.

(** ** SplitPhysicsTimestepper, l.213-241: label everything that is neither time
    derivative nor physics "dynamics"; the physics schemes keep their own dt. *)
Definition label_dynamics (is_td is_physics : bool) (labels : list string) : list string :=
  if negb (is_td || is_physics) then "dynamics" :: labels else labels.

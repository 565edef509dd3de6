(** Model of physics parametrisations that are integrated together with the dynamics ("non-split"), by
    one explicit Runge-Kutta or IMEX scheme for the whole system.

    gusto/time_discretisation/explicit_runge_kutta.py: setup l.129-150, res l.202-264, solve_stage l.320-369;
    imex_runge_kutta.py l.143-287; the evaluate methods and the source terms of gusto/physics/*.py.

    A parametrisation object p has its own function self.source (p.heap), written by p.evaluate(x_in, dt).
    Its source terms are forms in that function, labelled source_label, with a subject: either self.source
    or the state X of the equation.  The schemes below replace the subject by the scheme's own function
    (source_i[i] resp. source[i]), into which evaluate(x, dt, x_out=...) has copied the whole of self.source
    ("x_out.assign(self.source)").  Replacing the subject X has no effect on these forms, which do not
    contain X: such a term goes on reading self.source.

    Simplifications: exact solves; linear time derivative; no augmentation, the subcycles and the limiter
    are not modelled (see RK.v); schemes for the whole system (idx None); terms of a parametrisation
    without source_label (its general formulation) are part of F, like the dynamics. *)
From Verif Require Import Base Vec RK.
Open Scope R_scope.

(** The subject of the source terms: physics_parametrisation.py l.115-117 (self.source),
    microphysics.py l.181-184 (equation.X). *)
Inductive subject := OwnSource | StateX.

(** What evaluate(x_in, dt, x_out) does about x_out, and what the terms of the parametrisation read. *)
Inductive kind :=
| Writes (s : subject)  (* if x_out is not None: x_out.assign(self.source); physics_parametrisation.py l.138-159 *)
| Inline                (* x_out is ignored, no source terms: boundary_and_turbulence.py l.329-350, not implicit *)
| Refuses               (* if x_out is not None: raise NotImplementedError: microphysics.py l.372-375 *)
| NoKeyword.            (* def evaluate(self, x_in, dt): held_suarez_forcing.py l.89, 171 *)

(** The parametrisations of the package, with the option that decides. *)
Inductive parametrisation :=
| SourceSink | SaturationAdjustment | Coalescence | EvaporationOfRain | Fallout
| InstantRain | SWSaturationAdjustment
| SurfaceFluxes (implicit_formulation : bool) | WindDrag (implicit_formulation : bool)
| StaticAdjustment | SuppressVerticalWind | BoundaryLayerMixing
| TerminatorToy (analytical_formulation : bool) | Relaxation | RayleighFriction.

(** physics_parametrisation.py l.115-117, 138-159; microphysics.py l.181-208, 357-375, 468-498, 653-680;
    shallow_water_microphysics.py l.122-134, 173-174, 345-348, 382-383; boundary_and_turbulence.py l.149-172, 224-225,
    315-317, 348-350, 454-457, 516-538, 689-692; chemistry.py l.105-115, 137-138;
    InstantRain without convective feedback (whose term has the subject X, l.138-139); held_suarez_forcing.py l.89-109, 171-191. *)
Definition kind_of (c : parametrisation) : kind :=
  match c with
  | SourceSink | Coalescence | EvaporationOfRain | InstantRain | SWSaturationAdjustment => Writes OwnSource
  | SaturationAdjustment => Writes StateX
  | SurfaceFluxes b | WindDrag b => if b then Writes OwnSource else Inline
  | TerminatorToy b => if b then Writes StateX else Inline
  | Fallout | StaticAdjustment | BoundaryLayerMixing => Refuses
  | SuppressVerticalWind => Inline
  | Relaxation | RayleighFriction => NoKeyword
  end.

Section NonSplit.
  Context {I : Type}.

  (** A parametrisation object: what evaluate(x, dt) puts into self.source, and the residual of its source
      terms as a function of the mixed function they read.  evaluate_source holds one evaluate method for
      each object (time_discretisation.py l.225-232). *)
  Record par := mk_par { p_kind : kind; p_rate : R -> vec I -> vec I; p_form : vec I -> vec I }.

  (** self.source of each object (by position in evaluate_source), and the functions source_i of the scheme. *)
  Definition sources := ((nat -> vec I) * (nat -> vec I))%type.

  (** evaluate(x, dt) and evaluate(x, dt, x_out=source_i[i]) of object number k; lines as for kind_of. *)
  Definition evaluate (p : par) (k : nat) (x : vec I) (dt : R) (x_out : option nat) (st : sources) : res sources :=
    match p_kind p, x_out with
    | Writes _, Some i => let v := p_rate p dt x in Ok (upd (fst st) k v, upd (snd st) i v)
    | Writes _, None => Ok (upd (fst st) k (p_rate p dt x), snd st)
    | Inline, _ => Ok st
    | Refuses, None => Ok st
    | Refuses, Some _ => Err NotImplementedError
    | NoKeyword, None => Ok (upd (fst st) k (p_rate p dt x), snd st)
    | NoKeyword, Some _ => Err TypeError
    end.

  (** for evaluate in self.evaluate_source: evaluate(...), explicit_runge_kutta.py l.326-327, 357-358;
      imex_runge_kutta.py l.270-271, 280-281. *)
  Fixpoint evaluate_all (ps : list par) (k : nat) (x : vec I) (dt : R) (x_out : option nat) (st : sources) : res sources :=
    match ps with
    | [] => Ok st
    | p :: ps => do st <- evaluate p k x dt x_out st; evaluate_all ps (S k) x dt x_out st
    end.

  (** The terms of an object after replace_subject(source_i[i]), explicit_runge_kutta.py l.257-263. *)
  Definition replaced (p : par) (k i : nat) (st : sources) : vec I :=
    match p_kind p with
    | Writes OwnSource => p_form p (snd st i)
    | Writes StateX => p_form p (fst st k)
    | Inline | Refuses | NoKeyword => vzero
    end.
  (** The sum over the terms with source_label, explicit_runge_kutta.py l.257-263; imex_runge_kutta.py l.175-183. *)
  Fixpoint replaced_all (ps : list par) (k i : nat) (st : sources) : vec I :=
    match ps with [] => vzero | p :: ps => replaced p k i st +v replaced_all ps (S k) i st end.

  (** The increment formulation keeps the subject of the source terms, explicit_runge_kutta.py l.209-215: each
      reads self.source.  (Relaxation and RayleighFriction: no source_label, but their forms do not contain X
      either, held_suarez_forcing.py l.81-87.) *)
  Definition kept (p : par) (k : nat) (st : sources) : vec I :=
    match p_kind p with
    | Writes _ | NoKeyword => p_form p (fst st k)
    | Inline | Refuses => vzero
    end.
  (** As [kept], all terms. *)
  Fixpoint kept_all (ps : list par) (k : nat) (st : sources) : vec I :=
    match ps with [] => vzero | p :: ps => kept p k st +v kept_all ps (S k) st end.

  Variables (A : nat -> nat -> R) (s : nat) (dt : R) (F : vec I -> vec I) (ps : list par).

  (** The functions of the scheme: field_i, source_i (predictor) or k (increment), and x1. *)
  Record ns_state := { ns_f : nat -> vec I; ns_src : sources; ns_x1 : vec I }.

  (** solve_stage, predictor, explicit_runge_kutta.py l.345-369 with the residual of l.231-264. *)
  Definition ns_predictor_stage (x0 : vec I) (st : ns_state) (stage : nat) : res ns_state :=
    let fi := if Nat.eqb stage 0 then upd (ns_f st) 0 x0 else ns_f st in
    do src <- evaluate_all ps 0 (fi stage) dt (Some stage) (ns_src st);
    let new := fold_left (fun x i => x +v (A stage i * dt) *v (F (fi i) -v replaced_all ps 0 i src))
                 (seq 0 (S stage)) (fi 0%nat) in
    Ok {| ns_f := upd fi (S stage) new; ns_src := src;
          ns_x1 := if Nat.eqb stage (s - 1) then new else ns_x1 st |}.

  (** solve_stage, increment, explicit_runge_kutta.py l.322-343 with the residual of l.205-229. *)
  Definition ns_increment_stage (x0 : vec I) (st : ns_state) (stage : nat) : res ns_state :=
    let x1 := fold_left (fun x i => x +v (dt * A (stage - 1) i) *v ns_f st i) (seq 0 stage) x0 in
    do src <- evaluate_all ps 0 x1 dt None (ns_src st);
    let k := upd (ns_f st) stage (F x1 -v kept_all ps 0 src) in
    Ok {| ns_f := k; ns_src := src;
          ns_x1 := if Nat.eqb stage (s - 1) then fold_left (fun x i => x +v (dt * A stage i) *v k i) (seq 0 s) x0 else x1 |}.

  (** A for loop whose body may raise. *)
  Fixpoint stages_from (body : ns_state -> nat -> res ns_state) (n k : nat) (st : ns_state) : res ns_state :=
    match n with O => Ok st | S n => do st <- body st k; stages_from body n (S k) st end.

  (** apply_cycle, l.434-454. *)
  Definition ns_predictor_cycle (x_in : vec I) (st : ns_state) : res ns_state :=
    stages_from (ns_predictor_stage x_in) s 0 st.
  (** apply_cycle, l.434-454. *)
  Definition ns_increment_cycle (x_in : vec I) (st : ns_state) : res ns_state :=
    stages_from (ns_increment_stage x_in) s 0 st.
End NonSplit.
Arguments par : clear implicits.
Arguments sources : clear implicits.
Arguments ns_state : clear implicits.

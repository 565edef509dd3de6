(** Model of how the discretisations chosen by the user get into the equation: SpatialMethod and TransportMethod
    (spatial_methods/spatial_methods.py, spatial_methods/transport_methods.py), Timestepper.setup_equation (timestepping/timestepper.py
    l.76-119) and the transport schemes of the semi-implicit steppers. *)
From Coq Require Import List String Bool Arith.
Import ListNotations.
From Verif Require Import Base Transport.
Open Scope string_scope.

Section Setup.
Context {F V : Type}.   (* weak forms; velocity fields *)

(** A term of a residual: its form and its labels (core/labels.py l.88-118).  Every term of the equation sets carries the prognostic label.
    t_mass: the form and the velocity in the mass_weighted label.  t_other: all labels not listed *)
Record term := { t_form : F; t_prog : string; t_transport : option eqn_type; t_diffusion : bool; t_hor : bool; t_ver : bool;
                 t_mass : option (F * V); t_vel : option V; t_abl : option F; t_other : list string }.
(** core/labels.py; spatial_methods.py. *)
Inductive label := L_transport | L_diffusion | L_horizontal | L_vertical.
(** fml; used in spatial_methods.py. *)
Definition has_label (l : label) (t : term) : bool :=
  match l with
  | L_transport => match t_transport t with Some _ => true | None => false end
  | L_diffusion => t_diffusion t
  | L_horizontal => t_hor t
  | L_vertical => t_ver t
  end.
(** Auxiliary, nothing in the code by itself. *)
Definition label_eqb (l m : label) : bool :=
  match l, m with L_transport, L_transport | L_diffusion, L_diffusion | L_horizontal, L_horizontal | L_vertical, L_vertical => true | _, _ => false end.
(** lambda t: t.has_label(l) and t.get(prognostic) == v *)
(** spatial_methods.py l.18-90. *)
Definition of (l : label) (v : string) (t : term) : bool := has_label l t && (t_prog t =? v).
(** split_transport.py and diffusion: replace_form. *)
Definition of2 (l1 l2 : label) (v : string) (t : term) : bool := has_label l1 t && has_label l2 t && (t_prog t =? v).

(** ** Methods *)
(** What the methods of transport_methods.py hold. *)
Inductive forms :=
| Single (f : F) (vel : V) (abl : option F) (mass : option (F * V))   (* DGUpwind: self.form, self.all_but_last_form, the mass_weighted label *)
| Split (fh : F) (vh : V) (fv : F) (vv : V)                             (* SplitDGUpwind: self.form_h, self.form_v *)
| Default                                                               (* DefaultTransport *)
| Plain (f : F).                                                        (* diffusion methods: self.form *)
(** SpatialMethod, spatial_methods.py l.13-71. *)
Record method := { m_variable : string; m_label : label (* self.term_label *); m_forms : forms }.

Variable form_of : string -> built -> F * V.   (* the form DGUpwind builds for a variable, and the velocity it is labelled with *)
Variable mass_form_of : string -> F * V.       (* its mass_weighted form *)
Variable split_forms : string -> (F * V) * (F * V).
Variable diffusion_form : string -> F.

(** SpatialMethod.__init__ (spatial_methods.py l.20-71) and TransportMethod.__init__ (transport_methods.py l.29-56): there must be exactly
    one term for each label *)
Definition the_term (l : label) (v : string) (R : list term) : res term :=
  match filter (of l v) R with [t] => Ok t | _ => Err AssertionError end.
(** l.46-51.  None: the transport label is missing (fml's get then fails; KeyError) *)
Definition type_of (t : term) : res eqn_type :=
  match t_mass t with Some _ => Ok TracerConservative | None => match t_transport t with Some ty => Ok ty | None => Err KeyError end end.
(** DGUpwind (l.194-319); which form: Transport.dg_upwind *)
Definition new_dg_upwind (one_d : bool) (R : list term) (v : string) (manifold outflow advective_then_flux : bool) : res method :=
  do t <- the_term L_transport v R;
  do ty <- type_of t;
  do b <- dg_upwind one_d ty manifold outflow advective_then_flux;
  match b with
  | None => Err RuntimeError   (* UnboundLocalError *)
  | Some b => Ok {| m_variable := v; m_label := L_transport;
      m_forms := Single (fst (form_of v b)) (snd (form_of v b))
        match b with B_continuity o true => Some (fst (form_of v (B_advection o))) | B_manifold_continuity o true => Some (fst (form_of v (B_manifold_advection o))) | _ => None end
        match b with B_mass_weighted => Some (mass_form_of v) | _ => None end |}
  end.
(** SplitDGUpwind (l.322-364); l.58 of spatial_methods.py: self.term_label is the first of the two labels *)
Definition new_split_dg_upwind (one_d : bool) (R : list term) (v : string) : res method :=
  do t <- the_term L_horizontal v R;
  do _ <- the_term L_vertical v R;
  do ty <- type_of t;
  if one_d then Err ValueError else
  match ty with
  | Advective => let '((fh, vh), (fv, vv)) := split_forms v in Ok {| m_variable := v; m_label := L_horizontal; m_forms := Split fh vh fv vv |}
  | _ => Err NotImplementedError
  end.
(** DefaultTransport (l.159-191) *)
Definition new_default (R : list term) (v : string) : res method :=
  do t <- the_term L_transport v R; do _ <- type_of t; Ok {| m_variable := v; m_label := L_transport; m_forms := Default |}.
(** InteriorPenaltyDiffusion, CGDiffusion (diffusion_methods.py l.10-25, 128-165) *)
Definition new_diffusion (R : list term) (v : string) : res method :=
  do _ <- the_term L_diffusion v R; Ok {| m_variable := v; m_label := L_diffusion; m_forms := Plain (diffusion_form v) |}.

(** ** replace_form *)
(** replace_form, spatial_methods.py l.73-87. *)
Definition set_form (t : term) (f : F) : term :=
  {| t_form := f; t_prog := t_prog t; t_transport := t_transport t; t_diffusion := t_diffusion t; t_hor := t_hor t; t_ver := t_ver t;
     t_mass := t_mass t; t_vel := t_vel t; t_abl := t_abl t; t_other := t_other t |}.
(** replace_form, transport_methods.py l.58-160. *)
Definition set_transport (t : term) (f : F) (vel : V) (abl : option F) (mass : option (F * V)) : term :=
  {| t_form := f; t_prog := t_prog t; t_transport := t_transport t; t_diffusion := t_diffusion t; t_hor := t_hor t; t_ver := t_ver t;
     t_mass := mass; t_vel := Some vel; t_abl := match abl with Some g => Some g | None => t_abl t end; t_other := t_other t |}.
(** residual.label_map(predicate, map_if_true=...) *)
(** fml; used in replace_form, transport_methods.py l.58-160. *)
Definition label_map (p : term -> bool) (yes : term -> term) (R : list term) : list term := map (fun t => if p t then yes t else t) R.
(** spatial_methods.py l.73-87; transport_methods.py l.58-154 and l.178-189 (DefaultTransport) *)
Definition replace_form (m : method) (R : list term) : res (list term) :=
  let v := m_variable m in
  match m_forms m with
  | Plain f => Ok (label_map (of (m_label m) v) (fun t => set_form t f) R)
  | Default => Ok R
  | k =>
    match filter (of L_transport v) R with
    | [] => Ok R                                  (* a warning *)
    | [t] => match k with
             | Single f vel abl mass =>
                 match t_mass t, mass with
                 | None, _ => Ok (label_map (of L_transport v) (fun _ => set_transport t f vel abl None) R)
                 | Some _, Some mw => Ok (label_map (of L_transport v) (fun _ => set_transport t f vel abl (Some mw)) R)
                 | Some _, None => Err KeyError
                 end
             | _ => Err AttributeError            (* SplitDGUpwind has no self.form *)
             end
    | _ => match filter (of2 L_transport L_horizontal v) R, filter (of2 L_transport L_vertical v) R with
           | [h], [w] => match k with
                         | Split fh vh fv vv =>
                             match t_mass h, t_mass w with
                             | None, None =>
                                 let R := label_map (of2 L_transport L_horizontal v) (fun _ => set_transport h fh vh None None) R in
                                 Ok (label_map (of2 L_transport L_vertical v) (fun _ => set_transport w fv vv None None) R)
                             | _, _ => Err NotImplementedError
                             end
                         | _ => Err AttributeError (* DGUpwind has no self.form_h *)
                         end
           | _, _ => Err RuntimeError
           end
    end
  end.

(** ** setup_equation (timestepper.py l.76-112): warnings, then the methods in order *)
Definition warnings (l : label) (R : list term) (ms : list method) : list string :=
  filter (fun v => negb (existsb (String.eqb v) (map m_variable (filter (fun m => label_eqb (m_label m) l) ms)))) (map t_prog (filter (has_label l) R)).
(** timestepping/timestepper.py l.76-119. *)
Fixpoint setup_equation (R : list term) (ms : list method) : res (list term) :=
  match ms with [] => Ok R | m :: ms => do R <- replace_form m R; setup_equation R ms end.

(** ** The transport schemes of SemiImplicitQuasiNewton (semi_implicit_quasi_newton.py l.263-300, fields one by one) and of
    TRBDF2QuasiNewton (tr_bdf2_quasi_newton.py l.244-256): the schemes to be applied in each outer iteration.
    A scheme is its field name and a description S. *)
Context {S : Type}.
(** timestepping/semi_implicit_quasi_newton.py l.264-300. *)
Fixpoint active_transport (field_names : list string) (ms : list method) (schemes : list (string * S)) : res (list (string * S)) :=
  match schemes with
  | [] => Ok []
  | (v, s) :: rest =>
      if existsb (String.eqb v) field_names then
        let found := filter (fun m => (v =? m_variable m) && label_eqb (m_label m) L_transport) ms in
        match found with
        | [] => Err AssertionError
        | _ => do more <- active_transport field_names ms rest; Ok (map (fun _ => (v, s)) found ++ more)%list
        end
      else Err AssertionError
  end.
End Setup.
Arguments term : clear implicits.
Arguments method : clear implicits.
Arguments forms : clear implicits.

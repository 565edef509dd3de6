(** Model of physics that is split from the dynamics: the terms that a parametrisation object adds to the equation, with the
    labels of gusto/core/labels.py l.46-87, and the time steppers that give each parametrisation a scheme of its own
    (timestepping/split_timestepper.py: SplitPhysicsTimestepper l.165-241, SplitPrescribedTransport l.244-370).  The selection
    of terms by TimeDiscretisation.setup is Terms.v; a scheme is any map from the terms it was set up with to a step.

    Simplifications: the values of the terms are not modelled; schemes for the whole system unless said otherwise. *)
From Coq Require Import String.
From Verif Require Import Base Terms.
Close Scope Q_scope.
Open Scope string_scope.

(** A parametrisation object: the name of its label, and the forms it adds, each with the prognostic it is labelled with
    ("" for none) and other labels (source_label).  [o_id] tells different objects apart (self.evaluate is a method of the object). *)
(** physics_parametrisation.py l.20-44, 115-117. *)
Record pobject := mk_pobject { o_id : string; o_label : string; o_forms : list (nat * string * list string) }.

(** PhysicsLabel.__call__, labels.py l.60-87: the label "physics" and the label of the parametrisation.  The prognostic is what the
    constructors give: physics_parametrisation.py l.115-117, microphysics.py l.183, 300, 469, 655 and so on. *)
Definition physics_term (o : pobject) (f : nat * string * list string) : lterm :=
  let '(i, p, ls) := f in mk_lterm i p ("physics" :: o_label o :: ls) (Some (o_id o)) None.
(** equation.residual += ..., one object. *)
Definition physics_terms (o : pobject) : list lterm := map (physics_term o) (o_forms o).
(** The residual after the objects were created, in this order. *)
Definition residual_with (r : list lterm) (objs : list pobject) : list lterm := (r ++ flat_map physics_terms objs)%list.

(** PrognosticEquation.label_terms, prognostic_equations.py l.55-66. *)
Definition add_label (l : string) (t : lterm) : lterm :=
  mk_lterm (form_id t) (prognostic t) (l :: labels t) (physics t) (mass_weighted t).
(** split_timestepper.py l.224-226: not any(t.has_label(time_derivative, physics_label)). *)
Definition label_dynamics (r : list lterm) : list lterm :=
  map (fun t => if py_any (has_label [td; "physics"] t) then t else add_label "dynamics" t) r.

Section Stepper.
  Context {X : Type}.
  (** A scheme, once set up: the step it makes with its terms. *)
  Definition stepper_scheme := list lterm -> X -> X.

  (** SplitPhysicsTimestepper: __init__ l.189-208 and setup_scheme l.214-231 (the labels are there when the physics schemes are set
      up, since BaseTimestepper.__init__ calls setup_scheme), timestep l.234-241. *)
  Definition split_physics_step (dynamics : stepper_scheme) (physics_schemes : list (pobject * stepper_scheme)) (r : list lterm) (x : X) : X :=
    let r := label_dynamics r in
    let x := dynamics (setup_terms WholeSystem ["dynamics"] r) x in
    fold_left (fun x ps => snd ps (setup_terms WholeSystem [o_label (fst ps)] r) x) physics_schemes x.
End Stepper.

(** The parametrisations of the package, with the arguments that enter the name of the label or the number of terms. *)
Inductive library :=
| LSourceSink (variable : string)                   (* physics_parametrisation.py l.80 *)
| LSaturationAdjustment                             (* microphysics.py l.63 *)
| LFallout (rain : string)                          (* microphysics.py l.260 *)
| LCoalescence (accretion accumulation : bool)      (* microphysics.py l.408-412; species are not part of the name *)
| LEvaporationOfRain                                (* microphysics.py l.532 *)
| LInstantRain                                      (* shallow_water_microphysics.py l.64 *)
| LSWSaturationAdjustment                           (* shallow_water_microphysics.py l.238 *)
| LSurfaceFluxes | LWindDrag | LStaticAdjustment | LSuppressVerticalWind   (* boundary_and_turbulence.py l.66, 260, 381, 487 *)
| LBoundaryLayerMixing (field : string)             (* boundary_and_turbulence.py l.572 *)
| LTerminatorToy                                    (* chemistry.py l.48 *)
| LRelaxation (variable : string) | LRayleighFriction.   (* held_suarez_forcing.py l.28, 124 *)

(** label_name, lines as above. *)
Definition label_name (c : library) : string :=
  match c with
  | LSourceSink v => "source_sink_" ++ v
  | LSaturationAdjustment | LSWSaturationAdjustment => "saturation_adjustment"
  | LFallout r => "fallout_" ++ r
  | LCoalescence a b => "coalescence" ++ (if a then "_accretion" else "") ++ (if b then "_accumulation" else "")
  | LEvaporationOfRain => "evaporation_of_rain"
  | LInstantRain => "instant_rain"
  | LSurfaceFluxes => "surface_flux"
  | LWindDrag => "wind_drag"
  | LStaticAdjustment => "static_adjustment"
  | LSuppressVerticalWind => "suppress_vertical_wind"
  | LBoundaryLayerMixing f => "boundary_layer_mixing_" ++ f
  | LTerminatorToy => "terminator_toy"
  | LRelaxation v => "relaxation_" ++ v
  | LRayleighFriction => "rayleigh_friction"
  end.

(** Are the terms labelled with their prognostic?  The source terms of physics_parametrisation.py l.115-117, microphysics.py
    l.183, 469-478, 655 and shallow_water_microphysics.py l.122-139, 347 are not; all others are (microphysics.py l.300,
    boundary_and_turbulence.py l.150, 172, 186, 200, 316, 327, 427, 514, 669, chemistry.py l.105-115, held_suarez_forcing.py l.87, 169). *)
Definition has_prognostic (c : library) : bool :=
  match c with
  | LSourceSink _ | LSaturationAdjustment | LCoalescence _ _ | LEvaporationOfRain | LInstantRain | LSWSaturationAdjustment => false
  | _ => true
  end.

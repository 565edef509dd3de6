(** Model of the names of diagnostics, the fields they declare (required_fields) and the fields they look up in the field
    container, for every diagnostic class of gusto/diagnostics; of IO.setup_diagnostics (core/io.py l.336-368), which orders
    them by what they declare and sets them up; and of the loop of IO.dump that computes them (l.748-750).
    The values are not modelled here: a diagnostic is a formula of the fields it reads. *)
From Coq Require Import List String Bool Arith.
Import ListNotations.
From Verif Require Import Base TopoSort.
Local Open Scope string_scope.

(** Only whether a tracer counts as water matters here (equations/active_tracers.py: ActiveTracer) *)
Record tracer := { t_name : string; t_water : bool (* chemical == 'H2O' *) }.
(** The loops over active tracers, C l.270-274, 399-403, 691-695. *)
Definition waters (ts : list tracer) : list string := map t_name (filter t_water ts).

(** The diagnostic classes with the arguments that decide on names and fields.
    C = diagnostics/compressible_euler_diagnostics.py, S = shallow_water_diagnostics.py, D = diagnostics.py *)
Inductive diagnostic :=
| CourantNumber (velocity : option string) (* None: an expression *) (nm : option string) (component : string)
                (required : list string) (to_dump : bool)                       (* D l.341-457 *)
| Gradient (f : string)                                                         (* D l.460-516 *)
| Divergence (f : string)                                                       (* D l.519-553 *)
| Component (suffix f : string)  (* _x _y _z _meridional _zonal _radial: D l.556-751 *)
| KineticEnergy                                                                 (* D l.775-801 *)
| Sum (f g : string) | Difference (f g : string)                                (* D l.804-866 *)
| SteadyStateError (f : string)                                                 (* D l.869-926 *)
| Perturbation (f : string)                                                     (* D l.929-959 *)
| TracerDensity (m r : string)                                                  (* D l.962-1057 *)
| CumulativeSum (f : string)                                                    (* D l.1060-1097 *)
| RichardsonNumber (density : string)                                           (* C l.24-64 *)
| PhysicalEntropy | DynamicEntropy                                              (* C l.67-124 *)
| CompressibleKineticEnergy                                                     (* C l.127-153 *)
| Exner (reference : bool)                                                      (* C l.156-201 *)
| BruntVaisala                                                                  (* C l.204-246 *)
| Thermodynamic (nm : string) (ts : list tracer)  (* Theta_e, InternalEnergy, PotentialEnergy, Temperature, Theta_d,
                                                     RelativeHumidity, Pressure_Vt, Exner_Vt: C l.250-374, 585-668 *)
| ThermodynamicKineticEnergy (ts : list tracer)                                 (* C l.378-418 *)
| Dewpoint                                                                      (* C l.421-496 *)
| WetBulb (moist : bool)   (* moist: there is a field water_vapour; C l.499-582 *)
| HydrostaticImbalance (ts : list tracer)                                       (* C l.672-746 *)
| Precipitation                                                                 (* C l.749-808 *)
| SWKineticEnergy | SWPotentialEnergy                                           (* S l.18-78 *)
| SWPotentialEnstrophy (base : string)                                          (* S l.81-141 *)
| PotentialVorticity | AbsoluteVorticity | RelativeVorticity                    (* S l.144-329 *)
| PartitionedVapour (f : string) | PartitionedCloud (f : string)                (* S l.332-430; the prognostic fields used by
                                                                                   compute_saturation are not looked up by name *)
| Custom (nm : string) (required reads : list string).   (* a DiagnosticField class written by the user *)

(** The constructors.  ThermodynamicKineticEnergy (C l.397-405) passes required_fields to ThermodynamicDiagnostic.__init__
    (C l.253), which has no such argument *)
Definition construct (d : diagnostic) : res unit :=
  match d with
  | CourantNumber v nm c _ _ =>                                        (* D l.372-391 *)
      if mem c ["whole"; "horizontal"; "vertical"] then
        match v, nm with None, None => Err ValueError | _, _ => Ok tt end
      else Err ValueError
  | SWPotentialEnstrophy b =>                                          (* S l.96-107 *)
      if mem b ["PotentialVorticity"; "RelativeVorticity"; "AbsoluteVorticity"] then Ok tt else Err ValueError
  | ThermodynamicKineticEnergy _ => Err TypeError
  | _ => Ok tt
  end.

(** The property/attribute name of each class (lines as above) *)
Definition dname (d : diagnostic) : string :=
  match d with
  | CourantNumber (Some v) nm c _ _ =>                                 (* D l.378-387 *)
      (if String.eqb v "u" then "CourantNumber"
       else match nm with None => "CourantNumber_" ++ v | Some n => "CourantNumber_" ++ n end)
      ++ (if String.eqb c "whole" then "" else "_" ++ c)
  | CourantNumber None nm _ _ _ =>                                     (* D l.388-393 *)
      match nm with None => "CourantNumber" | Some n => "CourantNumber_" ++ n end
  | Gradient f => f ++ "_gradient"
  | Divergence f => f ++ "_divergence"
  | Component s f => f ++ s
  | KineticEnergy => "KineticEnergy"
  | Sum f g => f ++ "_plus_" ++ g
  | Difference f g => f ++ "_minus_" ++ g
  | SteadyStateError f => f ++ "_error"
  | Perturbation f => f ++ "_perturbation"
  | TracerDensity m r => "TracerDensity_" ++ m ++ "_" ++ r
  | CumulativeSum f => f ++ "_cumulative"
  | RichardsonNumber _ => "RichardsonNumber"
  | PhysicalEntropy => "PhysicalEntropy"
  | DynamicEntropy => "DynamicEntropy"
  | CompressibleKineticEnergy => "CompressibleKineticEnergy"
  | Exner r => if r then "Exner_bar" else "Exner"
  | BruntVaisala => "Brunt-Vaisala_squared"
  | Thermodynamic n _ => n
  | ThermodynamicKineticEnergy _ => "ThermodynamicKineticEnergy"
  | Dewpoint => "Dewpoint"
  | WetBulb _ => "WetBulb"
  | HydrostaticImbalance _ => "HydrostaticImbalance"
  | Precipitation => "Precipitation"
  | SWKineticEnergy => "ShallowWaterKineticEnergy"
  | SWPotentialEnergy => "ShallowWaterPotentialEnergy"
  | SWPotentialEnstrophy b => "SWPotentialEnstrophy_from_" ++ b
  | PotentialVorticity => "PotentialVorticity"
  | AbsoluteVorticity => "AbsoluteVorticity"
  | RelativeVorticity => "RelativeVorticity"
  | PartitionedVapour _ => "PartitionedVapour"
  | PartitionedCloud _ => "PartitionedCloud"
  | Custom n _ _ => n
  end.

(** self.required_fields.  ("u") and ("D") in D l.789 and S l.65 are strings, not tuples: set("u") is the set of its characters *)
Fixpoint chars (s : string) : list string :=
  match s with EmptyString => [] | String a s => String a EmptyString :: chars s end.
Definition required (d : diagnostic) : list string :=
  match d with
  | CourantNumber _ _ _ req _ => req                                   (* D l.396 *)
  | Gradient f | Divergence f | Component _ f | CumulativeSum f => [f] (* D l.475, 535, 570, 1069 *)
  | KineticEnergy => chars "u"                                         (* D l.789 *)
  | Sum f g | Difference f g => [f; g]                                 (* D l.812, 844 *)
  | SteadyStateError f => [f; f ++ "_init"]                            (* D l.876-878 *)
  | Perturbation f => [f; f ++ "_bar"]                                 (* D l.936-938 *)
  | TracerDensity m r => [m; r]                                        (* D l.989 *)
  | RichardsonNumber r => [r; "u_gradient"]                            (* C l.41 *)
  | PhysicalEntropy | DynamicEntropy => ["rho"; "theta"]               (* C l.84-88 *)
  | CompressibleKineticEnergy => ["rho"; "u"]                          (* C l.141 *)
  | Exner r => if r then ["rho_bar"; "theta_bar"] else ["rho"; "theta"]   (* C l.174-180 *)
  | BruntVaisala => ["theta"]                                          (* C l.223-234 *)
  | Thermodynamic _ ts => "rho" :: "theta" :: waters ts                (* C l.268-276 *)
  | ThermodynamicKineticEnergy ts => "rho" :: "u" :: waters ts         (* C l.398-405 *)
  | Dewpoint | WetBulb _ => []                                         (* C l.449-450, 525-526 *)
  | HydrostaticImbalance ts => (["rho"; "theta"; "rho_bar"; "theta_bar"] ++ waters ts)%list   (* C l.690-699 *)
  | Precipitation => ["rain"; "rainfall_velocity"; "rho"]              (* C l.759 *)
  | SWKineticEnergy => ["D"; "u"]                                      (* S l.32 *)
  | SWPotentialEnergy => chars "D"                                     (* S l.65 *)
  | SWPotentialEnstrophy b =>                                          (* S l.102-105 *)
      if String.eqb b "RelativeVorticity" then [b; "D"; "coriolis"] else [b; "D"]
  | PotentialVorticity => ["u"; "D"; "coriolis"]                       (* S l.253 *)
  | AbsoluteVorticity => ["u"; "coriolis"]                             (* S l.286 *)
  | RelativeVorticity => ["u"]                                         (* S l.319 *)
  | PartitionedVapour f | PartitionedCloud f => [f]                    (* S l.355, 405 *)
  | Custom _ req _ => req
  end.

(** The names looked up with state_fields(...) in setup (and used by compute through the expressions built there) *)
Definition reads (d : diagnostic) : list string :=
  match d with
  | CourantNumber (Some v) _ _ _ _ => [v]                              (* D l.416-417 *)
  | CourantNumber None _ _ _ _ => []                                   (* D l.419: an expression, whose fields are declared by the user *)
  | Gradient f | Divergence f | Component _ f | CumulativeSum f => [f] (* D l.490-494, 550, 582, 1081 *)
  | KineticEnergy => ["u"]                                             (* D l.799 *)
  | Sum f g | Difference f g => [f; g]                                 (* D l.829-830, 862-863 *)
  | SteadyStateError f => [f; f ++ "_init"]                            (* D l.889-900 *)
  | Perturbation f => [f; f ++ "_bar"]                                 (* D l.954-959 *)
  | TracerDensity m r => [m; r]                                        (* D l.1003-1004 *)
  | RichardsonNumber r => [r ++ "_gradient"; "u_gradient"; "u"]        (* C l.53-59 *)
  | PhysicalEntropy | DynamicEntropy => ["rho"; "theta"]               (* C l.103-104, 121-122 *)
  | CompressibleKineticEnergy => ["u"; "rho"]                          (* C l.150-151 *)
  | Exner r => if r then ["rho_bar"; "theta_bar"] else ["rho"; "theta"]   (* C l.198-199 *)
  | BruntVaisala => ["theta"]                                          (* C l.244 *)
  | Thermodynamic _ ts => "rho" :: "theta" :: waters ts                (* C l.292-310; vapour and liquid are looked up twice *)
  | ThermodynamicKineticEnergy ts => "u" :: "rho" :: "theta" :: waters ts   (* C l.415-416 *)
  | Dewpoint => ["theta"; "rho"; "water_vapour"]                       (* C l.462-465; without water vapour it is a RuntimeError
                                                                          where the model has a ValueError *)
  | WetBulb m => "theta" :: "rho" :: (if m then ["water_vapour"] else [])   (* C l.538-541 *)
  | HydrostaticImbalance _ => ["rho"; "rho_bar"; "theta"; "theta_bar"] (* C l.710-713 *)
  | Precipitation => ["rain"; "rho"; "rainfall_velocity"]              (* C l.778-780 *)
  | SWKineticEnergy => ["u"; "D"]                                      (* S l.42-43 *)
  | SWPotentialEnergy => ["D"]                                         (* S l.76 *)
  | SWPotentialEnstrophy b =>                                          (* S l.126-137 *)
      if String.eqb b "RelativeVorticity" then ["RelativeVorticity"; "D"; "coriolis"] else [b; "D"]
  | PotentialVorticity => ["u"; "coriolis"; "D"]                       (* S l.175-189 *)
  | AbsoluteVorticity => ["u"; "coriolis"]
  | RelativeVorticity => ["u"]
  | PartitionedVapour f | PartitionedCloud f => [f]                    (* S l.365, 415 *)
  | Custom _ _ rd => rd
  end.

(** Fields that a diagnostic creates for itself if there is none yet (D l.889-892, 954-957) *)
Definition creates (d : diagnostic) : list string :=
  match d with SteadyStateError f => [f ++ "_init"] | Perturbation f => [f ++ "_bar"] | _ => [] end.

(** The field container: names and types of the fields (core/fields.py l.113-258).  Only whether the type is "diagnostic" matters *)
Definition container := list (string * bool).
(** Auxiliary, nothing in the code by itself. *)
Definition names (sf : container) : list string := map fst sf.
(** state_fields(name, space=...): creates the field unless it exists (fields.py l.187-232) *)
Definition ensure (n : string) (diag : bool) (sf : container) : container :=
  if mem n (names sf) then sf else (sf ++ [(n, diag)])%list.
(** The type of a diagnostic's own field: "diagnostic" if dumped and not picked up (fields.py l.216-223); the sums over time are
    picked up (C l.801, D l.1085), the Courant numbers need not be dumped (D l.399) *)
Definition own_type (d : diagnostic) : bool :=
  match d with CumulativeSum _ | Precipitation => false | CourantNumber _ _ _ _ dump => dump | _ => true end.

(** setup of one diagnostic: ValueError if a field is looked up that does not exist (fields.py l.191-195) *)
Definition setup (d : diagnostic) (sf : container) : res container :=
  if forallb (fun r => mem r (names sf) || mem r (creates d)) (reads d)
  then Ok (ensure (dname d) (own_type d) (fold_left (fun sf c => ensure c false sf) (creates d) sf))
  else Err ValueError.
(** io.py l.360-361. *)
Fixpoint setup_all (l : list diagnostic) (sf : container) : res container :=
  match l with
  | [] => Ok sf
  | d :: l => match setup d sf with Ok sf => setup_all l sf | Err e => Err e end
  end.

(** fname[-k:] == suffix *)
(** io.py l.350-351. *)
Definition ends_with (suffix s : string) : bool :=
  String.eqb (substring (String.length s - String.length suffix) (String.length suffix) s) suffix.
(** IO.setup_diagnostics, io.py l.345-361 *)
Definition non_diagnostics (ds : list diagnostic) (sf : container) : list string :=
  let all := flat_map required ds in
  (map fst (filter (fun p => negb (snd p) || negb (mem (fst p) (map dname ds))) sf)      (* l.346 *)
   ++ filter (ends_with "_bar") all ++ filter (ends_with "_init") all)%list.             (* l.349-352 *)
Definition setup_diagnostics (ds : list diagnostic) (sf : container) : res (list diagnostic * container) :=
  match topo_sort dname (field_deps required (non_diagnostics ds sf) ds) with            (* l.355-357 *)
  | Err e => Err e
  | Ok schedule => match setup_all schedule sf with Ok sf => Ok (schedule, sf) | Err e => Err e end   (* l.360-361 *)
  end.

(** IO.dump, io.py l.748-750: the diagnostics are computed one after the other *)
Section Dump.
Context {V : Type}.
Variable formula : diagnostic -> V -> list V -> V.
(** Auxiliary, nothing in the code by itself. *)
Definition assign (n : string) (v : V) (e : string -> V) : string -> V := fun m => if String.eqb m n then v else e m.
(** DiagnosticField.compute and its overrides (D l.204-216). *)
Definition compute (d : diagnostic) (e : string -> V) : string -> V :=
  assign (dname d) (formula d (e (dname d)) (map e (reads d))) e.
(** io.py l.748-750. *)
Definition dump (schedule : list diagnostic) (e : string -> V) : string -> V := fold_left (fun e d => compute d e) schedule e.
End Dump.

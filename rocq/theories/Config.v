(** Model of the option objects: gusto/core/configuration.py and
    gusto/core/equation_configuration.py. *)
From Verif Require Import Base.
Local Open Scope string_scope.

(** Python values as far as the setters look at them (type(value) in [...]).
    VBool is separate: type(True) is bool, not int. *)
(** Auxiliary, nothing in the code by itself. *)
Inductive value :=
| VNone | VBool (b : bool) | VInt (z : Z) | VFloat (q : Q) | VStr (s : string)
| VList (l : list string)
| VConstant (q : Q)            (* firedrake.Constant *)
| VRealFunction (q : Q)        (* Function on the space "R" of the mesh *)
| VOther (tag : string).       (* enums, expressions, functions, ... *)

(** Auxiliary, nothing in the code by itself. *)
Definition is_number (v : value) : bool :=
  match v with VInt _ | VFloat _ => true | _ => false end.

(** A class: the attributes hasattr() finds on it, with their defaults. *)
(** Auxiliary, nothing in the code by itself. *)
Definition cls := list (string * value).
(** An object: its class and its instance dictionary (latest first). *)
(** Auxiliary, nothing in the code by itself. *)
Record obj := mk_obj { o_cls : cls; o_dict : list (string * value) }.

(** Auxiliary, nothing in the code by itself. *)
Fixpoint assoc (n : string) (l : list (string * value)) : option value :=
  match l with
  | [] => None
  | (m, v) :: tl => if String.eqb n m then Some v else assoc n tl
  end.

(** Attribute lookup: instance dictionary, then class. *)
(** Auxiliary, nothing in the code by itself. *)
Definition getattr (o : obj) (n : string) : option value :=
  match assoc n (o_dict o) with Some v => Some v | None => assoc n (o_cls o) end.
(** Auxiliary, nothing in the code by itself. *)
Definition hasattr (o : obj) (n : string) : bool :=
  match getattr o n with Some _ => true | None => false end.
(** Auxiliary, nothing in the code by itself. *)
Definition store (o : obj) (n : string) (v : value) : obj :=
  mk_obj (o_cls o) ((n, v) :: o_dict o).

(** configuration.py l.80-83 *)
Definition non_constants : list string :=
  ["dumpfreq"; "pddumpfreq"; "chkptfreq"; "fixed_subcycles"; "max_subcycles"; "subcycle_by_courant"].
(** Auxiliary, nothing in the code by itself. *)
Definition in_strs (n : string) (l : list string) : bool := existsb (String.eqb n) l.

(** Configuration.__setattr__, configuration.py l.58-87. *)
Definition config_setattr (o : obj) (n : string) (v : value) : res obj :=
  if negb (hasattr o n) then Err AttributeError
  else if is_number v && negb (in_strs n non_constants) then Err AttributeError
  else Ok (store o n v).

(** Configuration.__init__, l.50-56: keyword arguments in order. *)
Fixpoint config_set_all (o : obj) (kw : list (string * value)) : res obj :=
  match kw with
  | [] => Ok o
  | (n, v) :: tl => do o' <- config_setattr o n v; config_set_all o' tl
  end.
(** configuration.py l.50-56. *)
Definition config_new (c : cls) (kw : list (string * value)) : res obj :=
  config_set_all (mk_obj c []) kw.

(** OutputParameters, configuration.py l.90-118. *)
Definition OutputParameters : cls :=
  [("dump_vtus", VBool true); ("dump_nc", VBool false); ("dumpfreq", VInt 1);
   ("pddumpfreq", VNone); ("dumplist", VNone); ("dumplist_latlon", VList []);
   ("dump_diagnostics", VBool true); ("diagfreq", VInt 1); ("checkpoint", VBool false);
   ("checkpoint_method", VStr "checkpointfile"); ("checkpoint_pickup_filename", VNone);
   ("chkptfreq", VInt 1); ("multichkpt", VBool false); ("dirname", VNone);
   ("log_courant", VBool true); ("project_fields", VBool false); ("point_data", VList []);
   ("tolerance", VNone); ("overwrite_files", VBool false)].

(** SubcyclingOptions, l.193-210 (check_options is found by hasattr as well). *)
Definition SubcyclingOptions : cls :=
  [("fixed_subcycles", VNone); ("max_subcycles", VInt 10); ("subcycle_by_courant", VNone);
   ("check_options", VOther "method")].

(** SUPGOptions, l.160-175. *)
Definition SUPGOptions : cls :=
  [("name", VStr "supg"); ("tau", VNone); ("default", VOther "1/sqrt(15)");
   ("ibp", VOther "IntegrateByParts.TWICE"); ("suboptions", VNone)].

(** RexiParameters, gusto/rexi/rexi.py l.15-22. *)
Definition RexiParameters : cls :=
  [("h", VFloat (2#10)); ("M", VInt 64); ("reduce_to_half", VBool false); ("coefficients", VStr "haut")].

(** SubcyclingOptions.check_options, l.211-219. *)
Definition is_none (v : option value) : bool :=
  match v with Some VNone => true | _ => false end.
(** SubcyclingOptions.check_options, configuration.py l.211-218. *)
Definition check_options (o : obj) : res unit :=
  if negb (is_none (getattr o "fixed_subcycles")) && negb (is_none (getattr o "subcycle_by_courant"))
  then Err ValueError else Ok tt.

(** EquationParameters.__setattr__, equation_configuration.py l.40-71: with a
    mesh, numbers and Constants become Functions on R; without a mesh a numeric
    value fails (R is unbound; UnboundLocalError, represented by RuntimeError). *)
Definition to_real (v : value) : option Q :=
  match v with
  | VInt z => Some (inject_Z z) | VFloat q => Some q | VConstant q => Some q | _ => None
  end.
(** EquationParameters.__setattr__, equation_configuration.py l.40-71. *)
Definition eqp_setattr (has_mesh : bool) (o : obj) (n : string) (v : value) : res obj :=
  if negb (hasattr o n) then Err AttributeError
  else match to_real v with
       | Some q => if has_mesh then Ok (store o n (VRealFunction q)) else Err RuntimeError
       | None => Ok (store o n v)
       end.

(** equation_configuration.py l.28-38. *)
Fixpoint eqp_set_all (has_mesh : bool) (o : obj) (kw : list (string * value)) : res obj :=
  match kw with
  | [] => Ok o
  | (n, v) :: tl => do o' <- eqp_setattr has_mesh o n v; eqp_set_all has_mesh o' tl
  end.

(** dict.update: replaces existing keys in place, appends new ones. *)
(** Auxiliary, nothing in the code by itself. *)
Fixpoint dict_set (d : list (string * value)) (n : string) (v : value) : list (string * value) :=
  match d with
  | [] => [(n, v)]
  | (m, w) :: tl => if String.eqb n m then (m, v) :: tl else (m, w) :: dict_set tl n v
  end.
(** Auxiliary, nothing in the code by itself. *)
Definition dict_update (d kw : list (string * value)) : list (string * value) :=
  fold_left (fun d e => dict_set d (fst e) (snd e)) kw d.

(** EquationParameters.__init__, l.28-38: the numeric class attributes updated by
    the keyword arguments are all set. *)
Definition eqp_new (c : cls) (kw : list (string * value)) : res obj :=
  let params := filter (fun e => match to_real (snd e) with Some _ => true | None => false end) c in
  eqp_set_all true (mk_obj c []) (dict_update params kw).

(** CompressibleParameters (excerpt of the table l.82-103), ShallowWaterParameters l.106-128. *)
Definition CompressibleParameters : cls :=
  [("mesh", VNone); ("g", VFloat (9810616#1000000)); ("N", VFloat (1#100)); ("cp", VFloat (10045#10));
   ("R_d", VFloat (287#1)); ("kappa", VFloat (2#7)); ("p_0", VFloat (100000#1)); ("cv", VFloat (7175#10));
   ("c_pl", VFloat (4186#1)); ("c_pv", VFloat (1885#1)); ("c_vv", VFloat (1424#1)); ("R_v", VFloat (461#1));
   ("L_v0", VFloat (2500000#1)); ("T_0", VFloat (27315#100)); ("w_sat1", VFloat (3803#10));
   ("w_sat2", VFloat (-1727#100)); ("w_sat3", VFloat (3586#100)); ("w_sat4", VFloat (6109#10)); ("Omega", VNone)].

(** Model of gusto/time_discretisation/multi_level_schemes.py. *)
From Verif Require Import Base Vec Fml.
Open Scope R_scope.

(* ---------------------------------------------------------------- *)
(** ** Construction *)

(** The wrapper options a user may pass (core/configuration.py). *)
Inductive adv_options := NoOptions | EmbeddedDG | Recovery | SUPG.
(** MultilevelTimeDiscretisation.__init__ l.39-40; BDF2 and Leapfrog use it *)
Definition ml_construct (o : adv_options) : res unit :=
  match o with EmbeddedDG | Recovery => Err NotImplementedError | _ => Ok tt end.
(** AdamsBashforth.__init__ l.287-296 *)
Definition ab_construct (order : Z) (o : adv_options) : res Z :=
  if (order >? 5)%Z || (order <? 1)%Z then Err ValueError
  else match ml_construct o with Ok _ => Ok order | Err e => Err e end.
(** AdamsMoulton.__init__ l.440-453 *)
Definition am_construct (order : Z) (o : adv_options) : res Z :=
  if (order >? 4)%Z || (order <? 1)%Z then Err ValueError
  else match ml_construct o with Ok _ => Ok order | Err e => Err e end.

(** MultilevelTimeDiscretisation.setup, l.51-59: see Terms.scheme_setup. *)

(* ---------------------------------------------------------------- *)
(** ** Coefficients (oldest level first) *)

(** AdamsBashforth.setup l.304-314 *)
Definition ab_b (order : nat) : list R :=
  match order with
  | 1%nat => [1]
  | 2%nat => [-(1/2); 3/2]
  | 3%nat => [5/12; -(16/12); 23/12]
  | 4%nat => [-(9/24); 37/24; -(59/24); 55/24]
  | 5%nat => [251/720; -(1274/720); 2616/720; -(2774/720); 2901/720]
  | _ => []
  end.
(** AdamsMoulton.setup l.460-471 *)
Definition am_bl (order : nat) : R :=
  match order with 1%nat => 1/2 | 2%nat => 5/12 | 3%nat => 9/24 | 4%nat => 251/720 | _ => 0 end.
(** l.460-471. *)
Definition am_br (order : nat) : list R :=
  match order with
  | 1%nat => [1/2]
  | 2%nat => [-(1/12); 8/12]
  | 3%nat => [1/24; -(5/24); 19/24]
  | 4%nat => [-(19/720); 106/720; -(254/720); 646/720]
  | _ => []
  end.

(* ---------------------------------------------------------------- *)
(** ** Residuals.  [X] is the equation's own field, [x_in] the input levels (oldest
    first), [x_out] the unknown. *)
Section Residuals.
  Context {I : Type}.
  Variables (dt : R) (X : vec I).
  (** Auxiliary, nothing in the code by itself. *)
  Definition level (x_in : list (vec I)) (n : nat) : vec I := nth n x_in vzero.
  (** Auxiliary, nothing in the code by itself. *)
  Definition newest (x_in : list (vec I)) : vec I := last x_in vzero.
  (** Auxiliary, nothing in the code by itself. *)
  Definition coef (l : list R) (n : nat) : R := nth n l 0.

  (** TimeDiscretisation.res, time_discretisation.py l.391-411 *)
  Definition base_res (x1 x_out : vec I) : form I :=
    let r := label_map has_td (replace_subject x_out) drop (residual X) in
    let q := label_map all_terms (replace_subject x1) keep (residual X) in
    fminus r (label_map has_td keep (times (- dt)) q).

  (** BDF2.res0, l.74-93 *)
  Definition bdf2_res0 (x1 x_out : vec I) : form I :=
    let r := label_map all_terms (replace_subject x_out) keep (residual X) in
    let r := label_map has_td keep (times dt) r in
    fminus r (label_map has_td (replace_subject x1) drop (residual X)).
  (** BDF2.res, l.95-119 *)
  Definition bdf2_res (xnm1 x1 x_out : vec I) : form I :=
    let r := label_map all_terms (replace_subject x_out) keep (residual X) in
    let r := label_map has_td keep (times (2 / 3 * dt)) r in
    let xn := label_map has_td (replace_subject x1) drop (residual X) in
    let xm := label_map has_td (replace_subject xnm1) drop (residual X) in
    fminus r (fminus (fscale (4 / 3) xn) (fscale (1 / 3) xm)).

  (** Leapfrog.res0, l.172-191 *)
  Definition leapfrog_res0 (x1 x_out : vec I) : form I :=
    let r := label_map has_td (replace_subject x_out) drop (residual X) in
    let q := label_map all_terms (replace_subject x1) keep (residual X) in
    fminus r (label_map has_td keep (times (- dt)) q).
  (** Leapfrog.rhs, l.193-213 *)
  Definition leapfrog_rhs (xnm1 x1 x_out : vec I) : form I :=
    let r := label_map has_td (replace_subject x_out) drop (residual X) in
    let q := label_map has_td keep (replace_subject x1) (residual X) in
    let q := label_map has_td (replace_subject xnm1) (times (- 2 * dt)) q in
    fminus r q.

  (** AdamsBashforth.res0, l.320-338 *)
  Definition ab_res0 (x_in : list (vec I)) (x_out : vec I) : form I :=
    let r := label_map has_td (replace_subject x_out) drop (residual X) in
    let q := label_map all_terms (replace_subject (newest x_in)) keep (residual X) in
    fminus r (label_map has_td keep (times (- dt)) q).
  (** AdamsBashforth.res, l.340-367 *)
  Definition ab_res (order : nat) (x_in : list (vec I)) (x_out : vec I) : form I :=
    let b := ab_b order in
    let r := label_map has_td (replace_subject x_out) drop (residual X) in
    let q := label_map all_terms (replace_subject (newest x_in)) keep (residual X) in
    let r := fminus r (label_map has_td keep (times (- last b 0 * dt)) q) in
    fold_left (fun r n =>
      let rtemp := label_map has_td drop (replace_subject (level x_in n)) (residual X) in
      let rtemp := label_map has_td keep (times (- dt * coef b n)) rtemp in
      fminus r rtemp) (seq 0 (order - 1)) r.

  (** AdamsMoulton.res0, l.477-500 *)
  Definition am_res0 (x_in : list (vec I)) (x_out : vec I) : form I :=
    let r := label_map all_terms (replace_subject x_out) keep (residual X) in
    let r := label_map has_td keep (times (1 / 2 * dt)) r in
    let q := label_map all_terms (replace_subject (newest x_in)) keep (residual X) in
    fminus r (label_map has_td keep (times (- (1 / 2) * dt)) q).
  (** AdamsMoulton.res, l.502-532 *)
  Definition am_res (order : nat) (x_in : list (vec I)) (x_out : vec I) : form I :=
    let b := am_br order in
    let r := label_map all_terms (replace_subject x_out) keep (residual X) in
    let r := label_map has_td keep (times (am_bl order * dt)) r in
    let q := label_map all_terms (replace_subject (newest x_in)) keep (residual X) in
    let r := fminus r (label_map has_td keep (times (- last b 0 * dt)) q) in
    fold_left (fun r n =>
      let rtemp := label_map has_td drop (replace_subject (level x_in n)) (residual X) in
      let rtemp := label_map has_td keep (times (- dt * coef b n)) rtemp in
      fminus r rtemp) (seq 0 (order - 1)) r.
End Residuals.

(* ---------------------------------------------------------------- *)
(** ** Attribute lookup

    [solver] (l.131, 225, 379, 544) builds its problem from self.res.  Python looks the
    name up along the method resolution order.  The names below are those defined in
    the class bodies (l.62-158, 161-253, 256-406, 409-571, 16-59;
    time_discretisation.py l.60-460), abbreviated to the relevant ones. *)
Inductive cls := CBase | CMultilevel | CBDF2 | CLeapfrog | CAB | CAM.
(** Auxiliary, nothing in the code by itself. *)
Inductive attr := Ares0 | Ares | Arhs | Asolver0 | Asolver | Aapply | Anlevels.
(** Auxiliary, nothing in the code by itself. *)
Definition attr_eqb (a b : attr) : bool :=
  match a, b with
  | Ares0, Ares0 | Ares, Ares | Arhs, Arhs | Asolver0, Asolver0 | Asolver, Asolver | Aapply, Aapply
  | Anlevels, Anlevels => true
  | _, _ => false
  end.
(** What the classes at l.43, 131, 162, 225, 256, 379, 409, 544 define. *)
Definition class_body (c : cls) : list attr :=
  match c with
  | CBase => [Ares; Asolver; Aapply; Anlevels]
  | CMultilevel => [Anlevels]
  | CLeapfrog => [Anlevels; Ares0; Arhs; Asolver0; Asolver; Aapply]
  | CBDF2 | CAB | CAM => [Anlevels; Ares0; Ares; Asolver0; Asolver; Aapply]
  end.
(** l.43, 162, 256, 409. *)
Definition mro (c : cls) : list cls :=
  match c with
  | CBase => [CBase]
  | CMultilevel => [CMultilevel; CBase]
  | c => [c; CMultilevel; CBase]
  end.
(** Attribute lookup, as in self.res at l.121-158. *)
Definition getattr (c : cls) (a : attr) : option cls :=
  find (fun d => existsb (attr_eqb a) (class_body d)) (mro c).

(** The residual that the expression self.res denotes for an object of class c
    (order: attribute of the Adams classes). *)
(** As used at l.121-158. *)
Definition self_res {I} (c : cls) (order : nat) (dt : R) (X : vec I) (x_in : list (vec I)) (x_out : vec I)
  : option (form I) :=
  match getattr c Ares with
  | Some CBase => Some (base_res dt X (newest x_in) x_out)
  | Some CBDF2 => Some (bdf2_res dt X (level x_in 0) (level x_in 1) x_out)
  | Some CAB => Some (ab_res dt X order x_in x_out)
  | Some CAM => Some (am_res dt X order x_in x_out)
  | _ => None
  end.
(** self.res0, as at l.121-158. *)
Definition self_res0 {I} (c : cls) (dt : R) (X : vec I) (x_in : list (vec I)) (x_out : vec I) : option (form I) :=
  match getattr c Ares0 with
  | Some CBDF2 => Some (bdf2_res0 dt X (level x_in 1) x_out)
  | Some CLeapfrog => Some (leapfrog_res0 dt X (level x_in 1) x_out)
  | Some CAB => Some (ab_res0 dt X x_in x_out)
  | Some CAM => Some (am_res0 dt X x_in x_out)
  | _ => None
  end.

(** nlevels: l.70-72, 168-170, 316-318, 473-475 *)
Definition nlevels (c : cls) (order : nat) : nat :=
  match c with CBDF2 | CLeapfrog => 2 | CAB | CAM => order | _ => 1 end.

(** apply: l.139-158, 233-253, 387-406, 552-571: one branch on initial_timesteps, then
    a solve of the chosen residual (a relation: any x_out at which it vanishes).  No
    limiter, no physics evaluation. *)
Definition ml_apply {I} (c : cls) (order : nat) (dt : R) (N : vec I -> vec I) (X : vec I)
  (initial_timesteps : nat) (x_in : list (vec I)) (x_out : vec I) (initial_timesteps' : nat) : Prop :=
  let start := (initial_timesteps <? nlevels c order - 1)%nat in
  initial_timesteps' = (if start then S initial_timesteps else initial_timesteps) /\
  exists f, (if start then self_res0 c dt X x_in x_out else self_res c order dt X x_in x_out) = Some f /\
            assemble N vzero f = vzero.

(** The time loop of Timestepper with a multi-level scheme, as an instance of
    Checkpoint.sim_step: x_in = the last nlevels previous levels
    (timestepping/timestepper.py l.378).  [start] and [formula] stand for the two
    solves, as functions (any deterministic solver). *)
Definition ml_scheme {V T} (k : nat) (start formula : list V -> V) : T -> nat -> list V -> nat -> V * nat :=
  fun _ _ x_in initial_timesteps =>
    if (initial_timesteps <? k - 1)%nat then (start x_in, S initial_timesteps)
    else (formula x_in, initial_timesteps).

(** Model of gusto/core/fields.py: time levels and the field registry. *)
From Verif Require Import Base.
Local Open Scope string_scope.

(** Auxiliary, nothing in the code by itself. *)
Fixpoint assoc {V} (k : string) (l : list (string * V)) : option V :=
  match l with
  | [] => None
  | (k', v) :: tl => if String.eqb k k' then Some v else assoc k tl
  end.

(* ------------------------------------------------------------------------ *)
(** * TimeLevelFields (fields.py l.253-310) *)

Section Levels.
  Variable V : Type.     (* the coefficient data of one field *)

  (** One time level: fields.py Fields (l.6-68), the named fields in order of
      insertion.  Simplification: a mixed field shares its data with its
      components (Firedrake subfunctions), so only the components are listed;
      assigning the mixed field first (l.307-308) and then each component has
      the same effect as assigning each component. *)
  Definition level := list (string * V).

  (** for field in xi: field.assign(xip1(field.name()))   (l.307-308, 309-310);
      [None] is the AttributeError raised by Fields.__call__ (l.64). *)
  Fixpoint assign_level (dst src : level) : option level :=
    match dst with
    | [] => Some []
    | (nm, _) :: tl =>
        match assoc nm src, assign_level tl src with
        | Some w, Some tl' => Some ((nm, w) :: tl')
        | _, _ => None
        end
    end.

  (** In-place write of entry i of a list. *)
  (** Auxiliary, nothing in the code by itself. *)
  Fixpoint set_nth {A} (i : nat) (a : A) (l : list A) : list A :=
    match l, i with
    | [], _ => []
    | _ :: tl, O => a :: tl
    | h :: tl, S j => h :: set_nth j a tl
    end.

  (** The object: [previous] = [nm(k-1), ..., nm1, n] (l.272-273) and np1. *)
  Record tlf := mk_tlf { previous : list level; np1 : level }.

  (** Body of the first loop of update() at index i (l.304-308). *)
  Definition shift_at (i : nat) (ps : list level) : option (list level) :=
    match nth_error ps i, nth_error ps (i + 1) with
    | Some xi, Some xip1 =>
        match assign_level xi xip1 with
        | Some xi' => Some (set_nth i xi' ps)
        | None => None
        end
    | _, _ => None
    end.

  (** update, l.302-308. *)
  Fixpoint shift_all (is : list nat) (ps : list level) : option (list level) :=
    match is with
    | [] => Some ps
    | i :: tl => match shift_at i ps with
                 | Some ps' => shift_all tl ps'
                 | None => None
                 end
    end.

  (** update() (l.302-310): shift the previous levels, then n <- np1 (n is the
      last entry of [previous]). *)
  Definition update (x : tlf) : option tlf :=
    match shift_all (seq 0 (length (previous x) - 1)) (previous x) with
    | Some ps =>
        match nth_error ps (length ps - 1) with
        | Some n => match assign_level n (np1 x) with
                    | Some n' => Some (mk_tlf (set_nth (length ps - 1) n' ps) (np1 x))
                    | None => None
                    end
        | None => None
        end
    | None => None
    end.

  (** A history of steps: before each step update() is called
      (timestepper.py l.244), then the scheme writes the new state into np1. *)
  Definition one_step (x : option tlf) (new : level) : option tlf :=
    match x with
    | Some x0 => match update x0 with
                 | Some x1 => Some (mk_tlf (previous x1) new)
                 | None => None
                 end
    | None => None
    end.

  (** update() after every step, timestepper.py l.244. *)
  Definition steps (x : tlf) (news : list level) : option tlf :=
    fold_left one_step news (Some x).
End Levels.
Arguments mk_tlf {V}.
Arguments previous {V}.
Arguments np1 {V}.
Arguments update {V}.
Arguments steps {V}.
Arguments one_step {V}.
Arguments assign_level {V}.
Arguments set_nth {A}.
Arguments shift_at {V}.
Arguments shift_all {V}.

(** Level names created by TimeLevelFields.__init__ (l.263-268):
    nm(nlevels-1), ..., nm1, n, np1. *)
Fixpoint nat_digits (fuel n : nat) (acc : string) : string :=
  match fuel with
  | O => acc
  | S f => let d := String (Ascii.ascii_of_nat (48 + n mod 10)) acc in
           if Nat.ltb n 10 then d else nat_digits f (n / 10) d
  end.
(** Auxiliary, nothing in the code by itself. *)
Definition str_of_nat (n : nat) : string := nat_digits (S n) n "".

(** l.264-268. *)
Definition previous_names (nlevels : nat) : list string :=
  if Nat.leb nlevels 1 then []
  else map (fun k => "nm" ++ str_of_nat k)%string (rev (seq 1 (nlevels - 1))).
(** l.263-269. *)
Definition level_names (nlevels : nat) : list string :=
  (previous_names nlevels ++ ["n"; "np1"])%list.

(** Names under which the previous levels of a prognostic field are registered
    in the state for checkpointing (l.146-154): [(state name suffix, level)]. *)
Definition pickup_levels (nlevels : nat) : list (string * string) :=
  let n := length (level_names nlevels) in
  if Nat.ltb 2 n then
    map (fun l => ("nm" ++ str_of_nat (l + 1),
                   if Nat.eqb l 0 then "n" else "nm" ++ str_of_nat l)%string)
        (seq 0 (n - 2))
  else [].

(* ------------------------------------------------------------------------ *)
(** * StateFields (fields.py l.106-250) *)

(** Field types (l.228-229). *)
Inductive ftype := Prognostic | Prescribed | Diagnostic | Derived | Reference | Unpermitted (s : string).

(** l.226-229. *)
Definition permitted (f : ftype) : bool :=
  match f with Unpermitted _ => false | _ => true end.

(** Kinds of "space" argument: a scalar/vector space (one component) or a mixed
    space (several components, l.41). *)
Inductive space_kind := SingleSpace | MixedSpace.

(** Attribute values of the registry object: a field (identified by a unique
    number) or one of the object's own attributes/methods. *)
(** l.122-141, 204-211. *)
Inductive attr := AField (id : nat) | AOwn.

(** StateFields, l.117-160. *)
Record registry := mk_reg {
  r_attrs : list (string * attr);      (* attributes set by setattr *)
  r_fields : list nat;                 (* self.fields *)
  r_to_dump : list string;
  r_to_pick_up : list string;
  r_types : list ftype;                (* self._field_types *)
  r_names : list string;               (* self._field_names *)
  r_next : nat                         (* supply of fresh Function identities *)
}.

(** Attributes every StateFields object has besides its fields: instance
    attributes of __init__ (l.125-131) and methods (l.18, 162, 237). *)
Definition own_attrs : list string :=
  ["fields"; "to_dump"; "to_pick_up"; "_field_types"; "_field_names"; "X";
   "add_field"; "field_type"].

(** StateFields.__init__, l.117-131. *)
Definition reg_init (fields_to_dump : list string) : registry :=
  mk_reg (map (fun a => (a, AOwn)) own_attrs) [] fields_to_dump [] [] [] 0.

(** The arguments of StateFields.__call__, l.162-163. *)
Record request := mk_req {
  q_name : string;
  q_field : option nat;                 (* field= : an existing Function *)
  q_space : option space_kind;          (* space= *)
  q_dump : bool;
  q_pick_up : bool;
  q_type : option ftype
}.

(** Auxiliary, nothing in the code by itself. *)
Definition has_attr (s : registry) (n : string) : bool :=
  match assoc n (r_attrs s) with Some _ => true | None => false end.

(** Default field type (l.219-226). *)
Definition default_type (q : request) : ftype :=
  if q_pick_up q then Prescribed else if q_dump q then Diagnostic else Derived.

(** The tail of __call__ once the field is attached (l.213-235). *)
Definition finish (s : registry) (q : request) (id : nat) : registry * res attr :=
  let s1 := mk_reg (r_attrs s) (r_fields s)
      (if q_dump q then r_to_dump s ++ [q_name q] else r_to_dump s)%list
      (if q_pick_up q then r_to_pick_up s ++ [q_name q] else r_to_pick_up s)%list
      (r_types s) (r_names s) (r_next s) in
  let ty := match q_type q with None => default_type q | Some ty => ty end in
  if permitted ty then
    (mk_reg (r_attrs s1) (r_fields s1) (r_to_dump s1) (r_to_pick_up s1)
            (r_types s1 ++ [ty])%list (r_names s1 ++ [q_name q])%list (r_next s1),
     Ok (AField id))
  else (s1, Err AssertionError).

(** setattr and append, l.200-205; add_field, l.18-54. *)
Definition attach (s : registry) (n : string) (id : nat) : registry :=
  mk_reg ((r_attrs s) ++ [(n, AField id)])%list (r_fields s ++ [id])%list
         (r_to_dump s) (r_to_pick_up s) (r_types s) (r_names s) (r_next s).

(** StateFields.__call__ (l.162-235); add_field inlined (l.31-54: for a mixed
    space the attribute is set before len(None) raises TypeError). *)
Definition call (s : registry) (q : request) : registry * res attr :=
  match assoc (q_name q) (r_attrs s) with
  | Some a => (s, Ok a)
  | None =>
      match q_field q, q_space q with
      | None, None => (s, Err ValueError)
      | Some _, Some _ => (s, Err ValueError)
      | Some f, None => finish (attach s (q_name q) f) q f
      | None, Some sp =>
          let id := r_next s in
          let s0 := mk_reg (r_attrs s) (r_fields s) (r_to_dump s) (r_to_pick_up s)
                           (r_types s) (r_names s) (S id) in
          match sp with
          | MixedSpace => (attach s0 (q_name q) id, Err TypeError)
          | SingleSpace => finish (attach s0 (q_name q) id) q id
          end
      end
  end.

(** Auxiliary, nothing in the code by itself. *)
Definition call_state (s : registry) (q : request) : registry := fst (call s q).

(** StateFields.field_type (l.237-250): assertion, then list.index. *)
Fixpoint index_of (n : string) (l : list string) : option nat :=
  match l with
  | [] => None
  | h :: tl => if String.eqb n h then Some 0 else option_map S (index_of n tl)
  end.
(** field_type, l.237-250. *)
Definition field_type (s : registry) (n : string) : res ftype :=
  if has_attr s n then
    match index_of n (r_names s) with
    | Some i => match nth_error (r_types s) i with
                | Some ty => Ok ty | None => Err IndexError end
    | None => Err ValueError
    end
  else Err AssertionError.

(* ------------------------------------------------------------------------ *)
(** * set_reference_profiles (timestepper.py l.280-292) *)

(** [x in self.fields]: StateFields defines no __contains__, so Python iterates
    over the Functions in self.fields (l.66-68) comparing each with the string x;
    a UFL Coefficient compares unequal to every string. *)
Definition str_in_fields (s : registry) (x : string) : bool :=
  existsb (fun _ : nat => false) (r_fields s).

(** set_reference_profiles, timestepper.py l.281-292. *)
Inductive profile := PFunction (sp : space_kind) | PExpression.

(** One entry of the loop up to the ref.interpolate (l.281-292). *)
Definition set_reference_profile (s : registry) (n : string) (p : profile) : registry * res attr :=
  let bar := (n ++ "_bar")%string in
  if str_in_fields s bar then call s (mk_req bar None None true false None)
  else match p with
       | PFunction sp => call s (mk_req bar None (Some sp) false true (Some Reference))
       | PExpression => (s, Err ValueError)
       end.

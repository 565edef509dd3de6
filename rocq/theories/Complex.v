(** Model of the complex-proxy spaces (gusto/complex_proxy/common.py, mixed_impl.py): elements,
    splitting, real and imaginary parts, complex multiples of real forms. *)
From Verif Require Import Base Vec.
Open Scope R_scope.

(** ** Complex numbers (a Python complex, or the pair of Constants of a ComplexConstant) *)
(** Auxiliary, nothing in the code by itself. *)
Definition C := (R * R)%type.
(** Auxiliary, nothing in the code by itself. *)
Definition cadd (a b : C) : C := (fst a + fst b, snd a + snd b).
(** Auxiliary, nothing in the code by itself. *)
Definition copp (a : C) : C := (- fst a, - snd a).
(** Auxiliary, nothing in the code by itself. *)
Definition cmul (a b : C) : C := (fst a * fst b - snd a * snd b, fst a * snd b + snd a * fst b).
(** Auxiliary, nothing in the code by itself. *)
Definition cconj (a : C) : C := (fst a, - snd a).
(** Auxiliary, nothing in the code by itself. *)
Definition cscal (r : R) (a : C) : C := (r * fst a, r * snd a).
(** Auxiliary, nothing in the code by itself. *)
Definition c0 : C := (0, 0).
(** Auxiliary, nothing in the code by itself. *)
Definition ci : C := (0, 1).

(** ** Elements (mixed_impl.py l.11-27): a tree of mixed elements over leaves; _flatten_tree
    (common.py l.34-48) lists the leaves in order; every leaf is doubled *)
Inductive element (E : Type) := Leaf (e : E) | Mixed (subs : list (element E)).
Arguments Leaf {E} e. Arguments Mixed {E} subs.
(** _flatten_elements, mixed_impl.py l.11-27. *)
Fixpoint flatten {E} (t : element E) : list E :=
  match t with Leaf e => [e] | Mixed subs => flat_map flatten subs end.
(** [e for ee in zip(flat_elems, flat_elems) for e in ee] *)
(** FiniteElement, mixed_impl.py l.11-27. *)
Definition complex_element {E} (t : element E) : list E := flat_map (fun ee : E * E => [fst ee; snd ee]) (combine (flatten t) (flatten t)).

(** ** us[i::2] (l.75-85); Part.Real = 0, Part.Imag = 1 *)
Inductive part := Re | Im.
(** Auxiliary, nothing in the code by itself. *)
Definition part_index (p : part) : nat := match p with Re => 0 | Im => 1 end.
(** Auxiliary, nothing in the code by itself. *)
Fixpoint every_second {A} (l : list A) : list A :=
  match l with [] => [] | [x] => [x] | x :: _ :: r => x :: every_second r end.
(** _component_elements, mixed_impl.py l.75-85. *)
Definition component_elements {A} (us : list A) (p : part) : list A := every_second (skipn (part_index p) us).
(** A complex Function is the list of the data of its components. _get_part (l.112-126): for csub,
    rsub in zip(usub, vsub): rsub.assign(csub); components of vout beyond the shorter list are kept *)
Fixpoint zip_assign {A} (dst src : list A) : list A :=
  match dst, src with d :: ds, s :: ss => s :: zip_assign ds ss | ds, [] => ds | [], _ => [] end.
(** _get_part, mixed_impl.py l.112-126. *)
Definition get_part {A} (u vout : list A) (p : part) : list A := zip_assign vout (component_elements u p).
(** _set_part (l.129-141): the assignments go to the components of u of that part *)
Fixpoint set_part {A} (u vnew : list A) (p : part) : list A :=
  match p, u, vnew with
  | Re, r :: i :: us, v :: vs => v :: i :: set_part us vs Re
  | Im, r :: i :: us, v :: vs => r :: v :: set_part us vs Im
  | Re, [r], v :: vs => [v]
  | _, _, _ => u
  end.
(** DirichletBC (l.55-72): the components off, off+1 with off = 2*index, or 0 for a space that is
    not mixed *)
Definition bc_components (index : option nat) : list nat :=
  let off := match index with Some k => (2 * k)%nat | None => 0%nat end in map (fun i => (off + i)%nat) [0; 1]%nat.

(** ** Forms: a bilinear form takes the tuples of trial and test components *)
Section Forms.
Context {D : Type}.
Definition twoform (z : C) (A : list D -> list D -> R) (u v : list D) : R :=   (* common.py _build_twoform, l.75-114 *)
  let ur := component_elements u Re in let ui := component_elements u Im in
  let vr := component_elements v Re in let vi := component_elements v Im in
  let zr := fst z in let zi := snd z in
  let A11 := zr * A ur vr in let A12 := - zi * A ui vr in let A21 := zi * A ur vi in let A22 := zr * A ui vi in
  A11 + A12 + A21 + A22.
Definition oneform (z : C) (f : list D -> R) (v : list D) : R :=               (* _build_oneform, l.117-143 *)
  let vr := component_elements v Re in let vi := component_elements v Im in
  let fr := fst z * f vr in let fi := snd z * f vi in fr + fi.
End Forms.

(** ** The vector implementation (vector_impl.py).  A real element is scalar, a vector or tensor of n
    scalars, or mixed.  elem.num_sub_elements is a property or a method, depending on the UFL version:
    FiniteElement (l.30-33) uses it as a property, subfunctions (l.119-122) as a method. *)
Inductive relem := RScalar | RVector (n : nat) | RTensor (n : nat) | RMixed (subs : list relem).
(** Auxiliary, nothing in the code by itself. *)
Inductive celem := CVector2 | CTensor2 (n : nat) | CMixed (subs : list celem).
(** Auxiliary, nothing in the code by itself. *)
Inductive vres (A : Type) := VOk (a : A) | VTypeError.
Arguments VOk {A} a. Arguments VTypeError {A}.
(** Auxiliary, nothing in the code by itself. *)
Definition vbind {A B} (x : vres A) (f : A -> vres B) : vres B := match x with VOk a => f a | VTypeError => VTypeError end.
(** Auxiliary, nothing in the code by itself. *)
Definition vmap {A B} (f : A -> vres B) : list A -> vres (list B) :=
  fix go l := match l with [] => VOk [] | x :: r => vbind (f x) (fun y => vbind (go r) (fun ys => VOk (y :: ys))) end.
Fixpoint v_element (property : bool) (e : relem) : vres celem :=      (* FiniteElement, l.12-39 *)
  match e with
  | RTensor n => VOk (CTensor2 n)                                      (* shape = (2,) + elem._shape *)
  | RVector n => if property then VOk (CTensor2 n) else VTypeError     (* shape = (2, elem.num_sub_elements) *)
  | RMixed subs => vbind (vmap (v_element property) subs) (fun l => VOk (CMixed l))
  | RScalar => VOk CVector2
  end.
(** the data of a complex function: u.sub(0), u.sub(1) of a 2-vector; the 2n scalars of a tensor *)
(** Auxiliary, nothing in the code by itself. *)
Inductive cdata := DVec2 (re im : R) | DTensor (xs : list R) | DMixed (subs : list cdata).
Fixpoint v_subfunctions (property : bool) (u : cdata) (p : part) : vres (list R) :=    (* l.108-131 *)
  match u with
  | DTensor xs => if property then VTypeError                          (* elem.num_sub_elements() *)
                  else let n := (length xs / 2)%nat in VOk (firstn n (skipn (part_index p * n) xs))
  | DVec2 r i => VOk [match p with Re => r | Im => i end]
  | DMixed subs => vbind (vmap (fun v => v_subfunctions property v p) subs) (fun ls => VOk (concat ls))
  end.
(** csub.assign(rsub) for each pair of the zip (_set_part, l.150-163), on functions with 2-vector
    components; the rest of the values is handed on *)
Fixpoint v_set_part (u : cdata) (vs : list R) (p : part) : cdata * list R :=
  match u with
  | DVec2 r i => match vs with [] => (u, []) | v :: vs' => (match p with Re => DVec2 v i | Im => DVec2 r v end, vs') end
  | DTensor _ => (u, vs)
  | DMixed subs =>
      let '(subs', rest) := (fix go (l : list cdata) (vs : list R) : list cdata * list R :=
        match l with [] => ([], vs) | x :: r => let '(x', vs1) := v_set_part x vs p in let '(r', vs2) := go r vs1 in (x' :: r', vs2) end) subs vs in
      (DMixed subs', rest)
  end.

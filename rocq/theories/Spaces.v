(** Model of the degree arguments of Domain (gusto/core/domain.py), and of the space container and the
    de Rham complexes (gusto/core/function_spaces.py). *)
From Verif Require Import Base.
From Coq Require Import String DecimalString.
Open Scope string_scope.
Open Scope nat_scope.

(** ** check_degree_args (function_spaces.py l.519-546): None = no error *)
Inductive degree_error := NeitherDegreeNorHorizontal | NeitherDegreeNorVertical | BothDegreeAndHorizontal | BothDegreeAndVertical | VerticalNotExtruded.
(** Auxiliary, nothing in the code by itself. *)
Definition is_none {A} (x : option A) : bool := match x with None => true | _ => false end.
(** function_spaces.py l.519-545. *)
Definition check_degree_args (extruded : bool) (degree hori vert : option nat) : option degree_error :=
  if (is_none degree && is_none hori)%bool then Some NeitherDegreeNorHorizontal
  else if (extruded && is_none degree && is_none vert)%bool then Some NeitherDegreeNorVertical
  else if (negb (is_none degree) && negb (is_none hori))%bool then Some BothDegreeAndHorizontal
  else if (extruded && negb (is_none degree) && negb (is_none vert))%bool then Some BothDegreeAndVertical
  else if (negb extruded && negb (is_none vert))%bool then Some VerticalNotExtruded
  else None.
(** Domain.__init__ l.78-95: the degrees, and the maximal quadrature degree.  max of an int and None
    raises a TypeError. *)
Inductive domain_degrees := DegreeError (e : degree_error) | MaxTypeError | Degrees (hori vert : option nat) (max_quad : nat).
(** domain.py l.29-110. *)
Definition domain_degree_args (extruded : bool) (degree hori vert max_quad : option nat) : domain_degrees :=
  match check_degree_args extruded degree hori vert with
  | Some e => DegreeError e
  | None =>
      let h := if is_none hori then degree else hori in
      let v := if is_none vert then degree else vert in
      match max_quad with
      | Some q => Degrees h v q
      | None => match h, v with Some a, Some b => Degrees h v (2 * Nat.max a b + 3) | _, _ => MaxTypeError end
      end
  end.

(** ** The space container.  Attributes: name -> space; the spaces are opaque. *)
Section Container.
Variable space : Type.
(** DeRhamComplex, function_spaces.py l.242-400. *)
Record complex := { x_h1 : space; x_hcurl : space; x_hdiv : space; x_l2 : space; x_theta : option space;
                    x_cont : string -> option (bool * bool) (* its continuity dictionary: horizontal, vertical *) }.
(** function_spaces.py l.160-214. *)
Definition degree_key := (nat * option nat)%type.
(** Spaces, function_spaces.py l.64-133. *)
Record container := { c_attr : string -> option space; c_complexes : list degree_key; c_cont : string -> option (bool * bool) }.
(** Auxiliary, nothing in the code by itself. *)
Definition empty_container : container := {| c_attr := fun _ => None; c_complexes := []; c_cont := fun _ => None |}.
(** Auxiliary, nothing in the code by itself. *)
Definition put_attr (f : string -> option space) (n : string) (s : space) : string -> option space := fun m => if String.eqb m n then Some s else f m.
(** add_space l.97-135; is_cg of the space is passed as the default *)
Definition add_space (c : container) (name : string) (s : space) (overwrite : bool) (continuity : option (bool * bool)) (is_cg : bool) : res container :=
  match c_attr c name, overwrite with
  | Some _, false => Err RuntimeError
  | _, _ => Ok {| c_attr := put_attr (c_attr c) name s; c_complexes := c_complexes c;
                    c_cont := fun m => if String.eqb m name then Some (match continuity with Some k => k | None => (is_cg, is_cg) end) else c_cont c m |}
  end.
(** build_compatible_spaces l.160-214 *)
Definition decimal (n : nat) : string := NilEmpty.string_of_uint (Nat.to_uint n).
(** Auxiliary, nothing in the code by itself. *)
Definition key_eqb (a b : degree_key) : bool :=
  Nat.eqb (fst a) (fst b) && match snd a, snd b with Some x, Some y => Nat.eqb x y | None, None => true | _, _ => false end.
(** function_spaces.py l.180-214. *)
Definition suffix (c : container) (h : nat) (v : option nat) (complex_name : option string) : string :=
  match complex_name with
  | Some n => n
  | None => match c_complexes c with
            | [] => ""
            | _ => match v with
                   | Some v => if Nat.eqb h v then decimal h else decimal h ++ "_" ++ decimal v
                   | None => decimal h
                   end
            end
  end.
(** what the loop of l.211-214 sees: the complex has attributes H1, HCurl, HDiv, L2 and (extruded)
    theta; "H1, HCurl" and "DG" are none of these *)
Definition complex_attr (x : complex) (n : string) : bool :=
  String.eqb n "H1" || String.eqb n "HCurl" || String.eqb n "HDiv" || String.eqb n "L2" || (String.eqb n "theta" && negb (is_none (x_theta x)))%bool.
(** function_spaces.py l.160-214. *)
Definition build_compatible_spaces (c : container) (h : nat) (v : option nat) (complex_name : option string) (x : complex) : res container :=
  let n := suffix c h v complex_name in
  if existsb (key_eqb (h, v)) (c_complexes c) then Err RuntimeError
  else
    let attr := put_attr (put_attr (put_attr (put_attr (put_attr (c_attr c) ("H1" ++ n) (x_h1 x)) ("HCurl" ++ n) (x_hcurl x)) ("HDiv" ++ n) (x_hdiv x))
                  ("L2" ++ n) (x_l2 x)) ("DG" ++ n) (x_l2 x) in
    let attr := match x_theta x with Some t => put_attr attr ("theta" ++ n) t | None => attr end in
    let cont := fold_left (fun f t => if complex_attr x t then (fun m => if String.eqb m (t ++ n) then x_cont x t else f m) else f)
                  ["H1, HCurl"; "HDiv"; "L2"; "DG"; "theta"] (c_cont c) in
    Ok {| c_attr := attr; c_complexes := c_complexes c ++ [(h, v)]; c_cont := cont |}.
End Container.
Arguments add_space {space} c name s overwrite continuity is_cg.
Arguments build_compatible_spaces {space} c h v complex_name x.
Arguments c_attr {space} c n. Arguments c_cont {space} c n. Arguments c_complexes {space} c.
Arguments empty_container {space}. Arguments put_attr {space} f n s m.
Arguments suffix {space} c h v complex_name.
Arguments x_h1 {space} c. Arguments x_hcurl {space} c. Arguments x_hdiv {space} c. Arguments x_l2 {space} c. Arguments x_theta {space} c. Arguments x_cont {space} c n.
Arguments complex_attr {space} x n.

(** ** The elements of a de Rham complex (l.13-61, 272-310, 401-516).
    A family is on triangles, quadrilaterals or intervals; its elements are described by family and
    degree. *)
Inductive family := CG | RT | RTE | RTF | RTCE | RTCF | BDM | BDME | BDMF | BDMCE | BDMCF | BDFM | DG.
(** The base cells of function_spaces.py l.272-311. *)
Inductive cell := Interval | Triangle | Quadrilateral.
Definition hdiv_hcurl (f : family) : option (option family) :=          (* l.13-24; outer None = KeyError *)
  match f with RT | RTE | RTF => Some (Some RTE) | BDM | BDME | BDMF => Some (Some BDME) | RTCF | RTCE => Some (Some RTCE)
  | CG => Some (Some DG) | BDFM => Some None | BDMCF | BDMCE => Some (Some BDMCE) | DG => None end.
Definition hcurl_hdiv (f : family) : option family :=                   (* l.28-39 *)
  match f with RT | RTE | RTF => Some RTF | BDM | BDME | BDMF => Some BDMF | RTCE | RTCF => Some RTCF | CG => Some CG | BDFM => Some BDFM
  | BDMCF | BDMCE => Some BDMCF | DG => None end.
Definition h1_degree (f : family) (k : nat) : option nat :=             (* l.43-61 *)
  match f with CG | RT | RTE | RTF | RTCE | RTCF => Some (k + 1) | BDM | BDME | BDMF | BDMCE | BDMCF => Some (k + 2) | BDFM => Some (k + 1) | DG => None end.
(** an element: a family and a degree, or the two special cases of the H1 space *)
(** function_spaces.py l.272-311. *)
Inductive elt := El (f : family) (d : nat) | Serendipity (d : nat) | CGBubble (d b : nat).
(** function_spaces.py l.272-311. *)
Record base_elements := { b_hdiv : elt; b_hcurl : option elt; b_dg : elt; b_cg : elt }.
Definition base_horizontal (f : family) (k : nat) : option base_elements :=   (* build_base_spaces l.290-310 *)
  match hcurl_hdiv f, hdiv_hcurl f, h1_degree f k with
  | Some hd, Some hc, Some d =>
      Some {| b_hdiv := El hd (k + 1); b_hcurl := match hc with Some e => Some (El e (k + 1)) | None => None end; b_dg := El DG k;
              b_cg := match hd with BDMCF => Serendipity d | BDFM => CGBubble d (k + 2) | _ => El CG d end |}
  | _, _, _ => None
  end.
(** Local dimensions on a cell, from the element library (trusted, not gusto code): all the families on
    a triangle / quadrilateral / interval with Firedrake's degree convention.  "DG" on quadrilaterals
    is the tensor-product space Q_d. *)
(** Auxiliary, nothing in the code by itself. *)
Definition tri (n : nat) : nat := n * (n + 1) / 2.                       (* dim P_{n-1} on a triangle *)
(** Used through function_spaces.py l.401-516. *)
Definition dim (c : cell) (e : elt) : nat :=
  match c, e with
  | Interval, El CG d | Interval, El DG d => d + 1
  | Triangle, El CG d | Triangle, El DG d => tri (d + 1)
  | Quadrilateral, El CG d | Quadrilateral, El DG d => (d + 1) * (d + 1)
  | Triangle, El (RT | RTE | RTF) d => d * (d + 2)                       (* RT_d, d >= 1 *)
  | Triangle, El (BDM | BDME | BDMF) d => (d + 1) * (d + 2)              (* (P_d)^2 *)
  | Triangle, El BDFM d => (d + 1) * (d + 2) - 3                          (* (P_d)^2 with normal components of degree d-1 *)
  | Triangle, CGBubble d b => tri (d + 1) + (tri (b - 2) - tri (d - 2))   (* P_d plus the bubbles of P_b not in P_d *)
  | Quadrilateral, El (RTCE | RTCF) d => 2 * (d * (d + 1))
  | Quadrilateral, El (BDMCE | BDMCF) d => (d + 1) * (d + 2) + 2
  | Quadrilateral, Serendipity d => tri (d + 1) + 2                      (* d >= 2 *)
  | _, _ => 0
  end.
(** function_spaces.py l.14-40. *)
Definition family_cell (f : family) : option cell :=
  match f with CG => Some Interval | RT | RTE | RTF | BDM | BDME | BDMF | BDFM => Some Triangle | RTCE | RTCF | BDMCE | BDMCF => Some Quadrilateral | DG => None end.
(** the dimensions per cell of the extruded spaces (build_*_space l.401-516): a tensor product of
    elements has the product of the dimensions, a sum of HDiv or HCurl elements the sum *)
Record ext_dims := { d_h1 : nat; d_hcurl : option nat; d_hdiv : nat; d_l2 : nat; d_theta : nat }.
(** function_spaces.py l.401-516. *)
Definition extruded_dims (c : cell) (b : base_elements) (v : nat) : ext_dims :=
  let cgv := dim Interval (El CG (v + 1)) in let dgv := dim Interval (El DG v) in
  {| d_h1 := dim c (b_cg b) * cgv;
     d_hcurl := match b_hcurl b with Some e => Some (dim c e * cgv + dim c (b_cg b) * dgv) | None => None end;
     d_hdiv := dim c (b_hdiv b) * dgv + dim c (b_dg b) * cgv;
     d_l2 := dim c (b_dg b) * dgv;
     d_theta := dim c (b_dg b) * cgv |}.

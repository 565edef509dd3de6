(** Model of RIDC (gusto/time_discretisation/deferred_correction.py l.543-911) and of
    Parallel_RIDC (parallel_dc.py l.24-225).

    V is the type of coefficient vectors, C that of matrix entries; the vector operation
    and the solvers are arbitrary functions, so that equalities between the serial and the
    parallel scheme are equalities of the floating-point results.  Simplifications: the
    base scheme, the source evaluation, the limiter and the node solver are functions of
    the values the code hands to them (no hidden solver state); the arrays Unodes,
    Unodes1, fUnodes and source_* are modelled within one call of apply, because every
    entry read is written before in the same call, except source_Ukp1[0], which is never
    written and stays zero, and, in the parallel scheme, source_in, which is kept.
    Problems without source terms are the case src = fun _ => zero. *)
From Verif Require Import Base Mpi.

Section Ridc.
  Context {V C : Type}.
  Variable zero : V.
  (** quad += c*f *)
  Variable axpy : V -> C -> V -> V.
  (** [Qm l] is the (l+1) x (l+1) node-to-node matrix for l subintervals, rescaled,
      deferred_correction.py l.583-603 *)
  Variable Qm : nat -> nat -> nat -> C.
  Variables base src limit : V -> V.
  (** solver_rhs as a function of Uin and source_in, l.700-714 *)
  Variable fval : V -> V -> V.
  (** solver as a function of U_start, Ukp1_m, Uk_mp1, Uk_m, source_Ukp1_m, source_Uk_m,
      Q_ and the initial guess, l.716-803 *)
  Variable solve : V -> V -> V -> V -> V -> V -> V -> V -> V.
  Variables M K : nat.

  (** compute_quad, l.675-683, for m < M1 and compute_quad_final, l.685-698, for m >= M1:
      (row, column, node) triples in summation order; [l] is M1. *)
  Definition stencil (l m : nat) : list (nat * nat * nat) :=
    if Nat.ltb m l then map (fun j => (S m, j, j)) (seq 0 (S l))
    else map (fun j => (l, j, S m - l + j)) (seq 0 (S l)).
  (** l.680-703. *)
  Definition quad (l : nat) (f : nat -> V) (m : nat) : V :=
    fold_left (fun q e => let '(r, j, n) := e in axpy q (Qm l r j) (f n)) (stencil l m) zero.

  (** the body of both loops over m, l.846-874 and 877-904: new Unodes1[m+1] and
      source_Ukp1[m+1] (the source is evaluated before the limiter) *)
  Definition node (l : nat) (U f sU : nat -> V) (m : nat) (u1 s1 : V) : V * V :=
    let y := solve u1 u1 (U (S m)) (U m) s1 (sU m) (quad l f m) (U (S m)) in (limit y, src y).
  (** l.828-874. *)
  Fixpoint nodes (l : nat) (U f sU : nat -> V) (u0 : V) (m : nat) : V * V :=
    match m with
    | O => (u0, zero)
    | S p => node l U f sU p (fst (nodes l U f sU u0 p)) (snd (nodes l U f sU u0 p))
    end.
  (** the node indices of Unodes, Unodes1 and fUnodes one sweep touches, l.844-904 *)
  Definition touched (l : nat) : list nat :=
    flat_map (fun m => m :: S m :: map (fun e => snd e) (stencil l m)) (seq 0 l ++ seq l (M - l)).

  (** one correction sweep, l.828-909 *)
  Definition sweep (l : nat) (A : nat -> V * V) : nat -> V * V :=
    let U := fun m => fst (A m) in
    let sU := fun m => if Nat.eqb m 0 then src (U 0) else snd (A m) in
    nodes l U (fun m => fval (U m) (src (U m))) sU (U 0).
  (** RIDC.apply, l.805-911; [k]: the number of the next sweep *)
  Fixpoint sweeps (reduced : bool) (k n : nat) (A : nat -> V * V) : nat -> V * V :=
    match n with
    | O => A
    | S p => sweeps reduced (S k) p (sweep (if reduced then k else K) A)
    end.
  (** l.814-828. *)
  Definition predictor (y : V) (m : nat) : V * V := (niter m base y, src (niter m base y)).
  (** l.814-911. *)
  Definition ridc_apply (reduced : bool) (y : V) : V := fst (sweeps reduced 1 K (predictor y) M).

  (** ** Parallel_RIDC.apply on rank r, parallel_dc.py l.112-225 *)
  Variables J flush_freq : nat.
  (** tags, l.58-62 *)
  Definition TF (step : nat) := 11 + step.
  (** parallel_dc.py l.58-62. *)
  Definition TS (step : nat) := 11 + J + step.
  (** parallel_dc.py l.58-62. *)
  Definition TP (step : nat) := 11 + J + J + step.
  (** l.213 *)
  Definition flushes (step : nat) : bool :=
    (Nat.ltb 0 flush_freq && Nat.eqb (step mod flush_freq) 0) || Nat.eqb step J.

  (** Auxiliary, nothing in the code by itself. *)
  Record arrays := { aU : nat -> V; aU1 : nat -> V; af : nat -> V; asU : nat -> V; asK : nat -> V; asin : V }.
  (** Auxiliary, nothing in the code by itself. *)
  Definition upd (a : nat -> V) (i : nat) (v : V) : nat -> V := fun j => if Nat.eqb j i then v else a j.
  Section Prog.
    Context {X : Type}.
    Notation P := (proc V X).
    Variables r step : nat.

    (** l.126-137, rank 0 *)
    Fixpoint predict (c m : nat) (U : nat -> V) (k : (nat -> V) -> P) : P :=
      match c with
      | O => k U
      | S c' =>
          let u := base (U m) in
          Send (S r) (TF step) u (Send (S r) (TS step) (src u) (predict c' (S m) (upd U (S m) u) k))
      end.
    (** receive node m and evaluate its right-hand side, l.139-147 and 181-189 *)
    Definition receive (m : nat) (a : arrays) (k : arrays -> P) : P :=
      Recv (r - 1) (TF step) (fun u => Recv (r - 1) (TS step) (fun s =>
        k {| aU := upd (aU a) m u; aU1 := aU1 a; af := upd (af a) m (fval u (src u));
             asU := upd (asU a) m s; asK := asK a; asin := src u |})).
    (** l.139 *)
    Fixpoint receive_stencil (c m : nat) (a : arrays) (k : arrays -> P) : P :=
      match c with
      | O => k a
      | S c' => receive m a (fun a' => receive_stencil c' (S m) a' k)
      end.
    (** solve at node m and send the result on, l.149-178 and 191-208 *)
    Definition correct (m : nat) (a : arrays) (k : arrays -> P) : P :=
      let n := node r (aU a) (af a) (asU a) m (aU1 a m) (asK a m) in
      let a' := {| aU := aU a; aU1 := upd (aU1 a) (S m) (fst n); af := af a; asU := asU a;
                   asK := upd (asK a) (S m) (snd n); asin := asin a |} in
      if Nat.ltb r K then Send (S r) (TF step) (fst n) (Send (S r) (TS step) (snd n) (k a')) else k a'.
    (** l.148 *)
    Fixpoint correct_stencil (c m : nat) (a : arrays) (k : arrays -> P) : P :=
      match c with
      | O => k a
      | S c' => correct m a (fun a' => correct_stencil c' (S m) a' k)
      end.
    (** l.180-208 *)
    Fixpoint pipeline (c m : nat) (a : arrays) (k : arrays -> P) : P :=
      match c with
      | O => k a
      | S c' => receive (S m) a (fun a' => correct m a' (fun a'' => pipeline c' (S m) a'' k))
      end.
    (** l.217-218 *)
    Fixpoint send_all (c i : nat) (x : V) (k : P) : P :=
      match c with O => k | S c' => Send i (TP step) x (send_all c' (S i) x k) end.
    (** l.213-223 *)
    Definition flush (x : V) (k : V -> P) : P :=
      if flushes step then
        if Nat.eqb r K then send_all K 0 x (k x) else Recv K (TP step) k
      else k x.
    (** one call of apply: x_in, source_in -> x_out, source_in *)
    (** parallel_dc.py l.101-225. *)
    Definition apply_rank (x sin : V) (k : V -> V -> P) : P :=
      if Nat.eqb r 0 then predict M 0 (fun _ => x) (fun U => flush (U M) (fun x' => k x' sin))
      else
        let a0 := {| aU := fun _ => x; aU1 := fun _ => x; af := fun _ => fval x sin;
                     asU := fun _ => src x; asK := fun _ => zero; asin := sin |} in
        receive_stencil r 1 a0 (fun a1 =>
        correct_stencil r 0 a1 (fun a2 =>
        pipeline (M - r) r a2 (fun a3 =>
        flush (aU1 a3 M) (fun x' => k x' (asin a3))))).
  End Prog.
  (** N time steps on rank r; the result lists the outputs of the steps *)
  (** parallel_dc.py l.101-225, called by timestepper.py l.384-394. *)
  Fixpoint run_rank (r N step : nat) (x sin : V) (out : list V) : proc V (list V) :=
    match N with
    | O => Ret out
    | S n => apply_rank r step x sin (fun x' sin' => run_rank r n (S step) x' sin' (out ++ [x']))
    end.

  (** constructor checks, l.79-84 *)
  Definition parallel_accepts (ranks : nat) : bool := Nat.eqb ranks (K + 1) && Nat.leb (K * (K + 1) / 2) M.

  (** N steps of the serial scheme, with all outputs *)
  (** l.814-911, called by timestepper.py l.384-394. *)
  Fixpoint serial_run (N : nat) (x : V) (out : list V) : list V :=
    match N with O => out | S n => serial_run n (ridc_apply true x) (out ++ [ridc_apply true x]) end.

  (** ** What the parallel scheme computes, for every flush frequency: level r at the
      nodes of one step, from the states [X] and the [SIN] of the ranks *)
  (** parallel_dc.py l.101-225. *)
  Fixpoint level (X SIN : nat -> V) (r : nat) : nat -> V * V :=
    match r with
    | O => predictor (X 0)
    | S q =>
        let A := level X SIN q in
        let U := fun m => if Nat.eqb m 0 then X (S q) else fst (A m) in
        let sU := fun m => if Nat.eqb m 0 then src (X (S q)) else snd (A m) in
        nodes (S q) U (fun m => if Nat.eqb m 0 then fval (X (S q)) (SIN (S q)) else fval (U m) (src (U m))) sU (X (S q))
    end.
  (** parallel_dc.py l.210-225. *)
  Definition next_x (step : nat) (X SIN : nat -> V) (r : nat) : V :=
    if flushes step then fst (level X SIN K M) else fst (level X SIN r M).
  (** parallel_dc.py l.210-225. *)
  Definition next_sin (X SIN : nat -> V) (r : nat) : V :=
    match r with O => SIN 0 | S q => src (fst (level X SIN q M)) end.
  (** parallel_dc.py l.101-225. *)
  Fixpoint outputs (N step : nat) (X SIN : nat -> V) (out : nat -> list V) (r : nat) : list V :=
    match N with
    | O => out r
    | S n => outputs n (S step) (next_x step X SIN) (next_sin X SIN) (fun i => out i ++ [next_x step X SIN i]) r
    end.
End Ridc.

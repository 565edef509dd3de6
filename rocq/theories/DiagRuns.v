(** Model of what happens to diagnostic fields when the model is run several times (Timestepper.run, timestepper.py l.197-266):
    every run calls setup of every diagnostic (io.py l.336-368) and may add Courant number diagnostics (l.265-296); DiagnosticField.setup
    builds its evaluator only the first time (diagnostics.py l.159-202), from the self.expr of that time.
    Many diagnostics have a buffer: a Function created by their own setup, filled by their own compute, and used in self.expr. *)
From Coq Require Import List String Bool Arith.
Import ListNotations.
From Verif Require Import Base.

Section Diagnostic.
Context {X B V : Type}.       (* model states, contents of buffers, contents of the diagnostic field *)
Variable blank : B.           (* the contents of a new buffer *)
Variable aux : X -> B.        (* what compute puts into the buffer: recovered density, cell fluxes, projected velocity ... *)
Variable expr : X -> B -> V.  (* self.expr, evaluated with the fields of the model and the contents of a buffer *)

(** A diagnostic object: the buffer its evaluator reads, the buffer its compute fills; buffers are numbered by creation *)
(** diagnostics.py l.140-157, with the buffers of the classes. *)
Record diag := { initialised : bool; reads : nat; fills : nat; nbuf : nat; heap : nat -> B }.
(** diagnostics.py l.140-157. *)
Definition new_diag : diag := {| initialised := false; reads := 0; fills := 0; nbuf := 0; heap := fun _ => blank |}.
(** Auxiliary, nothing in the code by itself. *)
Definition put (h : nat -> B) (a : nat) (b : B) : nat -> B := fun a' => if Nat.eqb a' a then b else h a'.
(** own setup: a new buffer and a new self.expr; then DiagnosticField.setup (diagnostics.py l.177-202: if not self._initialised).
    rebuild: the diagnostic makes its own evaluator after that, as those with method 'solve' do (e.g. diagnostics.py l.505-516,
    1014-1024, shallow_water_diagnostics.py l.209-228) *)
Definition setup (rebuild : bool) (d : diag) : diag :=
  let a := nbuf d in
  {| initialised := true; reads := if initialised d && negb rebuild then reads d else a; fills := a;
     nbuf := S a; heap := put (heap d) a blank |}.
(** own compute fills the buffer, then DiagnosticField.compute (diagnostics.py l.204-216) evaluates *)
Definition compute (x : X) (d : diag) : diag * V :=
  let d := {| initialised := initialised d; reads := reads d; fills := fills d; nbuf := nbuf d; heap := put (heap d) (fills d) (aux x) |} in
  (d, expr x (heap d (reads d))).
(** The calls of compute in one run, io.py l.748-750. *)
Fixpoint computes (xs : list X) (d : diag) : diag * list V :=
  match xs with [] => (d, []) | x :: xs => let (d, v) := compute x d in let (d, vs) := computes xs d in (d, v :: vs) end.
(** a run: setup, and the states of which the diagnostic is computed.  The result: the values computed in each run *)
(** Timestepper.run several times, timestepper.py l.197-266. *)
Fixpoint runs (rebuild : bool) (rs : list (list X)) (d : diag) : diag * list (list V) :=
  match rs with
  | [] => (d, [])
  | xs :: rs => let (d, vs) := computes xs (setup rebuild d) in let (d, vss) := runs rebuild rs d in (d, vs :: vss)
  end.
End Diagnostic.
Arguments diag : clear implicits.

(** The diagnostics by kind.  Direct: no buffer.  Solved: the evaluator is made again by every setup.  Buffered. *)
(** diagnostics.py l.177-202 and the setup methods of the classes. *)
Inductive kind := Direct | Solved | Buffered.
Inductive diagnostic_class :=
| D_courant                      (* diagnostics.py l.401-457: cell_flux *)
| D_gradient (solve : bool)      (* l.482-516 *)
| D_divergence | D_component | D_kinetic_energy | D_sum | D_difference     (* l.542-866 *)
| D_tracer_density (solve : bool)  (* l.995-1057 *)
| D_thermodynamic                (* compressible_euler_diagnostics.py l.282-323: rho_averaged *)
| D_hydrostatic_imbalance        (* l.700-750: imbalance *)
| D_exner | D_brunt_vaisala | D_richardson | D_entropy   (* l.28-244 *)
| D_vorticity (continuous solve : bool)  (* shallow_water_diagnostics.py l.145-236: u_hcurl when the space is not continuous *)
| D_partitioned.                 (* l.327-430: qsat_func *)
Definition kind_of (c : diagnostic_class) : kind :=
  match c with
  | D_courant | D_thermodynamic | D_hydrostatic_imbalance | D_partitioned => Buffered
  | D_vorticity true solve => if solve then Solved else Direct
  | D_vorticity false _ => Buffered
  | D_gradient solve | D_tracer_density solve => if solve then Solved else Direct
  | _ => Direct
  end.
(** diagnostics.py l.177-216. *)
Definition class_runs {X B V} (c : diagnostic_class) (blank : B) (aux : X -> B) (expr : X -> B -> V) (rs : list (list X)) : list (list V) :=
  match kind_of c with
  | Direct => map (map (fun x => expr x blank)) rs
  | Solved => snd (runs blank aux expr true rs (new_diag blank))
  | Buffered => snd (runs blank aux expr false rs (new_diag blank))
  end.

(** ** The Courant number and io.courant_max *)
Section Courant.
Context {X B V : Type}.
Variables (blank : B) (flux : X -> B) (number : B -> V).   (* number: the maximum of the Courant number field for given cell fluxes *)
(** diagnostics.py l.449-450. *)
Definition cexpr (_ : X) (b : B) : V := number b.
(** diagnostics: references, in order, to objects.  All are called CourantNumber, and share one field *)
(** io.py l.265-334. *)
Record cworld := { refs : list nat; objs : nat -> diag B; nobj : nat; courant_max : option V (* None: no value yet *) }.
(** Auxiliary, nothing in the code by itself. *)
Definition set_obj (w : cworld) (i : nat) (d : diag B) : cworld :=
  {| refs := refs w; objs := fun j => if Nat.eqb j i then d else objs w j; nobj := nobj w; courant_max := courant_max w |}.
(** topo_sort (io.py l.934-978): name2field keeps the last object of each name, once for every occurrence of the name *)
Definition sorted (l : list nat) : list nat := map (fun _ => last l 0) l.
(** io.py l.336-368. *)
Definition setup_diagnostics (w : cworld) : cworld :=
  let w := {| refs := sorted (refs w); objs := objs w; nobj := nobj w; courant_max := courant_max w |} in
  fold_left (fun w i => set_obj w i (setup blank false (objs w i))) (refs w) w.
(** l.282-296: courant_name is None or the name of the velocity, and is never the name of a diagnostic *)
Definition setup_log_courant (w : cworld) : cworld :=
  let i := nobj w in
  {| refs := refs w ++ [i]; objs := fun j => if Nat.eqb j i then setup blank false (new_diag blank) else objs w j; nobj := S i; courant_max := courant_max w |}.
(** l.313-334: the first diagnostic called CourantNumber *)
Definition log_courant (x : X) (w : cworld) : cworld :=
  let i := hd 0 (refs w) in let (d, v) := compute flux cexpr x (objs w i) in
  {| refs := refs w; objs := objs (set_obj w i d); nobj := nobj w; courant_max := Some v |}.
(** dump, l.748-750 *)
Definition dump (x : X) (w : cworld) : cworld :=
  fold_left (fun w i => set_obj w i (fst (compute flux cexpr x (objs w i)))) (refs w) w.
(** the steps of a run (timestepper.py l.236-260): the state when the Courant number is logged, and the state dumped.  The result
    includes the courant_max seen by each time step *)
Fixpoint steps (l : list (X * X)) (w : cworld) : cworld * list (option V) :=
  match l with
  | [] => (w, [])
  | (x, y) :: l => let w := log_courant x w in let c := courant_max w in let (w, cs) := steps l (dump y w) in (w, c :: cs)
  end.
(** a run: l.207-208, the initial dump, the steps *)
Definition courant_run (x0 : X) (l : list (X * X)) (w : cworld) : cworld * list (option V) :=
  steps l (dump x0 (setup_log_courant (setup_diagnostics w))).
(** timestepper.py l.197-266. *)
Fixpoint courant_runs (rs : list (X * list (X * X))) (w : cworld) : list (list (option V)) :=
  match rs with [] => [] | (x0, l) :: rs => let (w, cs) := courant_run x0 l w in cs :: courant_runs rs w end.
(** Auxiliary, nothing in the code by itself. *)
Definition no_diagnostics : cworld := {| refs := []; objs := fun _ => new_diag blank; nobj := 0; courant_max := None |}.
End Courant.

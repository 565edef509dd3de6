(** Model of the REXI coefficients (gusto/rexi/rexi_coefficients.py) and of the solver (rexi.py). *)
From Verif Require Import Base Vec Complex.
Open Scope R_scope.

(** ** RexiCoefficients (rexi_coefficients.py l.105-192).  The constants (l.4-93) are arguments: L, mu
    (both tables have a real mu) and a; python's a[l+L] is a' (l+L). *)
Record rexi_constants := { rc_L : nat; rc_mu : R; rc_a : nat -> C }.
(** rexi.py l.15-22. *)
Record rexi_parameters := { rp_h : R; rp_M : nat; rp_half : bool }.
(** b_coefficients (l.96-102): exp(h*h) * exp(-1j*m*h) for m = -M..M; index m+M *)
Definition b_coef (h : R) (M k : nat) : C :=
  let m := INR k - INR M in (exp (h * h) * cos (- (m * h)), exp (h * h) * sin (- (m * h))).
(** the double loop l.143-149; the arrays are indexed by n+N = (l+L) + (m+M), so the loops run over
    the shifted indices *)
Definition coef_state := ((nat -> C) * (nat -> C) * (nat -> C))%type.
(** Auxiliary, nothing in the code by itself. *)
Definition put (f : nat -> C) (k : nat) (v : C) : nat -> C := fun i => if Nat.eqb i k then v else f i.
(** l.143-149. *)
Definition coef_body (K : rexi_constants) (P : rexi_parameters) (s : coef_state) (lm : nat * nat) : coef_state :=
  let '(alpha, bre, bim) := s in
  let '(l, m) := lm in
  let N := (rp_M P + rc_L K)%nat in
  let k := (l + m)%nat in
  let n := INR k - INR N in
  let b := b_coef (rp_h P) (rp_M P) m in
  (put alpha k (cscal (rp_h P) (rc_mu K, n)),
   put bre k (cadd (bre k) (cscal (fst b * rp_h P) (rc_a K l))),
   put bim k (cadd (bim k) (cscal (snd b * rp_h P) (rc_a K l)))).
(** l.143-149. *)
Definition coef_loop (K : rexi_constants) (P : rexi_parameters) : coef_state :=
  fold_left (coef_body K P) (list_prod (seq 0 (2 * rc_L K + 1)) (seq 0 (2 * rp_M P + 1))) (fun _ => c0, fun _ => c0, fun _ => c0).
(** l.151-192: assembling alpha, beta and beta2 *)
Definition half_at (N : nat) (f : nat -> C) : nat -> C := put f N (cscal (/ 2) (f N)).
(** l.151-192. *)
Definition bcoef (bre bim : nat -> C) (k : nat) : C := cscal (/ 2) (cadd (bre k) (cmul ci (bim k))).
(** l.151-192. *)
Definition dcoef (cre cim : nat -> C) (k : nat) : C := cscal (/ 2) (cadd (copp (cre k)) (copp (cmul ci (cim k)))).
(** l.105-192. *)
Definition rexi_coefficients (K : rexi_constants) (P : rexi_parameters) : list C * list C * list C :=
  let N := (rp_M P + rc_L K)%nat in
  let '(alpha, bre, bim) := coef_loop K P in
  let cre := fun k => cconj (bre k) in let cim := fun k => cconj (bim k) in
  let '(alpha, beta, beta2) :=
    if rp_half P then
      let bre := half_at N bre in let bim := half_at N bim in let cre := half_at N cre in let cim := half_at N cim in
      (map (fun j => alpha (N + j)%nat) (seq 0 (N + 1)),                                       (* alpha[N:] *)
       map (fun j => bcoef bre bim (N + j)) (seq 0 (N + 1)) ++ map (fun j => dcoef cre cim (N - j)) (seq 0 (N + 1)),   (* [N:], [N::-1] *)
       map (fun j => bcoef bre bim (N - j)) (seq 0 (N + 1)) ++ map (fun j => dcoef cre cim (N + j)) (seq 0 (N + 1)))
    else
      (map alpha (seq 0 (2 * N + 1)),
       map (bcoef bre bim) (seq 0 (2 * N + 1)) ++ map (fun k => dcoef cre cim (2 * N - k)) (seq 0 (2 * N + 1)),        (* [::-1] *)
       map (fun _ => c0) (seq 0 (2 * (2 * N + 1)))) in
  (alpha ++ map copp alpha, beta, beta2).

(** ** Rexi.__init__ (rexi.py l.71-91): the solvers of each ensemble rank.  int(nsolvers/neprocs) is
    a division of floats; both are far below 2^53, where it equals the integer quotient. *)
Definition my_solvers (nsolvers : nat) (manager : option (nat * nat)) : nat * nat :=   (* idx, N *)
  match manager with
  | None => (0, nsolvers)%nat
  | Some (rank, neprocs) =>
      let m := (nsolvers / neprocs)%nat in
      let p := (nsolvers - m * neprocs)%nat in
      if Nat.ltb rank p then (rank * (m + 1), m + 1)%nat else (rank * m + p, m)%nat
  end.
(** Rexi.solve (l.191-231) on one rank, at one degree of freedom: w alpha is the solution of the
    complex system for that alpha.  x_out += bc.real * Re(w); x_out -= bc.imag * Im(w).  beta2 is not
    used. *)
Definition rexi_local (alpha beta : list C) (w : C -> C) (range : nat * nat) : R :=
  fold_left (fun x i => let j := (fst range + i)%nat in
               let a := nth j alpha c0 in let b := nth j beta c0 in
               let x := x + fst b * fst (w a) in x - snd b * snd (w a)) (seq 0 (snd range)) 0.
(** the allreduce sums the contributions of all the ranks *)
(** rexi.py l.191-240. *)
Definition rexi_solve (alpha beta : list C) (w : C -> C) (neprocs : option nat) : R :=
  let n := length alpha in
  match neprocs with
  | None => rexi_local alpha beta w (my_solvers n None)
  | Some P => fold_left (fun x r => x + rexi_local alpha beta w (my_solvers n (Some (r, P)))) (seq 0 P) 0
  end.
(** The system solved for one alpha (rexi.py l.154-164): a = aM - aL with
    aM = BilinearForm(W, alpha, mass), aL = BilinearForm(W, tau, function), b = LinearForm(W, 1, mass(U0)) *)
Definition rexi_system {D} (mass func : list D -> list D -> R) (U : list D) (tau : R) (alpha : C) (w : list D) (v : list D) : Prop :=
  twoform alpha mass w v - twoform (tau, 0) func w v = oneform (1, 0) (mass U) v.

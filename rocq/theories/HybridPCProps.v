(** C124: hybridisation in the vertical solves the original mixed system.  C125: Schur complement splits. *)
From mathcomp Require Import all_ssreflect all_algebra.
From Verif Require Import HybridPC.
Set Implicit Arguments. Unset Strict Implicit. Unset Printing Implicit Defensive.
Import GRing.Theory Num.Theory.
Local Open Scope ring_scope.

Section Spec.
Variable F : numFieldType.
Variables nb np ng nt : nat.
Variable node : 'I_nb -> 'I_ng.
(** ** Specification *)
(** the unbroken velocity as an element of the broken space *)
Definition embed : 'M[F]_(nb, ng) := \matrix_(b, g) (node b == g)%:R.
(** The mixed operator on the unbroken spaces: its entries add up those of the cells (degrees of freedom at the same node) *)
Definition unbroken_operator (A : 'M[F]_nb) (B : 'M[F]_(nb, np)) (C : 'M[F]_(np, nb)) (D : 'M[F]_np) : 'M[F]_(ng + np) :=
  block_mx (\matrix_(g, g') \sum_(b | node b == g) \sum_(b' | node b' == g') A b b') (\matrix_(g, j) \sum_(b | node b == g) B b j)
           (\matrix_(i, g) \sum_(b | node b == g) C i b) D.
(** velocities that satisfy the boundary conditions *)
Definition admissible (bc : pred 'I_ng) (v : 'cV[F]_ng) : Prop := forall g, bc g -> v g 0 = 0.
(** (v, p) solves the mixed system with boundary conditions: the equations hold for all test functions that satisfy the boundary conditions *)
Definition solves A B C D (bc : pred 'I_ng) (g : 'cV[F]_ng) (f : 'cV[F]_np) (v : 'cV[F]_ng) (p : 'cV[F]_np) : Prop :=
  admissible bc v /\
  (forall w q, admissible bc w -> ((col_mx w q)^T *m (unbroken_operator A B C D *m col_mx v p)) 0 0 = ((col_mx w q)^T *m col_mx g f) 0 0).
(** The trace form: it is about the velocity only and, of the broken velocities, exactly the unbroken ones that satisfy the boundary conditions have no jump;
    traces with Dirichlet conditions do not occur in it; the other traces are independent *)
Record trace_form (bc : pred 'I_ng) (H : hybrid F nb np nt) : Prop := {
  tf_velocity : bK1 H = 0;
  tf_jump : forall s, bK0 H *m s = 0 <-> exists v, admissible bc v /\ s = embed *m v;
  tf_dirichlet : forall i j, trace_bc H i -> bK0 H i j = 0 }.
(** the problems of the cells can be solved *)
Definition cells_solvable (H : hybrid F nb np nt) : Prop := bA H \in unitmx /\ bD H - bC H *m invmx (bA H) *m bB H \in unitmx.

(** ** Proofs *)
Lemma sum_node (P : 'I_ng) (f : 'I_nb -> F) : \sum_(b | node b == P) f b = \sum_b (node b == P)%:R * f b.
Proof. by rewrite big_mkcond; apply: eq_bigr => b _; case: (_ == _); rewrite ?mul1r ?mul0r. Qed.
Lemma unbroken_operatorE A B C D : unbroken_operator A B C D = block_mx (embed^T *m A *m embed) (embed^T *m B) (C *m embed) D.
Proof.
rewrite /unbroken_operator; congr block_mx; apply/matrixP=> i j; rewrite !mxE.
- rewrite (eq_bigr _ (fun b _ => sum_node j (A b))) sum_node.
  under [RHS]eq_bigr => b' _ do rewrite !mxE mulr_suml.
  rewrite exchange_big /=; apply: eq_bigr => b _; rewrite mulr_sumr; apply: eq_bigr => b' _; by rewrite !mxE mulrA mulrAC.
- by rewrite sum_node; apply: eq_bigr => b _; rewrite !mxE.
- by rewrite sum_node; apply: eq_bigr => b _; rewrite !mxE mulrC.
Qed.
Lemma weight_neq0 b : weight F node (node b) != 0.
Proof.
rewrite /weight sumr_const pnatr_eq0 -lt0n. apply/card_gt0P; exists b. exact: eqxx.
Qed.
(** every node belongs to a cell *)
Hypothesis node_onto : forall g, exists b, node b = g.
Lemma weight_g g : weight F node g != 0. Proof. by have [b <-] := node_onto g; apply: weight_neq0. Qed.
(** the split residual gives the residual for every unbroken test function *)
Lemma split_residual (r : 'cV[F]_ng) : embed^T *m to_broken node r = r.
Proof.
apply/matrixP=> g j; rewrite !ord1 mxE.
under eq_bigr => b _ do rewrite !mxE.
rewrite -(sum_node g (fun b => r (node b) 0 / weight F node (node b))).
rewrite (eq_bigr (fun b => r g 0 / weight F node g * 1)); last by move=> b /eqP ->; rewrite mulr1.
by rewrite -mulr_sumr -/(weight F node g) mulfVK // weight_g.
Qed.
Lemma average_embed (v : 'cV[F]_ng) : to_unbroken node (embed *m v) = v.
Proof.
apply/matrixP=> g j; rewrite !ord1 mxE.
rewrite (eq_bigr (fun b => v g 0 / weight F node g * 1)); first by rewrite -mulr_sumr -/(weight F node g) mulfVK // weight_g.
move=> b /eqP E; rewrite mulr1; congr (_ / _). rewrite mxE (bigD1 g) //= big1 ?addr0; last by move=> g' N; rewrite mxE E eq_sym (negbTE N) mul0r.
by rewrite mxE E eqxx mul1r.
Qed.
Lemma atilde_unit (H : hybrid F nb np nt) : cells_solvable H -> Atilde H \in unitmx.
Proof.
case=> UA UM. rewrite unitmxE /Atilde.
have -> : block_mx (bA H) (bB H) (bC H) (bD H) = block_mx 1%:M 0 (bC H *m invmx (bA H)) 1%:M *m block_mx (bA H) (bB H) 0 (bD H - bC H *m invmx (bA H) *m bB H).
  by rewrite mulmx_block !mul1mx !mul0mx !addr0 mulmxKV // (addrC _ (bD H - _)) subrK.
by rewrite det_mulmx det_lblock !det1 !mul1r det_ublock unitrM -!unitmxE UA UM.
Qed.
Lemma cancel3 (V : zmodType) (g x y : V) : g - x - y + x + y = g.
Proof. by rewrite addrAC subrK subrK. Qed.
Lemma cancel5 (V : zmodType) (a b c d f : V) : a - b - c + (f - a - (d - c) + b) + d = f.
Proof. by rewrite opprB (addrAC (f - a)) !addrA subrK [a - b - c + f]addrC !addrA (addrAC _ (- a) b) (addrAC _ (- c) b) subrK (addrAC _ (- a) c) subrK addrK. Qed.
Lemma reconstruct_solves (H : hybrid F nb np nt) g f lambda : cells_solvable H ->
  let u := recovered_pressure H g f lambda in let s := recovered_velocity H g u lambda in
  Atilde H *m col_mx s u + (Kmx H)^T *m lambda = col_mx g f.
Proof.
move=> [UA UM] u s. rewrite /Atilde /Kmx mul_block_col tr_row_mx mul_col_mx add_col_mx; congr col_mx.
- by rewrite /s /recovered_velocity mulKVmx // cancel3.
- have Es : bC H *m s = bC H *m invmx (bA H) *m g - bC H *m invmx (bA H) *m bB H *m u - bC H *m invmx (bA H) *m (bK0 H)^T *m lambda.
    by rewrite /s /recovered_velocity !mulmxBr !mulmxA.
  have Eu : (bD H - bC H *m invmx (bA H) *m bB H) *m u = f - bC H *m invmx (bA H) *m g - ((bK1 H)^T - bC H *m invmx (bA H) *m (bK0 H)^T) *m lambda.
    by rewrite /u /recovered_pressure mulKVmx.
  rewrite Es. move: Eu. rewrite !mulmxBl => Eu.
  have -> : bD H *m u = f - bC H *m invmx (bA H) *m g - ((bK1 H)^T *m lambda - bC H *m invmx (bA H) *m (bK0 H)^T *m lambda) + bC H *m invmx (bA H) *m bB H *m u by rewrite -Eu subrK.
  by rewrite cancel5.
Qed.

(** ** Theorems *)
Lemma trace_system (bc : pred 'I_ng) (H : hybrid F nb np nt) r lambda : trace_form bc H ->
  schur_comp H *m lambda = schur_rhs H r -> Kmx H *m (invmx (Atilde H) *m (r - (Kmx H)^T *m lambda)) = 0.
Proof.
move=> T TS.
have KB i j : trace_bc H i -> Kmx H i j = 0.
  move=> Hi. rewrite mxE. case: splitP => k _; first by rewrite (tf_dirichlet T).
  by rewrite (tf_velocity T) mxE.
have K0 i n (M : 'M[F]_(nb + np, n)) j : trace_bc H i -> (Kmx H *m M) i j = 0 by move=> Hi; rewrite mxE big1 // => k _; rewrite KB // mul0r.
have L0 i : trace_bc H i -> lambda i 0 = 0.
  move=> Hi. have /matrixP/(_ i 0) := TS. rewrite [RHS]K0 // mxE (bigD1 i) //= mxE Hi eqxx mul1r big1 ?addr0 // => k Hk.
  by rewrite mxE Hi eq_sym (negbTE Hk) mul0r.
suff E : schur_rhs H r = Kmx H *m (invmx (Atilde H) *m ((Kmx H)^T *m lambda)) by rewrite mulmxBr mulmxBr -/(schur_rhs H r) E subrr.
rewrite -TS !mulmxA. apply/matrixP=> i j. rewrite !ord1 {j}.
case Hi: (trace_bc H i); first by rewrite -[in RHS]mulmxA -[in RHS]mulmxA K0 // mxE (bigD1 i) //= L0 // mulr0 add0r big1 // => k Hk; rewrite mxE Hi eq_sym (negbTE Hk) mul0r.
rewrite !mxE. apply: eq_bigr => k _. rewrite mxE Hi /=. case Hk: (trace_bc H k); first by rewrite L0 // !mulr0.
by rewrite mxE.
Qed.
(** What the preconditioner returns solves the mixed system: the velocity is that of the unbroken space, satisfies the boundary conditions, and the
    equations hold for every test function. *)
Theorem vertical_hybridization_exact (bc : pred 'I_ng) (H : hybrid F nb np nt) : trace_form bc H -> cells_solvable H ->
  forall g f lambda, trace_solution node H g f lambda ->
  solves (bA H) (bB H) (bC H) (bD H) bc g f (apply_pc node H g f lambda).1 (apply_pc node H g f lambda).2.
Proof.
move=> T S g f lambda TS. rewrite /apply_pc /=. set u := recovered_pressure _ _ _ _. set s := recovered_velocity _ _ _ _.
have E := reconstruct_solves (to_broken node g) f lambda S. rewrite -/u -/s /= in E.
have UT := atilde_unit S.
have J : bK0 H *m s = 0.
  have -> : bK0 H *m s = Kmx H *m col_mx s u by rewrite /Kmx mul_row_col (tf_velocity T) mul0mx addr0.
  by rewrite -[RHS](trace_system T TS) -E addrK mulKmx.
have /(tf_jump T) [v [Av Ev]] := J.
have Eu : to_unbroken node s = v by rewrite Ev average_embed.
split; first by rewrite Eu.
move=> w q Aw. rewrite Eu unbroken_operatorE.
have [E1 E2] : bA H *m s + bB H *m u = to_broken node g - (bK0 H)^T *m lambda /\ bC H *m s + bD H *m u = f.
  move: E. rewrite /Atilde /Kmx mul_block_col tr_row_mx mul_col_mx add_col_mx (tf_velocity T) trmx0 mul0mx addr0 => /eq_col_mx [E1 E2].
  by split; [rewrite -E1 addrK | exact: E2].
rewrite mul_block_col -!mulmxA -Ev E2 -mulmxDr E1 mulmxBr split_residual.
rewrite !tr_col_mx !mul_row_col mulmxBr [embed^T *m _]mulmxA -trmx_mul mulmxA -trmx_mul -mulmxA.
have -> : bK0 H *m (embed *m w) = 0 by apply/(tf_jump T); exists w.
by rewrite trmx0 mul0mx subr0.
Qed.
Lemma unit_of_injective n (M : 'M[F]_n) : (forall x : 'cV[F]_n, M *m x = 0 -> x = 0) -> M \in unitmx.
Proof.
move=> inj. rewrite -unitmx_tr -row_free_unit -kermx_eq0. apply/eqP/row_matrixP => i. rewrite row0.
have : row i (kermx M^T) *m M^T = 0 by rewrite -row_mul mulmx_ker row0.
by rewrite -[X in X *m _]trmxK -trmx_mul => /(congr1 trmx); rewrite trmxK trmx0 => /inj /(congr1 trmx); rewrite trmxK trmx0.
Qed.
(** If the mixed system has no more than one solution and the traces without Dirichlet conditions are independent, then the trace system can be solved. *)
Theorem trace_system_solvable (bc : pred 'I_ng) (H : hybrid F nb np nt) : trace_form bc H -> cells_solvable H ->
  (forall lambda : 'cV[F]_nt, (forall i, trace_bc H i -> lambda i 0 = 0) -> (bK0 H)^T *m lambda = 0 -> lambda = 0) ->
  (forall v p, solves (bA H) (bB H) (bC H) (bD H) bc 0 0 v p -> v = 0 /\ p = 0) ->
  forall g f, exists! lambda, trace_solution node H g f lambda.
Proof.
move=> T S Ind U g f.
have Su : schur_comp H \in unitmx.
  apply: unit_of_injective => lambda L.
  have TS : trace_solution node H 0 0 lambda.
    rewrite /trace_solution L /schur_rhs. suff -> : to_broken node 0 = 0 :> 'cV[F]_nb by rewrite col_mx0 !mulmx0.
    by apply/matrixP=> i j; rewrite !mxE mul0r.
  have [V0 P0] := U _ _ (vertical_hybridization_exact T S TS).
  have B0 : to_broken node 0 = 0 :> 'cV[F]_nb by apply/matrixP=> i j; rewrite !mxE mul0r.
  rewrite /apply_pc /= B0 in V0 P0. rewrite P0 in V0.
  have E := reconstruct_solves 0 0 lambda S. rewrite /= P0 in E.
  have J : bK0 H *m recovered_velocity H 0 0 lambda = 0.
    have -> : bK0 H *m recovered_velocity H 0 0 lambda = Kmx H *m col_mx (recovered_velocity H 0 0 lambda) 0 by rewrite /Kmx mul_row_col (tf_velocity T) mul0mx addr0.
    rewrite /trace_solution B0 in TS. by rewrite -[RHS](trace_system T TS) -E addrK mulKmx // atilde_unit.
  have /(tf_jump T) [v [_ Ev]] := J. rewrite Ev average_embed in V0. rewrite Ev V0 mulmx0 col_mx0 mulmx0 add0r in E.
  move: E. rewrite /Kmx tr_row_mx mul_col_mx -[RHS]col_mx0 => /eq_col_mx [E _].
  apply: Ind => // i Hi. have /matrixP/(_ i 0) := L. rewrite [RHS]mxE mxE (bigD1 i) //= mxE Hi eqxx mul1r big1 ?addr0 // => k Hk.
  by rewrite mxE Hi eq_sym (negbTE Hk) mul0r.
exists (invmx (schur_comp H) *m schur_rhs H (col_mx (to_broken node g) f)). split; first by rewrite /trace_solution mulKVmx.
by move=> l Hl; rewrite -Hl mulKmx.
Qed.
End Spec.

(** ** A column of cells *)
Section Column.
Variable F : numFieldType.
Variable m : nat.
Local Notation n := m.+1.   (* cells 0..m; facets 0..n *)
Variables (bottom_bc top_bc : bool) (area : F).
Hypothesis area_nz : area != 0.
(** in every cell one degree of freedom at the bottom (the first n) and one at the top *)
Definition column_node (b : 'I_(n + n)) : 'I_n.+1 := match split b with inl c => widen_ord (leqnSn n) c | inr c => lift ord0 c end.
Definition column_bc : pred 'I_n.+1 := fun g => bottom_bc && (g == 0%N :> nat) || top_bc && (g == n :> nat).
Definition column_trace_bc : pred 'I_n.+1 := fun g => ~~ bottom_bc && (g == 0%N :> nat) || ~~ top_bc && (g == n :> nat).
(** the flux out of the cells at the facet *)
Definition column_K : 'M[F]_(n.+1, n + n) := \matrix_(g, b) if column_trace_bc g then 0 else
  match split b with inl c => - area *+ (c == g :> nat) | inr c => area *+ (c.+1 == g :> nat) end.
Lemma column_onto g : exists b, column_node b = g.
Proof.
case: (unliftP ord0 g) => [c ->|->]; first by exists (rshift n c); rewrite /column_node -/(unsplit (inr c)) unsplitK.
exists (lshift n ord0); rewrite /column_node -/(unsplit (inl ord0)) unsplitK. exact: val_inj.
Qed.
Lemma column_embed_low (v : 'cV[F]_n.+1) c : (embed F column_node *m v) (lshift n c) 0 = v (widen_ord (leqnSn n) c) 0.
Proof.
rewrite mxE (bigD1 (widen_ord (leqnSn n) c)) //= mxE /column_node -/(unsplit (inl c)) unsplitK eqxx mul1r big1 ?addr0 // => g N.
by rewrite mxE -/(unsplit (inl c)) unsplitK eq_sym (negbTE N) mul0r.
Qed.
Lemma column_embed_high (v : 'cV[F]_n.+1) c : (embed F column_node *m v) (rshift n c) 0 = v (lift ord0 c) 0.
Proof.
rewrite mxE (bigD1 (lift ord0 c)) //= mxE /column_node -/(unsplit (inr c)) unsplitK eqxx mul1r big1 ?addr0 // => g N.
by rewrite mxE -/(unsplit (inr c)) unsplitK eq_sym (negbTE N) mul0r.
Qed.
(** the value of the trace form at a facet *)
Definition low (s : 'cV[F]_(n + n)) (k : nat) : F := if insub k is Some c then s (lshift n c) 0 else 0.
Definition high (s : 'cV[F]_(n + n)) (k : nat) : F := if k is j.+1 then (if insub j is Some c then s (rshift n c) 0 else 0) else 0.
Lemma column_K_value s g : (column_K *m s) g 0 = if column_trace_bc g then 0 else area * (high s g - low s g).
Proof.
rewrite mxE. case T: (column_trace_bc g); first by rewrite big1 // => b _; rewrite mxE T mul0r.
rewrite big_split_ord /= mulrBr addrC; congr (_ + _).
- rewrite /high. case Eg: (g : nat) => [|j].
    by rewrite mulr0 big1 // => c _; rewrite mxE T -/(unsplit (inr c)) unsplitK Eg mulr0n mul0r.
  case: insubP => [c0 _ E0|N].
    rewrite (bigD1 c0) //= mxE T -/(unsplit (inr c0)) unsplitK Eg E0 eqxx mulr1n big1 ?addr0 // => c Nc.
    by rewrite mxE T -/(unsplit (inr c)) unsplitK Eg eqSS -E0 (_ : (c == c0 :> nat) = false) ?mulr0n ?mul0r //; apply: contraNF Nc => /eqP/val_inj ->.
  rewrite mulr0 big1 // => c _. rewrite mxE T -/(unsplit (inr c)) unsplitK Eg eqSS (_ : (c == j :> nat) = false) ?mulr0n ?mul0r //.
  by apply: contraNF N => /eqP <-.
- rewrite /low. case: insubP => [c0 _ E0|N].
    rewrite (bigD1 c0) //= mxE T -/(unsplit (inl c0)) unsplitK E0 eqxx mulr1n mulNr big1 ?addr0 // => c Nc.
    by rewrite mxE T -/(unsplit (inl c)) unsplitK -E0 (_ : (c == c0 :> nat) = false) ?mulr0n ?mul0r //; apply: contraNF Nc => /eqP/val_inj ->.
  rewrite mulr0 oppr0 big1 // => c _. rewrite mxE T -/(unsplit (inl c)) unsplitK (_ : (c == g :> nat) = false) ?mulr0n ?mul0r //.
  by apply: contraNF N => /eqP <-.
Qed.
(** In a column of any number of cells, with or without boundary conditions at the bottom and at the top, the trace form is as assumed
    (traces without a boundary condition for the velocity have a Dirichlet condition) *)
Theorem column_trace_form (A : 'M[F]_(n + n)) B C (D : 'M[F]_n) : trace_form column_node column_bc (Build_hybrid A B C D column_K 0 column_trace_bc).
Proof.
split=> //=; last by move=> i j Hi; rewrite mxE Hi.
move=> s; split.
- move=> K0. have KE g : ~~ column_trace_bc g -> high s g = low s g.
    move=> /negbTE T. have /matrixP/(_ g 0) := K0. rewrite column_K_value T mxE => /eqP. by rewrite mulf_eq0 (negbTE area_nz) /= subr_eq0 => /eqP.
  exists (\col_g if (g < n)%N then low s g else high s g). split.
    move=> g. rewrite mxE /column_bc => /orP [/andP [Hb /eqP Eg]|/andP [Hb /eqP Eg]].
      rewrite Eg /=. have := KE g. rewrite /column_trace_bc Eg Hb /= ?andbF ?orbF => /(_ isT) <-. by [].
    rewrite Eg ltnn. have := KE g. rewrite /column_trace_bc Eg Hb /= ?andbF => /(_ isT) ->. rewrite /low. by case: insubP => // u; rewrite ltnn.
  apply/matrixP=> b j. rewrite !ord1 {j}. rewrite -(splitK b). case: (split b) => c /=.
    rewrite column_embed_low mxE /= ltn_ord /low insubT //. by move=> H0; congr (s (lshift n _) 0); apply: val_inj.
  rewrite column_embed_high mxE /= /bump /= add1n. case: ltnP => Hc.
    have := KE (lift ord0 c). rewrite /column_trace_bc /= /bump /= add1n (ltn_eqF Hc) !andbF => /(_ isT) <-.
    rewrite /= insubT //. by move=> H0; congr (s (rshift n _) 0); apply: val_inj.
  rewrite /= insubT //. by move=> H0; congr (s (rshift n _) 0); apply: val_inj.
- case=> v [Av ->]. apply/matrixP=> g j. rewrite !ord1 {j} column_K_value [RHS]mxE. case T: (column_trace_bc g) => //.
  have L : low (embed F column_node *m v) g = if (g < n)%N then v g 0 else 0.
    rewrite /low. case: insubP => [c Hc Ec|/negbTE ->] //. rewrite Hc column_embed_low. by congr (v _ 0); apply: val_inj.
  have Hh : high (embed F column_node *m v) g = if (0 < g)%N then v g 0 else 0.
    rewrite /high. case Eg: (g : nat) => [|k] //=. case: insubP => [c Hc Ec|/negP []]; last by rewrite -ltnS -Eg.
    rewrite column_embed_high. by congr (v _ 0); apply: val_inj; rewrite /= /bump /= add1n Ec.
  rewrite L Hh. case: (ltnP g n) => H1; case: (ltnP 0 g) => H2; rewrite ?subrr ?mulr0 //.
  + rewrite Av ?subrr ?mulr0 //. move: T. rewrite /column_trace_bc /column_bc (_ : (g == 0%N :> nat) = true); last by rewrite -leqn0. by case: bottom_bc.
  + rewrite Av ?subrr ?mulr0 //. have Eg : (g == n :> nat) by rewrite eqn_leq H1 -ltnS ltn_ord. move: T. rewrite /column_trace_bc /column_bc Eg /= ?andbT. by case: top_bc; rewrite ?orbT.
Qed.
(** so that the preconditioner solves the mixed system of the column, whatever its blocks *)
Theorem column_hybridization (A : 'M[F]_(n + n)) B C (D : 'M[F]_n) (H := Build_hybrid A B C D column_K 0 column_trace_bc) : cells_solvable H ->
  forall g f lambda, trace_solution column_node H g f lambda ->
  solves column_node A B C D column_bc g f (apply_pc column_node H g f lambda).1 (apply_pc column_node H g f lambda).2.
Proof. move=> S g f lambda; exact: (vertical_hybridization_exact column_onto (column_trace_form A B C D) S). Qed.
End Column.
(** A discretisation of u + p' = g, p + u' = f in a column: the mass of the velocity is that of the nodes, B and C are the fluxes.  The cells can be solved. *)
Section Example_.
Variable m : nat.
Local Notation n := m.+1.
Local Notation F := rat_numFieldType.
Definition wave_B : 'M[F]_(n + n, n) := col_mx 1%:M (- 1%:M).
Definition wave_hybrid : hybrid F (n + n) n n.+1 := Build_hybrid 1%:M wave_B (- wave_B^T) 1%:M (column_K m true true 1) 0 (column_trace_bc true true).
Lemma wave_solvable : cells_solvable wave_hybrid.
Proof.
split; first exact: unitmx1. rewrite /= invmx1 mulmx1 mulNmx opprK /wave_B tr_col_mx mul_row_col.
have -> : (- 1%:M : 'M[F]_n)^T = - 1%:M by apply/matrixP=> i j; rewrite !mxE eq_sym.
rewrite trmx1 mul1mx mulNmx mulmxN opprK mul1mx.
have -> : 1%:M + (1%:M + 1%:M) = (3%:R)%:M :> 'M[F]_n by apply/matrixP=> i j; rewrite !mxE; case: (i == j); rewrite ?mulr1n ?mulr0n ?addr0.
by rewrite unitmxE det_scalar unitfE expf_neq0.
Qed.
Example wave_column g f lambda : trace_solution (@column_node m) wave_hybrid g f lambda ->
  solves (@column_node m) 1%:M wave_B (- wave_B^T) 1%:M (column_bc true true) g f (apply_pc (@column_node m) wave_hybrid g f lambda).1 (apply_pc (@column_node m) wave_hybrid g f lambda).2.
Proof. apply: column_hybridization; [exact: oner_neq0 | exact: wave_solvable]. Qed.
End Example_.

(** ** Which boundaries have constraints.  Without boundary conditions, or with conditions at the top or at the bottom, each of the two is
    either constrained (exactly if it has a condition) or has a Dirichlet trace, not both *)
Theorem traces_of_top_and_bottom row_bcs markers : row_bcs = [::] \/ List.In Top row_bcs \/ List.In Bottom row_bcs ->
  let (constrained, dirichlet) := subdomains row_bcs markers in forall s, s = Top \/ s = Bottom ->
  (List.In s constrained <-> List.In s row_bcs) /\ (List.In s dirichlet <-> ~ List.In s row_bcs).
Proof.
have inT (l : seq subdomain) : reflect (List.In Top l) (has is_top l).
  elim: l => [|a l IH] /=; first by apply: (iffP idP).
  apply: (iffP orP) => [[|/IH]|[->|/IH]]; [by case: a; left | by right | by left | by right].
have inB (l : seq subdomain) : reflect (List.In Bottom l) (has is_bottom l).
  elim: l => [|a l IH] /=; first by apply: (iffP idP).
  apply: (iffP orP) => [[|/IH]|[->|/IH]]; [by case: a; left | by right | by left | by right].
have latT (l : seq nat) s : s = Top \/ s = Bottom -> ~ List.In s [seq Lateral m | m <- l] by case=> ->; elim: l => [|a l IH] //= [].
case: row_bcs => [|a r] C; first by rewrite /= => s [->|->]; split; split; intuition.
have {}C : has is_top (a :: r) || has is_bottom (a :: r) by case: C => [//|[/inT ->|/inB ->]]; rewrite ?orbT.
rewrite /subdomains.
move: (inT (a :: r)) (inB (a :: r)) C; move: (has is_top (a :: r)) (has is_bottom (a :: r)).
move=> t b [Ht|Ht] [Hb|Hb] //= _ s Hs; have L l := latT l s Hs;
 split; split; rewrite ?cats0 /=; case: Hs => E; subst s => //=; try tauto.
all: intros; try (by intuition (try discriminate; eauto)).
all: by match goal with H : _ \/ List.In _ _ |- _ => case: H => [//|/L []] end.
Qed.
(** With conditions at lateral boundaries only, the traces at the top and at the bottom have neither: their rows of the trace system vanish *)
Theorem lateral_only_traces_refuted : exists row_bcs markers s, (s = Top \/ s = Bottom) /\ row_bcs <> [::] /\
  let (constrained, dirichlet) := subdomains row_bcs markers in ~ List.In s constrained /\ ~ List.In s dirichlet.
Proof. exists [:: Lateral 1], [:: 1; 2]%N, Top. split; first by left. by split=> //=; split; intuition discriminate. Qed.
(** Lateral boundaries of the mesh: constrained if the velocity has a condition there, Dirichlet trace otherwise *)
Theorem traces_of_lateral row_bcs markers : row_bcs <> [::] ->
  let (constrained, dirichlet) := subdomains row_bcs markers in forall k, List.In k markers ->
  (List.In (Lateral k) constrained <-> List.In (Lateral k) row_bcs) /\ (List.In (Lateral k) dirichlet <-> ~ List.In (Lateral k) row_bcs).
Proof.
have inL k (l : seq subdomain) : reflect (List.In (Lateral k) l) (has (fun s => if s is Lateral j then j == k else false) l).
  elim: l => [|a l IH] /=; first by apply: (iffP idP).
  apply: (iffP orP) => [[|/IH]|[->|/IH]]; [by case: a => // j /eqP ->; left | by right | by left; exact: eqxx | by right].
have inM k (p : pred nat) (l : seq nat) : List.In (Lateral k) [seq Lateral m | m <- l & p m] <-> List.In k l /\ p k.
  elim: l => [|a l IH] /=; first by intuition.
  case: ifP => Hp /=; rewrite IH; split.
  - by case=> [[<-]|[]]; [split; [left|]|split; [right|]].
  - by case=> [[<-|] Hk]; [left|right].
  - by case=> ? ?; split; [right|].
  - by case=> [[E|] Hk]; [rewrite -E Hp in Hk|].
have inT k t : List.In (Lateral k) (if t then [:: Top] else [::]) <-> False by case: t; split=> //; case.
have inB k t : List.In (Lateral k) (if t then [:: Bottom] else [::]) <-> False by case: t; split=> //; case.
have inT' k t : List.In (Lateral k) (if t then [::] else [:: Top]) <-> False by case: t; split=> //; case.
have inB' k t : List.In (Lateral k) (if t then [::] else [:: Bottom]) <-> False by case: t; split=> //; case.
have inF k (x e : seq subdomain) : ~ List.In (Lateral k) x -> ~ List.In (Lateral k) (flatten [seq x | _ <- e]).
  move=> N; elim: e => [|a e IH] //= /List.in_app_iff [] //.
case: row_bcs => [//|a r] _. set l := a :: r. rewrite /subdomains -/l. move=> k Hk.
split; rewrite !List.in_app_iff inM.
  rewrite inT inB. split; [by case=> [[]|[_ /inL]] | by move=> /inL ?; right].
split.
  case=> [/inF []|[_ /inL]] //. by rewrite !List.in_app_iff inT' inB'; case.
by move=> /inL ?; right.
Qed.

(** ** Schur complements *)
Section SchurProps.
Variable F : fieldType.
Variables n0 n1 : nat.
Variables (A00 : 'M[F]_n0) (A01 : 'M[F]_(n0, n1)) (A10 : 'M[F]_(n1, n0)) (A11 : 'M[F]_n1).
Hypothesis U0 : A00 \in unitmx.
(** The split with the Schur complement solves the system exactly, and the Schur complement is invertible exactly if the system is *)
Theorem schur_split_exact : slate_schur A00 A01 A10 A11 \in unitmx -> forall r0 r1,
  let x := fieldsplit_full A00 A01 A10 (slate_schur A00 A01 A10 A11) r0 r1 in
  block_mx A00 A01 A10 A11 *m col_mx x.1 x.2 = col_mx r0 r1.
Proof.
move=> US r0 r1 /=. rewrite mul_block_col; congr col_mx.
  by rewrite mulmxBr !mulKVmx // subrK.
set x1 := invmx (slate_schur _ _ _ _) *m _. have E : slate_schur A00 A01 A10 A11 *m x1 = r1 - A10 *m (invmx A00 *m r0) by rewrite mulKVmx.
rewrite mulmxBr. move: E. rewrite /slate_schur mulmxBl => /(congr1 (fun z => z + A10 *m (invmx A00 *m r0))). rewrite subrK => <-.
by rewrite !mulmxA [RHS]addrC addrCA addrC addrCA addrA.
Qed.
Theorem schur_invertible : (slate_schur A00 A01 A10 A11 \in unitmx) = (block_mx A00 A01 A10 A11 \in unitmx).
Proof.
have -> : block_mx A00 A01 A10 A11 = block_mx 1%:M 0 (A10 *m invmx A00) 1%:M *m block_mx A00 A01 0 (slate_schur A00 A01 A10 A11).
  by rewrite mulmx_block !mul1mx !mul0mx !addr0 mulmxKV // /slate_schur (addrC _ (A11 - _)) subrK.
by rewrite [RHS]unitmxE det_mulmx det_lblock !det1 !mul1r det_ublock unitrM -!unitmxE U0.
Qed.
(** With any other matrix in its place the split does not solve the system for some right-hand side *)
Theorem wrong_schur_not_exact S : S \in unitmx -> S <> slate_schur A00 A01 A10 A11 -> exists r0 r1,
  let x := fieldsplit_full A00 A01 A10 S r0 r1 in block_mx A00 A01 A10 A11 *m col_mx x.1 x.2 <> col_mx r0 r1.
Proof.
move=> US NS. have [j Hj] : exists j, col j S != col j (slate_schur A00 A01 A10 A11).
  apply/existsP. apply: contra_notT NS => /existsPn H. apply/matrixP=> i j. have /negPn/eqP/matrixP/(_ i 0) := H j. by rewrite !mxE.
exists 0, (col j S). rewrite /fieldsplit_full /= mulmx0 mulmx0 subr0 sub0r colE mulKmx // => /eqP. apply/negP.
rewrite mul_block_col mulmxN mulKVmx // addNr mulmxN. apply: contra Hj => /eqP/eq_col_mx [_ E].
by rewrite colE colE -E /slate_schur mulmxBl !mulmxA addrC.
Qed.
End SchurProps.
(** The preset for the compressible Euler equations asks for the Schur complement of the same fields as the split *)
Theorem compressible_preset_consistent : slate_blocks compressible_nfields0 = compressible_split.
Proof. by []. Qed.
(** Without the option, the Schur complement is one of other fields than those of the split *)
Theorem default_nfields_refuted : slate_blocks None <> compressible_split.
Proof. by []. Qed.
Example schur_example : slate_schur (2%:R%:M : 'M[rat]_1) 1%:M 1%:M (3%:R%:M) \in unitmx.
Proof.
rewrite /slate_schur mul1mx mulmx1 unitmxE. have -> : invmx (2%:R%:M : 'M[rat]_1) = (2%:R^-1)%:M by rewrite invmx_scalar.
by rewrite -raddfB det_scalar unitfE expf_neq0.
Qed.

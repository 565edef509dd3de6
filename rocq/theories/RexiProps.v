(** Theorems about REXI: C59, C60. *)
From Verif Require Import Base Vec Complex ComplexProps Rexi.
Open Scope R_scope.

(** ** The partition of the solvers among the ranks (C59) *)
Definition rank_range (n P r : nat) : list nat := let s := my_solvers n (Some (r, P)) in seq (fst s) (snd s).
Lemma partition_prefix : forall n P r, (0 < P)%nat -> (r <= P)%nat ->
  concat (map (rank_range n P) (seq 0 r)) = seq 0 (r * (n / P) + Nat.min r (n - n / P * P)).
Proof.
  intros n P r HP. induction r as [|r IH]; intros Hr; [reflexivity|].
  rewrite seq_S, map_app, concat_app, IH by lia. cbn [map concat Nat.add]. rewrite app_nil_r.
  unfold rank_range, my_solvers. set (m := (n / P)%nat). set (p := (n - m * P)%nat).
  destruct (Nat.ltb_spec r p) as [L|L]; cbn [fst snd].
  - rewrite (Nat.min_l r p), (Nat.min_l (S r) p) by lia. replace (r * (m + 1))%nat with (r * m + r)%nat by lia.
    replace (S r * m + S r)%nat with ((r * m + r) + (m + 1))%nat by lia. rewrite (seq_app (r * m + r) (m + 1) 0). reflexivity.
  - rewrite (Nat.min_r r p), (Nat.min_r (S r) p) by lia. replace (S r * m + p)%nat with ((r * m + p) + m)%nat by lia. rewrite (seq_app (r * m + p) m 0). reflexivity.
Qed.
(** the ranks together do every solve exactly once, in order, for all numbers of solves and ranks *)
Theorem rexi_partition : forall n P, (0 < P)%nat -> concat (map (rank_range n P) (seq 0 P)) = seq 0 n.
Proof.
  intros n P HP. rewrite partition_prefix by auto. f_equal. pose proof (Nat.div_mod n P ltac:(lia)). pose proof (Nat.mod_upper_bound n P ltac:(lia)).
  rewrite Nat.min_r by nia. nia.
Qed.
(** no rank has more than one solve more than another *)
Theorem rexi_balanced : forall n P r1 r2, (length (rank_range n P r1) <= length (rank_range n P r2) + 1)%nat.
Proof.
  intros. unfold rank_range, my_solvers. repeat match goal with |- context [Nat.ltb ?a ?b] => destruct (Nat.ltb a b) end; cbn [fst snd]; rewrite !seq_length; lia.
Qed.
Definition term (alpha beta : list C) (w : C -> C) (j : nat) : R := fst (cmul (nth j beta c0) (w (nth j alpha c0))).
Definition lsum {A} (f : A -> R) (l : list A) : R := fold_right (fun x s => f x + s) 0 l.
Lemma lsum_app : forall A (f : A -> R) a b, lsum f (a ++ b) = lsum f a + lsum f b.
Proof. intros A f a b. induction a; simpl; [ring|]. rewrite IHa. ring. Qed.
Lemma lsum_ext : forall A (f g : A -> R) l, (forall x, In x l -> f x = g x) -> lsum f l = lsum g l.
Proof. intros A f g l H. induction l; simpl; auto. rewrite H, IHl by (simpl; auto; intros; apply H; simpl; auto). reflexivity. Qed.
Lemma fold_sum : forall A (f : A -> R) l x, fold_left (fun x a => x + f a) l x = x + lsum f l.
Proof. intros A f l. induction l; intros x; simpl; [ring|]. rewrite IHl. ring. Qed.
Lemma lsum_map : forall A B (f : B -> R) (g : A -> B) l, lsum f (map g l) = lsum (fun x => f (g x)) l.
Proof. intros. induction l; simpl; auto. rewrite IHl. reflexivity. Qed.
Lemma rexi_local_sum : forall alpha beta w range, rexi_local alpha beta w range = lsum (term alpha beta w) (seq (fst range) (snd range)).
Proof.
  intros alpha beta w [i n]. unfold rexi_local. cbn [fst snd]. cbv zeta.
  assert (Q : forall l x, fold_left (fun x k => x + fst (nth (i + k) beta c0) * fst (w (nth (i + k) alpha c0)) - snd (nth (i + k) beta c0) * snd (w (nth (i + k) alpha c0))) l x = x + lsum (term alpha beta w) (map (Nat.add i) l)).
  { induction l as [|k l IH]; intros x; simpl; [ring|]. rewrite IH. unfold term at 2, cmul. cbn [fst]. ring. }
  rewrite Q. rewrite Rplus_0_l. f_equal. clear. revert i. induction n; intros i; [reflexivity|]. rewrite !seq_S, map_app, IHn. reflexivity.
Qed.
(** C59: the parallel result is the serial one, on any number of ensemble ranks *)
Theorem rexi_parallel_is_serial : forall alpha beta w P, (0 < P)%nat -> rexi_solve alpha beta w (Some P) = rexi_solve alpha beta w None.
Proof.
  intros alpha beta w P HP. unfold rexi_solve. cbv zeta. rewrite fold_sum, Rplus_0_l. rewrite rexi_local_sum. cbn [my_solvers fst snd].
  rewrite <- (rexi_partition (length alpha) P HP). generalize (seq 0 P). induction l as [|r l IH]; [reflexivity|].
  cbn [map concat]. rewrite lsum_app, <- IH. cbn [lsum fold_right]. f_equal. apply rexi_local_sum.
Qed.

(** ** Complex arithmetic *)
Definition c1 : C := (1, 0).
Definition csub (a b : C) : C := cadd a (copp b).
Lemma C_ring : ring_theory c0 c1 cadd cmul csub copp eq.
Proof. constructor; intros; repeat match goal with x : C |- _ => destruct x end; unfold csub, cadd, cmul, copp, c0, c1; simpl; f_equal; ring. Qed.
Add Ring Cring : C_ring.
Lemma cscal_mul : forall r a, cscal r a = cmul (r, 0) a.
Proof. intros r [x y]. unfold cscal, cmul. simpl. f_equal; ring. Qed.
Lemma conj_add : forall a b, cconj (cadd a b) = cadd (cconj a) (cconj b).
Proof. intros [a a'] [b b']. unfold cconj, cadd. simpl. f_equal. ring. Qed.
Lemma conj_mul : forall a b, cconj (cmul a b) = cmul (cconj a) (cconj b).
Proof. intros [a a'] [b b']. unfold cconj, cmul. simpl. f_equal; ring. Qed.
Lemma conj_conj : forall a, cconj (cconj a) = a.
Proof. intros [a a']. unfold cconj. simpl. f_equal. ring. Qed.
Definition cinv (a : C) : C := let n := fst a * fst a + snd a * snd a in (fst a / n, - snd a / n).
Lemma cinv_r : forall a, a <> c0 -> cmul a (cinv a) = c1.
Proof.
  intros [x y] H. assert (x * x + y * y <> 0). { intros Q. apply H. unfold c0. assert (x = 0) by nra. assert (y = 0) by nra. congruence. }
  unfold cmul, cinv, c1. simpl. f_equal; field; auto.
Qed.
Fixpoint csum {A} (f : A -> C) (l : list A) : C := match l with [] => c0 | x :: r => cadd (f x) (csum f r) end.
Lemma csum_app : forall A (f : A -> C) a b, csum f (a ++ b) = cadd (csum f a) (csum f b).
Proof. intros A f a b. induction a; simpl; [ring|]. rewrite IHa. ring. Qed.
Lemma csum_ext : forall A (f g : A -> C) l, (forall x, In x l -> f x = g x) -> csum f l = csum g l.
Proof. intros A f g l H. induction l; simpl; auto. rewrite H, IHl by (simpl; auto; intros; apply H; simpl; auto). reflexivity. Qed.
Lemma csum_add : forall A (f g : A -> C) l, csum (fun x => cadd (f x) (g x)) l = cadd (csum f l) (csum g l).
Proof. intros. induction l; simpl; [ring|]. rewrite IHl. ring. Qed.
Lemma csum_mul : forall A c (f : A -> C) l, csum (fun x => cmul c (f x)) l = cmul c (csum f l).
Proof. intros. induction l; simpl; [ring|]. rewrite IHl. ring. Qed.
Lemma csum_conj : forall A (f : A -> C) l, csum (fun x => cconj (f x)) l = cconj (csum f l).
Proof. intros. induction l; simpl; [unfold cconj, c0; simpl; f_equal; ring|]. rewrite IHl, conj_add. reflexivity. Qed.
Lemma csum_map : forall A B (f : B -> C) (g : A -> B) l, csum f (map g l) = csum (fun x => f (g x)) l.
Proof. intros. induction l; simpl; auto. rewrite IHl. reflexivity. Qed.
Lemma csum_0 : forall A (l : list A), csum (fun _ => c0) l = c0.
Proof. intros. induction l; simpl; auto. rewrite IHl. ring. Qed.

(** ** The loop computes the convolution (C60) *)
Section Coefficients.
Variable K : rexi_constants.
Variable P : rexi_parameters.
Let L := rc_L K. Let M := rp_M P. Let h := rp_h P. Let N := (rp_M P + rc_L K)%nat.
Let b := b_coef h M.
Definition pairs : list (nat * nat) := list_prod (seq 0 (2 * rc_L K + 1)) (seq 0 (2 * rp_M P + 1)).
Definition t_re (lm : nat * nat) : C := cscal (fst (b (snd lm)) * h) (rc_a K (fst lm)).
Definition t_im (lm : nat * nat) : C := cscal (snd (b (snd lm)) * h) (rc_a K (fst lm)).
Definition pick (k : nat) (t : nat * nat -> C) (lm : nat * nat) : C := if Nat.eqb (fst lm + snd lm) k then t lm else c0.
Definition pole (k : nat) : C := cscal h (rc_mu K, INR k - INR N).
Lemma loop_state : forall l s, let '(al, br, bi) := fold_left (coef_body K P) l s in
  forall k, al k = (if existsb (fun lm => Nat.eqb (fst lm + snd lm) k) l then pole k else fst (fst s) k) /\
    br k = cadd (snd (fst s) k) (csum (pick k t_re) l) /\ bi k = cadd (snd s k) (csum (pick k t_im) l).
Proof.
  induction l as [|[i m] l IH]; intros [[al0 br0] bi0]; cbn [fold_left].
  - intros k. simpl. repeat split; ring.
  - specialize (IH (coef_body K P (al0, br0, bi0) (i, m))). destruct (fold_left (coef_body K P) l (coef_body K P (al0, br0, bi0) (i, m))) as [[al br] bi].
    intros k. destruct (IH k) as [E1 [E2 E3]]. rewrite E1, E2, E3. cbn [coef_body fst snd existsb csum]. unfold put, pick; cbn [fst snd].
    rewrite (Nat.eqb_sym k (i + m)). destruct (Nat.eqb_spec (i + m) k) as [<-|Ne]; cbn [orb].
    + split; [destruct (existsb _ l); reflexivity|]. unfold t_re, t_im, b, M, h. cbn [fst snd]. split; ring.
    + repeat split; ring.
Qed.
Lemma every_index : forall k, (k <= 2 * N)%nat -> existsb (fun lm => Nat.eqb (fst lm + snd lm) k) pairs = true.
Proof.
  intros k Hk. apply existsb_exists. exists (Nat.min k (2 * rc_L K), k - Nat.min k (2 * rc_L K))%nat. unfold N in Hk. split.
  - apply in_prod; apply in_seq; lia.
  - cbn [fst snd]. apply Nat.eqb_eq. lia.
Qed.
Definition bre (k : nat) : C := csum (pick k t_re) pairs.
Definition bim (k : nat) : C := csum (pick k t_im) pairs.
Lemma loop_result : let '(al, br, bi) := coef_loop K P in (forall k, (k <= 2 * N)%nat -> al k = pole k) /\ (forall k, br k = bre k) /\ (forall k, bi k = bim k).
Proof.
  unfold coef_loop. fold pairs. pose proof (loop_state pairs (fun _ => c0, fun _ => c0, fun _ => c0)) as H.
  destruct (fold_left (coef_body K P) pairs (fun _ => c0, fun _ => c0, fun _ => c0)) as [[al br] bi]. split; [|split].
  - intros k Hk. destruct (H k) as [E _]. rewrite E, every_index by auto. reflexivity.
  - intros k. destruct (H k) as [_ [E _]]. rewrite E. unfold bre. cbn [fst snd]. ring.
  - intros k. destruct (H k) as [_ [_ E]]. rewrite E. unfold bim. cbn [fst snd]. ring.
Qed.

(** the values the code assembles when the sum is not halved *)
Lemma full_lists : rp_half P = false ->
  rexi_coefficients K P =
  (map pole (seq 0 (2 * N + 1)) ++ map (fun k => copp (pole k)) (seq 0 (2 * N + 1)),
   map (bcoef bre bim) (seq 0 (2 * N + 1)) ++ map (fun k => dcoef (fun i => cconj (bre i)) (fun i => cconj (bim i)) (2 * N - k)) (seq 0 (2 * N + 1)),
   map (fun _ => c0) (seq 0 (2 * (2 * N + 1)))).
Proof.
  intros Hh. unfold rexi_coefficients. fold N. pose proof loop_result as H. destruct (coef_loop K P) as [[al br] bi]. destruct H as [H1 [H2 H3]]. rewrite Hh.
  assert (E : map al (seq 0 (2 * N + 1)) = map pole (seq 0 (2 * N + 1))) by (apply map_ext_in; intros k Hk; apply in_seq in Hk; apply H1; lia).
  rewrite E, map_map. f_equal. f_equal. f_equal.
  - apply map_ext. intros k. unfold bcoef. rewrite H2, H3. reflexivity.
  - apply map_ext. intros k. unfold dcoef. rewrite H2, H3. reflexivity.
Qed.
(** ... and when it is *)
Lemma half_lists : rp_half P = true ->
  rexi_coefficients K P =
  (map (fun j => pole (N + j)) (seq 0 (N + 1)) ++ map (fun j => copp (pole (N + j))) (seq 0 (N + 1)),
   map (fun j => cscal (if Nat.eqb j 0 then / 2 else 1) (bcoef bre bim (N + j))) (seq 0 (N + 1)) ++
   map (fun j => cscal (if Nat.eqb j 0 then / 2 else 1) (dcoef (fun i => cconj (bre i)) (fun i => cconj (bim i)) (N - j))) (seq 0 (N + 1)),
   map (fun j => cscal (if Nat.eqb j 0 then / 2 else 1) (bcoef bre bim (N - j))) (seq 0 (N + 1)) ++
   map (fun j => cscal (if Nat.eqb j 0 then / 2 else 1) (dcoef (fun i => cconj (bre i)) (fun i => cconj (bim i)) (N + j))) (seq 0 (N + 1))).
Proof.
  intros Hh. unfold rexi_coefficients. fold N. pose proof loop_result as H. destruct (coef_loop K P) as [[al br] bi]. destruct H as [H1 [H2 H3]]. rewrite Hh.
  assert (E : map (fun j => al (N + j)%nat) (seq 0 (N + 1)) = map (fun j => pole (N + j)) (seq 0 (N + 1))) by (apply map_ext_in; intros k Hk; apply in_seq in Hk; apply H1; lia).
  rewrite E, map_map.
  assert (Q1 : forall k j, (k = N <-> j = 0)%nat -> bcoef (half_at N br) (half_at N bi) k = cscal (if Nat.eqb j 0 then / 2 else 1) (bcoef bre bim k)).
  { intros k j Hkj. unfold bcoef, half_at, put. rewrite H2, H3. destruct (Nat.eqb_spec k N) as [->|Ne]; destruct (Nat.eqb_spec j 0) as [->|Nj]; try (exfalso; intuition congruence);
      rewrite ?H2, ?H3, !cscal_mul. - ring. - change ((1, 0) : C) with c1. ring. }
  assert (Q2 : forall k j, (k = N <-> j = 0)%nat -> dcoef (half_at N (fun i => cconj (br i))) (half_at N (fun i => cconj (bi i))) k = cscal (if Nat.eqb j 0 then / 2 else 1) (dcoef (fun i => cconj (bre i)) (fun i => cconj (bim i)) k)).
  { intros k j Hkj. unfold dcoef, half_at, put. rewrite H2, H3. destruct (Nat.eqb_spec k N) as [->|Ne]; destruct (Nat.eqb_spec j 0) as [->|Nj]; try (exfalso; intuition congruence);
      rewrite ?H2, ?H3, !cscal_mul. - ring. - change ((1, 0) : C) with c1. ring. }
  f_equal; [f_equal|]; f_equal; apply map_ext_in; intros j Hj; apply in_seq in Hj; first [apply Q1 | apply Q2]; lia.
Qed.
Lemma bcoef_conv : forall k, bcoef bre bim k = csum (pick k (fun lm => cmul (h / 2, 0) (cmul (b (snd lm)) (rc_a K (fst lm))))) pairs.
Proof.
  intros k. unfold bcoef, bre, bim. rewrite cscal_mul, <- csum_mul, <- csum_add, <- csum_mul. apply csum_ext. intros lm _. unfold pick.
  destruct (Nat.eqb _ k); [|ring]. unfold t_re, t_im. destruct (b (snd lm)) as [x y], (rc_a K (fst lm)) as [u v]. unfold cmul, cadd, cscal, ci. cbn [fst snd]. f_equal; field.
Qed.
Lemma dcoef_conv : forall k, dcoef (fun i => cconj (bre i)) (fun i => cconj (bim i)) k = csum (pick k (fun lm => copp (cmul (h / 2, 0) (cmul (b (snd lm)) (cconj (rc_a K (fst lm))))))) pairs.
Proof.
  intros k. unfold dcoef, bre, bim. rewrite cscal_mul, <- !csum_conj.
  replace (cadd (copp (csum (fun x => cconj (pick k t_re x)) pairs)) (copp (cmul ci (csum (fun x => cconj (pick k t_im x)) pairs))))
    with (cmul (copp c1) (cadd (csum (fun x => cconj (pick k t_re x)) pairs) (cmul ci (csum (fun x => cconj (pick k t_im x)) pairs)))) by ring.
  rewrite <- (csum_mul _ ci), <- csum_add, <- !csum_mul. apply csum_ext. intros lm _. unfold pick.
  destruct (Nat.eqb _ k); [|unfold cconj, c0, cmul, cadd, ci; simpl; f_equal; ring]. unfold t_re, t_im. destruct (b (snd lm)) as [x y], (rc_a K (fst lm)) as [u v]. unfold cmul, cadd, cscal, ci, cconj, copp, c1. cbn [fst snd]. f_equal; field.
Qed.
Lemma exchange : forall (t : nat * nat -> C) (g : nat -> C) n, (forall lm, In lm pairs -> fst lm + snd lm < n)%nat ->
  csum (fun k => cmul (csum (pick k t) pairs) (g k)) (seq 0 n) = csum (fun lm => cmul (t lm) (g (fst lm + snd lm)%nat)) pairs.
Proof.
  intros t g n. induction pairs as [|lm l IH]; intros Hb.
  - simpl. transitivity (csum (fun _ : nat => c0) (seq 0 n)); [apply csum_ext; intros; ring | apply csum_0].
  - cbn [csum]. rewrite <- IH by (intros; apply Hb; right; auto).
    transitivity (cadd (csum (fun k => cmul (pick k t lm) (g k)) (seq 0 n)) (csum (fun k => cmul (csum (pick k t) l) (g k)) (seq 0 n))).
    { rewrite <- csum_add. apply csum_ext. intros. ring. }
    f_equal. assert (Hlt := Hb lm (or_introl eq_refl)). clear -Hlt.
    assert (Q : forall s, csum (fun k => cmul (pick k t lm) (g k)) (seq s n) = if (Nat.leb s (fst lm + snd lm) && Nat.ltb (fst lm + snd lm) (s + n))%bool then cmul (t lm) (g (fst lm + snd lm)%nat) else c0).
    { clear Hlt. induction n as [|n IH]; intros s; cbn [seq csum].
      - destruct (Nat.leb_spec s (fst lm + snd lm)), (Nat.ltb_spec (fst lm + snd lm) (s + 0)); simpl; auto; lia.
      - rewrite IH. unfold pick at 1. destruct (Nat.eqb_spec (fst lm + snd lm) s) as [E|E].
        + subst s. destruct (Nat.leb_spec (S (fst lm + snd lm)) (fst lm + snd lm)); [lia|]. cbn [andb].
          destruct (Nat.leb_spec (fst lm + snd lm) (fst lm + snd lm)); [|lia]. destruct (Nat.ltb_spec (fst lm + snd lm) (fst lm + snd lm + S n)); [|lia]. cbn [andb]. ring.
        + destruct (Nat.leb_spec (S s) (fst lm + snd lm)), (Nat.leb_spec s (fst lm + snd lm)), (Nat.ltb_spec (fst lm + snd lm) (S s + n)), (Nat.ltb_spec (fst lm + snd lm) (s + S n)); cbn [andb]; try lia; ring. }
    rewrite Q. destruct (Nat.ltb_spec (fst lm + snd lm) (0 + n)); [|lia]. reflexivity.
Qed.
Lemma pairs_bound : forall lm, In lm pairs -> (fst lm <= 2 * L /\ snd lm <= 2 * M /\ fst lm + snd lm <= 2 * N)%nat.
Proof. intros [l m] H. apply in_prod_iff in H. rewrite !in_seq in H. cbn [fst snd]. unfold L, M, N. lia. Qed.
End Coefficients.


(** ** Statements about the coefficients (C60) *)
(** the documented coefficients: alpha_n = h(mu + i n), beta_n = h/2 * sum over l+m=n of b_m a_l *)
Definition documented_beta (K : rexi_constants) (P : rexi_parameters) (a : nat -> C) (k : nat) : C :=
  csum (fun l => if (Nat.leb l k && Nat.leb (k - l) (2 * rp_M P))%bool then cmul (rp_h P / 2, 0) (cmul (b_coef (rp_h P) (rp_M P) (k - l)) (a l)) else c0) (seq 0 (2 * rc_L K + 1)).
Lemma csum_prod : forall A B (f : A * B -> C) (l : list A) (m : list B), csum f (list_prod l m) = csum (fun x => csum (fun y => f (x, y)) m) l.
Proof. intros A B f l m. induction l as [|x l IH]; [reflexivity|]. cbn [list_prod csum]. rewrite csum_app, csum_map, IH. reflexivity. Qed.
Lemma csum_single : forall (f : nat -> C) (j s n : nat), csum (fun m => if Nat.eqb m j then f m else c0) (seq s n) = if (Nat.leb s j && Nat.ltb j (s + n))%bool then f j else c0.
Proof.
  intros f j s n. revert s. induction n as [|n IH]; intros s; cbn [seq csum].
  - destruct (Nat.leb_spec s j), (Nat.ltb_spec j (s + 0)); cbn [andb]; auto; lia.
  - rewrite IH. destruct (Nat.eqb_spec s j) as [->|E].
    + destruct (Nat.leb_spec (S j) j); [lia|]. destruct (Nat.leb_spec j j); [|lia]. destruct (Nat.ltb_spec j (j + S n)); [|lia]. cbn [andb]. ring.
    + destruct (Nat.leb_spec (S s) j), (Nat.leb_spec s j), (Nat.ltb_spec j (S s + n)), (Nat.ltb_spec j (s + S n)); cbn [andb]; try lia; ring.
Qed.
Lemma pick_inner : forall K P k (t : nat * nat -> C),
  csum (pick k t) (pairs K P) = csum (fun l => if (Nat.leb l k && Nat.leb (k - l) (2 * rp_M P))%bool then t (l, k - l)%nat else c0) (seq 0 (2 * rc_L K + 1)).
Proof.
  intros. unfold pairs. rewrite csum_prod. apply csum_ext. intros l _.
  destruct (Nat.leb_spec l k) as [E|E]; cbn [andb].
  - transitivity (csum (fun m => if Nat.eqb m (k - l) then t (l, m) else c0) (seq 0 (2 * rp_M P + 1))).
    + apply csum_ext. intros m _. unfold pick. cbn [fst snd]. destruct (Nat.eqb_spec (l + m) k), (Nat.eqb_spec m (k - l)); auto; lia.
    + rewrite (csum_single (fun m => t (l, m))). cbn [Nat.leb andb]. destruct (Nat.ltb_spec (k - l) (0 + (2 * rp_M P + 1))), (Nat.leb_spec (k - l) (2 * rp_M P)); auto; lia.
  - transitivity (csum (fun _ : nat => c0) (seq 0 (2 * rp_M P + 1))); [|apply csum_0].
    apply csum_ext. intros m _. unfold pick. cbn [fst snd]. destruct (Nat.eqb_spec (l + m) k); auto; lia.
Qed.
(** The poles and coefficients of the full sum: 2N+1 poles h(mu + i n) with n = -N..N and the
    convolution as coefficient, then the negatives of these poles; the one of index n has minus the
    convolution with the conjugate coefficients, of index -n *)
Theorem rexi_full_coefficients : forall K P alpha beta beta2, rp_half P = false -> rexi_coefficients K P = (alpha, beta, beta2) ->
  let N := (rp_M P + rc_L K)%nat in
  length alpha = (2 * (2 * N + 1))%nat /\ length beta = length alpha /\
  forall k, (k <= 2 * N)%nat ->
    nth k alpha c0 = (rp_h P * rc_mu K, rp_h P * (INR k - INR N)) /\
    nth (2 * N + 1 + k) alpha c0 = copp (nth k alpha c0) /\
    nth k beta c0 = documented_beta K P (rc_a K) k /\
    nth (2 * N + 1 + k) beta c0 = copp (documented_beta K P (fun l => cconj (rc_a K l)) (2 * N - k)).
Proof.
  intros K P alpha beta beta2 Hh E N. rewrite full_lists in E by auto. apply pair_equal_spec in E as [E <-]; apply pair_equal_spec in E as [<- <-]. fold N.
  rewrite !app_length, !map_length, !seq_length. split; [lia|]. split; [lia|]. intros k Hk.
  assert (Q : forall (f : nat -> C) j, (j < 2 * N + 1)%nat -> nth j (map f (seq 0 (2 * N + 1))) c0 = f j).
  { intros f j Hj. rewrite (nth_indep _ c0 (f 0%nat)) by (rewrite map_length, seq_length; auto). rewrite map_nth, seq_nth by auto. reflexivity. }
  assert (Q2 : forall (f : nat -> C) (l : list C), nth (2 * N + 1 + k) (map f (seq 0 (2 * N + 1)) ++ l) c0 = nth k l c0).
  { intros f l. rewrite app_nth2 by (rewrite map_length, seq_length; lia). rewrite map_length, seq_length. f_equal. lia. }
  assert (Q3 : forall (f : nat -> C) (l : list C), nth k (map f (seq 0 (2 * N + 1)) ++ l) c0 = f k).
  { intros f l. rewrite app_nth1 by (rewrite map_length, seq_length; lia). apply Q. lia. }
  rewrite !Q2, !Q3, !Q by lia.
  repeat split; auto.
  - rewrite bcoef_conv, pick_inner. unfold documented_beta. apply csum_ext. intros l _. reflexivity.
  - rewrite dcoef_conv, pick_inner. unfold documented_beta.
    transitivity (cmul (copp c1) (csum (fun l => if (Nat.leb l (2 * N - k) && Nat.leb (2 * N - k - l) (2 * rp_M P))%bool then cmul (rp_h P / 2, 0) (cmul (b_coef (rp_h P) (rp_M P) (2 * N - k - l)) (cconj (rc_a K l))) else c0) (seq 0 (2 * rc_L K + 1)))); [|ring].
    rewrite <- csum_mul. apply csum_ext. intros l _. cbn [fst snd]. destruct (_ && _)%bool; ring.
Qed.

(** The approximation of the Gaussian by real parts of rational functions, and of exp(ix) by Gaussians *)
Definition psi (K : rexi_constants) (y : R) : R :=          (* Re sum_l a_l / (i y + mu + i l) *)
  fst (csum (fun l => cmul (rc_a K l) (cinv (rc_mu K, y + (INR l - INR (rc_L K))))) (seq 0 (2 * rc_L K + 1))).
Definition exp_approx (K : rexi_constants) (h : R) (M : nat) (x : R) : C :=   (* sum_m b_m psi((x + m h)/h) *)
  csum (fun m => cmul (b_coef h M m) (psi K ((x + (INR m - INR M) * h) / h), 0)) (seq 0 (2 * M + 1)).
Lemma csum_swap : forall A B (f : A -> B -> C) (l : list A) (m : list B), csum (fun x => csum (fun y => f x y) m) l = csum (fun y => csum (fun x => f x y) l) m.
Proof. intros A B f l m. induction l as [|x l IH]; simpl; [symmetry; apply csum_0|]. rewrite IH, <- csum_add. reflexivity. Qed.
Definition rexi_sum (alpha beta : list C) (g : C -> C) : C := csum (fun ab => cmul (snd ab) (g (fst ab))) (combine alpha beta).
Lemma combine_app : forall A B (a1 a2 : list A) (b1 b2 : list B), length a1 = length b1 -> combine (a1 ++ a2) (b1 ++ b2) = combine a1 b1 ++ combine a2 b2.
Proof. intros A B a1. induction a1 as [|x a1 IH]; intros a2 [|y b1] b2 H; simpl in *; try lia; auto. rewrite IH by lia. reflexivity. Qed.
Lemma combine_map : forall A B D (f : A -> B) (g : A -> D) l, combine (map f l) (map g l) = map (fun x => (f x, g x)) l.
Proof. intros. induction l; simpl; auto. rewrite IHl. reflexivity. Qed.
Lemma csum_rev : forall (f : nat -> C) n, csum (fun k => f (n - k)%nat) (seq 0 (n + 1)) = csum f (seq 0 (n + 1)).
Proof.
  intros f n. replace (n + 1)%nat with (S n) by lia. induction n as [|n IH]; [reflexivity|].
  transitivity (csum (fun k => f (S n - k)%nat) (0%nat :: map S (seq 0 (S n)))); [rewrite seq_shift; reflexivity|].
  rewrite (seq_S (S n) 0), csum_app. cbn [csum Nat.add]. rewrite csum_map, <- IH.
  transitivity (cadd (f (S n)) (csum (fun k => f (n - k)%nat) (seq 0 (S n)))); [reflexivity|]. ring.
Qed.
Lemma conj_cinv : forall a, cconj (cinv a) = cinv (cconj a).
Proof. intros [x y]. unfold cconj, cinv. cbn [fst snd]. f_equal; [f_equal; ring|]. unfold Rdiv. replace (x * x + - y * - y) with (x * x + y * y) by ring. ring. Qed.
Lemma cinv_opp : forall a, cinv (copp a) = copp (cinv a).
Proof. intros [x y]. unfold copp, cinv. cbn [fst snd]. replace (- x * - x + - y * - y) with (x * x + y * y) by ring. unfold Rdiv. f_equal; ring. Qed.
Lemma cinv_scal : forall h a, h <> 0 -> a <> c0 -> cmul (h, 0) (cinv (cmul (h, 0) a)) = cinv a.
Proof.
  intros h [x y] Hh H. assert (x * x + y * y <> 0). { intros Q. apply H. unfold c0. assert (x = 0) by nra. assert (y = 0) by nra. congruence. }
  assert (h * h * (x * x + y * y) <> 0). { intros Q. apply Rmult_integral in Q as [H1|H1]; [nra|auto]. }
  unfold cmul, cinv. cbn [fst snd].
  replace (h * x - 0 * y) with (h * x) by ring. replace (h * y + 0 * x) with (h * y) by ring. replace (h * x * (h * x) + h * y * (h * y)) with (h * h * (x * x + y * y)) by ring. f_equal; field; split; auto.
Qed.
Definition shifted (x : R) (alpha : C) : C := (fst alpha, x + snd alpha).   (* ix + alpha *)
(** C60: the rational sum with the computed coefficients is the approximation of exp(ix), for every
    set of constants with a real mu, every h, M and x *)
Theorem rexi_sum_is_exp_approx : forall K P alpha beta beta2, rp_half P = false -> rp_h P <> 0 -> rc_mu K <> 0 ->
  rexi_coefficients K P = (alpha, beta, beta2) ->
  forall x, rexi_sum alpha beta (fun a => cinv (shifted x a)) = exp_approx K (rp_h P) (rp_M P) x.
Proof.
  intros K P alpha beta beta2 Hh Hz Hmu E x. rewrite full_lists in E by auto. apply pair_equal_spec in E as [E <-]; apply pair_equal_spec in E as [<- <-].
  set (N := (rp_M P + rc_L K)%nat). set (g := fun a => cinv (shifted x a)).
  unfold rexi_sum. rewrite combine_app by (rewrite !map_length; reflexivity). rewrite csum_app, !combine_map, !csum_map. cbn [fst snd].
  (* the second half, reversed *)
  rewrite (csum_ext _ (fun x0 => cmul (dcoef (fun i => cconj (bre K P i)) (fun i => cconj (bim K P i)) (2 * N - x0)) (g (copp (pole K P x0))))
             (fun x0 => (fun j => cmul (dcoef (fun i => cconj (bre K P i)) (fun i => cconj (bim K P i)) j) (copp (cconj (g (pole K P j))))) (2 * N - x0)%nat)).
  2:{ intros k Hk. apply in_seq in Hk. cbv beta. f_equal. unfold g. rewrite conj_cinv, <- cinv_opp. f_equal. unfold shifted, pole, cscal, copp, cconj. fold N. cbn [fst snd].
      rewrite minus_INR by lia. replace (2 * N)%nat with (N + N)%nat by lia. rewrite plus_INR. f_equal; ring. }
  rewrite (csum_rev (fun j => cmul (dcoef (fun i => cconj (bre K P i)) (fun i => cconj (bim K P i)) j) (copp (cconj (g (pole K P j)))))).
  assert (Hb : forall lm, In lm (pairs K P) -> (fst lm + snd lm < 2 * N + 1)%nat) by (intros lm H; apply pairs_bound in H; unfold N; lia).
  rewrite (csum_ext _ _ (fun k => cmul (csum (pick k (fun lm => cmul (rp_h P / 2, 0) (cmul (b_coef (rp_h P) (rp_M P) (snd lm)) (rc_a K (fst lm))))) (pairs K P)) (g (pole K P k)))) by (intros; rewrite bcoef_conv; reflexivity).
  rewrite (exchange K P _ (fun k => g (pole K P k)) _ Hb).
  rewrite (csum_ext _ (fun j => cmul (dcoef _ _ j) _) (fun k => cmul (csum (pick k (fun lm => copp (cmul (rp_h P / 2, 0) (cmul (b_coef (rp_h P) (rp_M P) (snd lm)) (cconj (rc_a K (fst lm))))))) (pairs K P)) (copp (cconj (g (pole K P k)))))) by (intros; rewrite dcoef_conv; reflexivity).
  rewrite (exchange K P _ (fun k => copp (cconj (g (pole K P k)))) _ Hb).
  rewrite <- csum_add. unfold pairs. rewrite csum_prod. rewrite csum_swap. unfold exp_approx. apply csum_ext. intros m Hm. cbn [fst snd].
  unfold psi. set (B := b_coef (rp_h P) (rp_M P) m).
  set (F := fun l => cmul (rc_a K l) (cinv (rc_mu K, (x + (INR m - INR (rp_M P)) * rp_h P) / rp_h P + (INR l - INR (rc_L K))))).
  transitivity (csum (fun l => cmul B (cmul (/ 2, 0) (cadd (F l) (cconj (F l))))) (seq 0 (2 * rc_L K + 1))).
  - apply csum_ext. intros l Hl. unfold F. rewrite conj_mul.
    set (z := ((rc_mu K, (x + (INR m - INR (rp_M P)) * rp_h P) / rp_h P + (INR l - INR (rc_L K))) : C)).
    assert (Z : z <> c0) by (unfold z, c0; intros Q; inversion Q; auto).
    assert (G : g (pole K P (l + m)) = cinv (cmul (rp_h P, 0) z)).
    { unfold g, z, shifted, pole, cscal, cmul. cbn [fst snd]. f_equal. rewrite !plus_INR. f_equal; field; auto. }
    rewrite G. rewrite <- (cinv_scal (rp_h P) z Hz Z). set (y := cinv (cmul (rp_h P, 0) z)). rewrite !conj_mul.
    replace (cconj ((rp_h P, 0) : C)) with ((rp_h P, 0) : C) by (unfold cconj; simpl; f_equal; ring).
    replace ((rp_h P / 2, 0) : C) with (cmul (/ 2, 0) (rp_h P, 0)) by (unfold cmul; simpl; f_equal; field). ring.
  - rewrite csum_mul. f_equal. rewrite csum_mul, csum_add, csum_conj. destruct (csum F _) as [u v]. unfold cmul, cadd, cconj. cbn [fst snd]. f_equal; field.
Qed.

(** What solve returns is the real part of the sum *)
Lemma rexi_solve_sum : forall alpha beta w, length alpha = length beta -> rexi_solve alpha beta w None = fst (rexi_sum alpha beta w).
Proof.
  intros alpha beta w. unfold rexi_solve. rewrite rexi_local_sum. cbn [my_solvers fst snd]. unfold rexi_sum. revert beta.
  induction alpha as [|a alpha IH]; intros [|b beta] H; simpl in H; try lia; [reflexivity|]. cbn [length seq lsum fold_right combine csum].
  rewrite <- seq_shift. change (fold_right (fun x s => term (a :: alpha) (b :: beta) w x + s) 0 (map S (seq 0 (length alpha)))) with (lsum (term (a :: alpha) (b :: beta) w) (map S (seq 0 (length alpha)))).
  rewrite lsum_map. unfold cadd. cbn [fst]. f_equal. rewrite <- IH by lia. apply lsum_ext. intros j _. reflexivity.
Qed.

(** ** Conjugate symmetry of the systems: the solution for conj(alpha) is the conjugate of the one
    for alpha, for all forms odd in their arguments (linear forms are) and all numbers of components *)
Section Conjugate.
Context {D : Type} (neg : D -> D) (mass func : list D -> list D -> R) (U : list D).
Hypothesis mass_odd_l : forall u v, mass (map neg u) v = - mass u v.
Hypothesis mass_odd_r : forall u v, mass u (map neg v) = - mass u v.
Hypothesis func_odd_l : forall u v, func (map neg u) v = - func u v.
Hypothesis func_odd_r : forall u v, func u (map neg v) = - func u v.
Theorem rexi_system_conjugate : forall tau alpha n (wr wi : list D), length wr = n -> length wi = n ->
  (forall vr vi, length vr = n -> length vi = n -> rexi_system mass func U tau alpha (interleave wr wi) (interleave vr vi)) ->
  (forall vr vi, length vr = n -> length vi = n -> rexi_system mass func U tau (cconj alpha) (interleave wr (map neg wi)) (interleave vr vi)).
Proof.
  intros tau [ar ai] n wr wi Er Ei H vr vi Fr Fi. specialize (H vr (map neg vi) Fr). rewrite map_length in H. specialize (H Fi).
  unfold rexi_system, twoform, oneform in *. rewrite !every_second_re, !every_second_im in H by (rewrite ?map_length; congruence).
  rewrite !every_second_re, !every_second_im by (rewrite ?map_length; congruence). cbn [fst snd cconj] in *.
  rewrite ?mass_odd_l, ?mass_odd_r, ?func_odd_l, ?func_odd_r in *. lra.
Qed.
End Conjugate.

(** ** Halving the sum *)
Lemma lsum_add : forall A (f g : A -> R) l, lsum (fun x => f x + g x) l = lsum f l + lsum g l.
Proof. intros. induction l; simpl; [ring|]. rewrite IHl. ring. Qed.
Lemma lsum_scal : forall A c (f : A -> R) l, lsum (fun x => c * f x) l = c * lsum f l.
Proof. intros. induction l; simpl; [ring|]. rewrite IHl. ring. Qed.
Lemma lsum_csum : forall A (f : A -> C) l, fst (csum f l) = lsum (fun x => fst (f x)) l.
Proof. intros. induction l; simpl; auto. rewrite IHl. reflexivity. Qed.
Definition wt (j : nat) : R := if Nat.eqb j 0 then / 2 else 1.
Lemma fold_about_middle : forall (f : nat -> R) N, lsum f (seq 0 (2 * N + 1)) = lsum (fun j => wt j * f (N + j)%nat + wt j * f (N - j)%nat) (seq 0 (N + 1)).
Proof.
  intros f N.
  assert (Q : forall n, (n <= N)%nat -> lsum f (seq (N - n) (2 * n + 1)) = lsum (fun j => wt j * f (N + j)%nat + wt j * f (N - j)%nat) (seq 0 (n + 1))).
  { induction n as [|n IH]; intros Hn.
    - cbn. rewrite Nat.sub_0_r, Nat.add_0_r. unfold wt. simpl. field.
    - replace (2 * S n + 1)%nat with (S (2 * n + 1) + 1)%nat by lia. rewrite seq_app, lsum_app. cbn [seq lsum fold_right].
      replace (S (N - S n)) with (N - n)%nat by lia. replace (N - S n + S (2 * n + 1))%nat with (N + S n)%nat by lia.
      replace (S n + 1)%nat with ((n + 1) + 1)%nat by lia. rewrite (seq_app (n + 1) 1 0), lsum_app. cbn [seq lsum fold_right Nat.add].
      replace (n + 1)%nat with (S n) in * by lia. unfold lsum in *. rewrite <- IH by lia. unfold wt. cbn [Nat.eqb]. ring. }
  specialize (Q N (Nat.le_refl N)). rewrite Nat.sub_diag in Q. exact Q.
Qed.
Definition with_half (P : rexi_parameters) (b : bool) : rexi_parameters := {| rp_h := rp_h P; rp_M := rp_M P; rp_half := b |}.
Definition real_problem (w : C -> C) : Prop := forall a, w (cconj a) = cconj (w a).
Lemma pole_conj : forall K P k, (k <= 2 * (rp_M P + rc_L K))%nat -> pole K P (2 * (rp_M P + rc_L K) - k) = cconj (pole K P k).
Proof.
  intros K P k Hk. unfold pole, cscal, cconj. cbn [fst snd]. rewrite minus_INR by lia. set (N := (rp_M P + rc_L K)%nat). replace (2 * N)%nat with (N + N)%nat by lia. rewrite plus_INR. f_equal; ring.
Qed.
Lemma pole_conj_mid : forall K P j, (j <= rp_M P + rc_L K)%nat -> pole K P (rp_M P + rc_L K - j) = cconj (pole K P (rp_M P + rc_L K + j)).
Proof. intros K P j Hj. rewrite <- pole_conj by lia. f_equal. lia. Qed.
(** With the coefficients beta2 on the conjugates of the solutions the halved sum is the full sum, for
    all constants, all h and M and all real problems *)
Theorem half_with_beta2_is_full : forall K P w alpha beta beta2 alphaF betaF b2F, real_problem w ->
  rexi_coefficients K (with_half P true) = (alpha, beta, beta2) ->
  rexi_coefficients K (with_half P false) = (alphaF, betaF, b2F) ->
  rexi_solve alpha beta w None + rexi_solve alpha beta2 (fun a => cconj (w a)) None = rexi_solve alphaF betaF w None.
Proof.
  intros K P w alpha beta beta2 alphaF betaF b2F Hw E F. rewrite half_lists in E by reflexivity. rewrite full_lists in F by reflexivity.
  apply pair_equal_spec in E as [E <-]; apply pair_equal_spec in E as [<- <-]. apply pair_equal_spec in F as [F _]; apply pair_equal_spec in F as [<- <-].
  cbn [with_half rp_M rp_h]. set (N := (rp_M P + rc_L K)%nat).
  rewrite !rexi_solve_sum by (rewrite !app_length, !map_length; reflexivity). unfold rexi_sum.
  rewrite !combine_app by (rewrite !map_length; reflexivity). rewrite !csum_app, !combine_map, !csum_map. unfold cadd. cbn [fst snd].
  rewrite !lsum_csum, !fold_about_middle, !lsum_add.
  set (BR := bre K (with_half P true)). set (BI := bim K (with_half P true)).
  change (bre K (with_half P false)) with BR. change (bim K (with_half P false)) with BI.
  change (pole K (with_half P true)) with (pole K P). change (pole K (with_half P false)) with (pole K P).
  assert (S1 : forall (f g : nat -> R), (forall j, (j <= N)%nat -> f j = g j) -> lsum f (seq 0 (N + 1)) = lsum g (seq 0 (N + 1))).
  { intros f g Q. apply lsum_ext. intros j Hj. apply in_seq in Hj. apply Q. lia. }
  assert (W : forall r a b, fst (cmul (cscal r a) b) = r * fst (cmul a b)) by (intros r [a a'] [b b']; unfold cmul, cscal; cbn [fst snd]; ring).
  assert (CO : forall a, copp (cconj a) = cconj (copp a)) by (intros [x y]; reflexivity).
  rewrite (S1 (fun j => wt j * fst (cmul (bcoef BR BI (N - j)) (w (pole K P (N - j))))) (fun j => fst (cmul (cscal (if Nat.eqb j 0 then / 2 else 1) (bcoef BR BI (N - j))) (cconj (w (pole K P (N + j))))))).
  2:{ intros j Hj. rewrite W. unfold N. rewrite pole_conj_mid, Hw by auto. reflexivity. }
  rewrite (S1 (fun j => wt j * fst (cmul (bcoef BR BI (N + j)) (w (pole K P (N + j))))) (fun j => fst (cmul (cscal (if Nat.eqb j 0 then / 2 else 1) (bcoef BR BI (N + j))) (w (pole K P (N + j)))))).
  2:{ intros j Hj. rewrite W. reflexivity. }
  set (DC := dcoef (fun i => cconj (BR i)) (fun i => cconj (BI i))).
  rewrite (S1 (fun j => wt j * fst (cmul (DC (2 * N - (N + j))%nat) (w (copp (pole K P (N + j)))))) (fun j => fst (cmul (cscal (if Nat.eqb j 0 then / 2 else 1) (DC (N - j)%nat)) (w (copp (pole K P (N + j))))))).
  2:{ intros j Hj. rewrite W. replace (2 * N - (N + j))%nat with (N - j)%nat by lia. reflexivity. }
  rewrite (S1 (fun j => wt j * fst (cmul (DC (2 * N - (N - j))%nat) (w (copp (pole K P (N - j)))))) (fun j => fst (cmul (cscal (if Nat.eqb j 0 then / 2 else 1) (DC (N + j)%nat)) (cconj (w (copp (pole K P (N + j)))))))).
  2:{ intros j Hj. rewrite W. replace (2 * N - (N - j))%nat with (N + j)%nat by lia. unfold N. rewrite pole_conj_mid, CO, Hw by auto. reflexivity. }
  ring.
Qed.

(** ... but solve does not use beta2.  For constants with a_{-l} = conj(a_l) (the 'caliari' table is
    built that way) its result with reduce_to_half is exactly half of the full one, for all h, M and
    real problems *)
Definition conjugate_constants (K : rexi_constants) : Prop := forall l, (l <= 2 * rc_L K)%nat -> rc_a K (2 * rc_L K - l)%nat = cconj (rc_a K l).
Lemma b_coef_conj : forall h M m, (m <= 2 * M)%nat -> b_coef h M (2 * M - m) = cconj (b_coef h M m).
Proof.
  intros h M m Hm. unfold b_coef, cconj. cbn [fst snd]. rewrite minus_INR by lia. replace (2 * M)%nat with (M + M)%nat by lia. rewrite plus_INR.
  replace (- ((INR M + INR M - INR m - INR M) * h)) with (- - ((INR m - INR M) * h)) by ring. rewrite (cos_neg (- ((INR m - INR M) * h))), (sin_neg (- ((INR m - INR M) * h))). f_equal. ring.
Qed.
Lemma csum_pairs_rev : forall K P (f : nat * nat -> C), csum f (pairs K P) = csum (fun lm => f (2 * rc_L K - fst lm, 2 * rp_M P - snd lm)%nat) (pairs K P).
Proof.
  intros K P f. unfold pairs. rewrite !csum_prod. cbn [fst snd].
  rewrite <- (csum_rev (fun x => csum (fun y => f (x, y)) (seq 0 (2 * rp_M P + 1))) (2 * rc_L K)). apply csum_ext. intros l _. cbv beta.
  rewrite <- (csum_rev (fun y => f (2 * rc_L K - l, y)%nat) (2 * rp_M P)). reflexivity.
Qed.
Lemma bcoef_conj : forall K P k, conjugate_constants K -> (k <= 2 * (rp_M P + rc_L K))%nat ->
  bcoef (bre K P) (bim K P) (2 * (rp_M P + rc_L K) - k) = cconj (bcoef (bre K P) (bim K P) k).
Proof.
  intros K P k HK Hk. rewrite !bcoef_conv, <- csum_conj, csum_pairs_rev. apply csum_ext. intros lm Hlm. apply pairs_bound in Hlm as [B1 [B2 B3]]. unfold pick. cbn [fst snd].
  destruct (Nat.eqb_spec (2 * rc_L K - fst lm + (2 * rp_M P - snd lm)) (2 * (rp_M P + rc_L K) - k)), (Nat.eqb_spec (fst lm + snd lm) k); try lia.
  - rewrite !conj_mul, HK, b_coef_conj by auto. f_equal. unfold cconj. cbn [fst snd]. f_equal. ring.
  - unfold cconj, c0. simpl. f_equal. ring.
Qed.
Lemma dcoef_conj : forall K P k, conjugate_constants K -> (k <= 2 * (rp_M P + rc_L K))%nat ->
  dcoef (fun i => cconj (bre K P i)) (fun i => cconj (bim K P i)) (2 * (rp_M P + rc_L K) - k) = cconj (dcoef (fun i => cconj (bre K P i)) (fun i => cconj (bim K P i)) k).
Proof.
  intros K P k HK Hk. rewrite !dcoef_conv, <- csum_conj, csum_pairs_rev. apply csum_ext. intros lm Hlm. apply pairs_bound in Hlm as [B1 [B2 B3]]. unfold pick. cbn [fst snd].
  destruct (Nat.eqb_spec (2 * rc_L K - fst lm + (2 * rp_M P - snd lm)) (2 * (rp_M P + rc_L K) - k)), (Nat.eqb_spec (fst lm + snd lm) k); try lia.
  - transitivity (copp (cconj (cmul (rp_h P / 2, 0) (cmul (b_coef (rp_h P) (rp_M P) (snd lm)) (cconj (rc_a K (fst lm))))))).
    + f_equal. rewrite !conj_mul, HK, b_coef_conj by auto. f_equal. unfold cconj. cbn [fst snd]. f_equal. ring.
    + unfold copp, cconj. cbn [fst snd]. reflexivity.
  - unfold cconj, c0. simpl. f_equal. ring.
Qed.
Theorem reduce_to_half_is_half_refuted : forall K P w alpha beta beta2 alphaF betaF b2F, conjugate_constants K -> real_problem w ->
  rexi_coefficients K (with_half P true) = (alpha, beta, beta2) ->
  rexi_coefficients K (with_half P false) = (alphaF, betaF, b2F) ->
  rexi_solve alpha beta w None = / 2 * rexi_solve alphaF betaF w None.
Proof.
  intros K P w alpha beta beta2 alphaF betaF b2F HK Hw E F. pose proof (half_with_beta2_is_full K P w _ _ _ _ _ _ Hw E F) as H.
  cut (rexi_solve alpha beta2 (fun a => cconj (w a)) None = rexi_solve alpha beta w None); [intros Q; rewrite Q in H; lra|]. clear H F.
  rewrite half_lists in E by reflexivity. apply pair_equal_spec in E as [E <-]; apply pair_equal_spec in E as [<- <-].
  cbn [with_half rp_M rp_h]. set (N := (rp_M P + rc_L K)%nat).
  rewrite !rexi_solve_sum by (rewrite !app_length, !map_length; reflexivity). unfold rexi_sum.
  rewrite !combine_app by (rewrite !map_length; reflexivity). rewrite !csum_app, !combine_map, !csum_map. unfold cadd. cbn [fst snd]. rewrite !lsum_csum.
  assert (R1 : forall r a b, fst (cmul (cscal r (cconj a)) (cconj b)) = fst (cmul (cscal r a) b)) by (intros r [a a'] [b b']; unfold cmul, cscal, cconj; cbn [fst snd]; ring).
  f_equal; apply lsum_ext; intros j Hj; apply in_seq in Hj.
  - replace (N - j)%nat with (2 * (rp_M (with_half P true) + rc_L K) - (N + j))%nat by (cbn [with_half rp_M]; fold N; lia).
    rewrite bcoef_conj by (auto; cbn [with_half rp_M]; fold N; lia). apply R1.
  - replace (N + j)%nat with (2 * (rp_M (with_half P true) + rc_L K) - (N - j))%nat by (cbn [with_half rp_M]; fold N; lia).
    rewrite dcoef_conj by (auto; cbn [with_half rp_M]; fold N; lia). rewrite R1. cbn [with_half rp_M]. fold N. replace (2 * N - (N - j))%nat with (N + j)%nat by lia. reflexivity.
Qed.

(** ** The whole scheme on an oscillator: u0' = w u1, u1' = - w u0, whose solution is z exp(-i w t)
    with z = u0 + i u1 (mass is the dot product; the equation is mass(u') + func(u) = 0) *)
Definition dot2 (u v : list R) : R := nth 0 u 0 * nth 0 v 0 + nth 1 u 0 * nth 1 v 0.
Definition rotation (om : R) (u v : list R) : R := - om * nth 1 u 0 * nth 0 v 0 + om * nth 0 u 0 * nth 1 v 0.
Definition solves_oscillator (om tau u0 u1 : R) (alpha w0 w1 : C) : Prop :=
  forall vr vi : list R, length vr = 2%nat -> length vi = 2%nat ->
    rexi_system dot2 (rotation om) [u0; u1] tau alpha (interleave [fst w0; fst w1] [snd w0; snd w1]) (interleave vr vi).
Lemma oscillator_solution : forall om tau u0 u1 alpha w0 w1, fst alpha <> 0 -> solves_oscillator om tau u0 u1 alpha w0 w1 ->
  cadd w0 (cmul ci w1) = cmul (u0, u1) (cinv (shifted (- (tau * om)) alpha)) /\
  cadd w0 (copp (cmul ci w1)) = cmul (cconj (u0, u1)) (cinv (shifted (tau * om) alpha)).
Proof.
  intros om tau u0 u1 [ar ai] [w0 w0'] [w1 w1'] Ha H. cbn [fst] in Ha.
  pose proof (H [1; 0] [0; 0] eq_refl eq_refl) as H1. pose proof (H [0; 1] [0; 0] eq_refl eq_refl) as H2.
  pose proof (H [0; 0] [1; 0] eq_refl eq_refl) as H3. pose proof (H [0; 0] [0; 1] eq_refl eq_refl) as H4. clear H.
  unfold rexi_system, twoform, oneform, dot2, rotation in H1, H2, H3, H4. cbn in H1, H2, H3, H4.
  assert (G : forall s z q : C, s <> c0 -> cmul s q = z -> q = cmul z (cinv s)).
  { intros s z q Hs E. transitivity (cmul (cmul s (cinv s)) q); [rewrite cinv_r by auto; ring|]. rewrite <- E. ring. }
  split; (apply G; [unfold shifted, c0; cbn [fst snd]; intros Q; inversion Q; auto|]); unfold shifted, cmul, cadd, copp, cconj, ci; cbn [fst snd]; f_equal; lra.
Qed.
Lemma psi_even : forall K y, conjugate_constants K -> psi K (- y) = psi K y.
Proof.
  intros K y HK. unfold psi. rewrite <- (csum_rev _ (2 * rc_L K)). rewrite (csum_ext _ _ (fun l => cconj (cmul (rc_a K l) (cinv (rc_mu K, y + (INR l - INR (rc_L K))))))).
  - rewrite csum_conj. reflexivity.
  - intros l Hl. apply in_seq in Hl. cbv beta. rewrite HK by lia. rewrite conj_mul, conj_cinv. f_equal. f_equal. unfold cconj. cbn [fst snd]. f_equal.
    rewrite minus_INR by lia. replace (2 * rc_L K)%nat with (rc_L K + rc_L K)%nat by lia. rewrite plus_INR. ring.
Qed.
Lemma exp_approx_conj : forall K h M x, h <> 0 -> conjugate_constants K -> exp_approx K h M (- x) = cconj (exp_approx K h M x).
Proof.
  intros K h M x Hh HK. unfold exp_approx. rewrite <- csum_conj. rewrite <- (csum_rev _ (2 * M)). apply csum_ext. intros m Hm. apply in_seq in Hm. cbv beta.
  rewrite b_coef_conj, conj_mul by lia. f_equal. rewrite minus_INR by lia. replace (2 * M)%nat with (M + M)%nat by lia. rewrite plus_INR.
  replace ((- x + (INR M + INR M - INR m - INR M) * h) / h) with (- ((x + (INR m - INR M) * h) / h)) by (field; auto). rewrite psi_even by auto.
  unfold cconj. cbn [fst snd]. f_equal. ring.
Qed.
Lemma rexi_sum_lin : forall alpha beta (f g1 g2 : C -> C) (c1 c2 : C), (forall a, In a alpha -> f a = cadd (cmul c1 (g1 a)) (cmul c2 (g2 a))) ->
  rexi_sum alpha beta f = cadd (cmul c1 (rexi_sum alpha beta g1)) (cmul c2 (rexi_sum alpha beta g2)).
Proof.
  intros alpha beta f g1 g2 d1 d2 H. unfold rexi_sum. rewrite <- !csum_mul, <- csum_add. apply csum_ext. intros [a b] Hab. apply in_combine_l in Hab. cbn [fst snd]. rewrite H by auto. ring.
Qed.
(** C60: after a step tau the oscillator is multiplied by the approximation of exp(-i w tau) — the
    direction of time, the real and imaginary parts, and the two components are right; on any number
    of ranks *)
Theorem rexi_oscillator : forall K P alpha beta beta2 om tau u0 u1 (w0 w1 : C -> C) nproc, rp_half P = false -> rp_h P <> 0 -> rc_mu K <> 0 -> conjugate_constants K ->
  rexi_coefficients K P = (alpha, beta, beta2) -> (forall a, In a alpha -> solves_oscillator om tau u0 u1 a (w0 a) (w1 a)) -> (0 < nproc)%nat ->
  (rexi_solve alpha beta w0 (Some nproc), rexi_solve alpha beta w1 (Some nproc)) = cmul (u0, u1) (exp_approx K (rp_h P) (rp_M P) (- (om * tau))).
Proof.
  intros K P alpha beta beta2 om tau u0 u1 w0 w1 np Hh Hz Hmu HK E Hw Hnp.
  assert (Ha : forall a, In a alpha -> fst a <> 0).
  { assert (E' := E). rewrite full_lists in E' by auto. apply pair_equal_spec in E' as [E' _]. apply pair_equal_spec in E' as [<- _]. intros a Hin.
    apply in_app_or in Hin as [Hin|Hin]; apply in_map_iff in Hin as [k [<- _]]; unfold pole, cscal, copp; cbn [fst snd]; nra. }
  assert (HL : length alpha = length beta). { destruct (rexi_full_coefficients K P alpha beta beta2 Hh E) as [_ [Q _]]. auto. }
  pose proof (rexi_sum_is_exp_approx K P alpha beta beta2 Hh Hz Hmu E) as Sx.
  set (x := om * tau). set (gm := fun a => cinv (shifted (- x) a)). set (gp := fun a => cinv (shifted x a)).
  assert (Sm : rexi_sum alpha beta gm = exp_approx K (rp_h P) (rp_M P) (- x)) by apply Sx.
  assert (Sp : rexi_sum alpha beta gp = cconj (exp_approx K (rp_h P) (rp_M P) (- x))). { rewrite exp_approx_conj, conj_conj by auto. apply Sx. }
  rewrite !rexi_parallel_is_serial, !rexi_solve_sum by auto. set (z := ((u0, u1) : C)). set (S0 := exp_approx K (rp_h P) (rp_M P) (- x)) in *.
  assert (F0 : rexi_sum alpha beta w0 = cadd (cmul (cmul (/ 2, 0) z) (rexi_sum alpha beta gm)) (cmul (cmul (/ 2, 0) (cconj z)) (rexi_sum alpha beta gp))).
  { apply rexi_sum_lin. intros a Hin. destruct (oscillator_solution om tau u0 u1 a (w0 a) (w1 a) (Ha a Hin) (Hw a Hin)) as [P1 P2]. fold z in P1, P2.
    replace (tau * om) with x in P1, P2 by (unfold x; ring). fold (gm a) in P1. fold (gp a) in P2.
    transitivity (cmul (/ 2, 0) (cadd (cmul z (gm a)) (cmul (cconj z) (gp a)))); [|ring]. rewrite <- P1, <- P2. destruct (w0 a), (w1 a). unfold cmul, cadd, copp, ci. cbn [fst snd]. f_equal; field. }
  assert (F1 : rexi_sum alpha beta w1 = cadd (cmul (cmul (0, - / 2) z) (rexi_sum alpha beta gm)) (cmul (cmul (0, / 2) (cconj z)) (rexi_sum alpha beta gp))).
  { apply rexi_sum_lin. intros a Hin. destruct (oscillator_solution om tau u0 u1 a (w0 a) (w1 a) (Ha a Hin) (Hw a Hin)) as [P1 P2]. fold z in P1, P2.
    replace (tau * om) with x in P1, P2 by (unfold x; ring). fold (gm a) in P1. fold (gp a) in P2.
    transitivity (cadd (cmul (0, - / 2) (cmul z (gm a))) (cmul (0, / 2) (cmul (cconj z) (gp a)))); [|ring]. rewrite <- P1, <- P2. destruct (w0 a), (w1 a). unfold cmul, cadd, copp, ci. cbn [fst snd]. f_equal; field. }
  rewrite F0, F1, Sm, Sp. destruct S0 as [sr si]. unfold z, cmul, cadd, cconj. cbn [fst snd]. f_equal; field.
Qed.

(** ** Instances *)
Definition toyK : rexi_constants := {| rc_L := 1; rc_mu := -1; rc_a := fun l => match l with 0%nat => (1, 2) | 1%nat => (3, 0) | _ => (1, -2) end |}.
Example toy_conjugate : conjugate_constants toyK /\ rc_mu toyK <> 0.
Proof. split; [|simpl; lra]. intros l Hl. cbn in *. destruct l as [|[|[|l]]]; try lia; unfold cconj; simpl; f_equal; ring. Qed.
(** every system of the oscillator has a solution, so the hypotheses of rexi_oscillator can be met *)
Example oscillator_solvable : forall om tau u0 u1 alpha, fst alpha <> 0 -> exists w0 w1, solves_oscillator om tau u0 u1 alpha w0 w1.
Proof.
  intros om tau u0 u1 [ar ai] Ha. cbn [fst] in Ha. set (z := ((u0, u1) : C)). set (p := cmul z (cinv (shifted (- (tau * om)) (ar, ai)))). set (q := cmul (cconj z) (cinv (shifted (tau * om) (ar, ai)))).
  assert (Hp : cmul (shifted (- (tau * om)) (ar, ai)) p = z). { unfold p. transitivity (cmul z (cmul (shifted (- (tau * om)) (ar, ai)) (cinv (shifted (- (tau * om)) (ar, ai))))); [ring|]. rewrite cinv_r; [ring|]. unfold shifted, c0. simpl. intros Q. inversion Q. auto. }
  assert (Hq : cmul (shifted (tau * om) (ar, ai)) q = cconj z). { unfold q. transitivity (cmul (cconj z) (cmul (shifted (tau * om) (ar, ai)) (cinv (shifted (tau * om) (ar, ai))))); [ring|]. rewrite cinv_r; [ring|]. unfold shifted, c0. simpl. intros Q. inversion Q. auto. }
  exists (cmul (/ 2, 0) (cadd p q)), (cmul (0, - / 2) (cadd p (copp q))). destruct p as [pr pi], q as [qr qi]. unfold z, shifted, cmul, cconj in Hp, Hq. cbn [fst snd] in Hp, Hq.
  apply pair_equal_spec in Hp as [P1 P2]. apply pair_equal_spec in Hq as [Q1 Q2].
  intros [|v0 [|v1 [|? ?]]] [|y0 [|y1 [|? ?]]] L1 L2; try discriminate. unfold rexi_system, twoform, oneform, dot2, rotation, cmul, cadd, copp. cbn.
  pose proof (Rmult_eq_compat_l v0 _ _ P1).  pose proof (Rmult_eq_compat_l v0 _ _ P2).  pose proof (Rmult_eq_compat_l v0 _ _ Q1).  pose proof (Rmult_eq_compat_l v0 _ _ Q2).
  pose proof (Rmult_eq_compat_l v1 _ _ P1).  pose proof (Rmult_eq_compat_l v1 _ _ P2).  pose proof (Rmult_eq_compat_l v1 _ _ Q1).  pose proof (Rmult_eq_compat_l v1 _ _ Q2).
  pose proof (Rmult_eq_compat_l y0 _ _ P1).  pose proof (Rmult_eq_compat_l y0 _ _ P2).  pose proof (Rmult_eq_compat_l y0 _ _ Q1).  pose proof (Rmult_eq_compat_l y0 _ _ Q2).
  pose proof (Rmult_eq_compat_l y1 _ _ P1).  pose proof (Rmult_eq_compat_l y1 _ _ P2).  pose proof (Rmult_eq_compat_l y1 _ _ Q1).  pose proof (Rmult_eq_compat_l y1 _ _ Q2).
  lra.
Qed.
(** a_0 = 1, L = M = 0, h = 1, mu = -1, w(a) = 1/a (tau = 0): the full sum is -e, the halved one -e/2 *)
Example half_instance : let K := {| rc_L := 0; rc_mu := -1; rc_a := fun _ => (1, 0) |} in
  let P b := {| rp_h := 1; rp_M := 0; rp_half := b |} in
  let '(a1, b1, _) := rexi_coefficients K (P true) in let '(a2, b2, _) := rexi_coefficients K (P false) in
  real_problem cinv /\ rexi_solve a2 b2 cinv None = - exp 1 /\ rexi_solve a1 b1 cinv None = - exp 1 / 2.
Proof.
  cbn. split; [intros a; symmetry; apply conj_cinv|]. unfold bcoef, dcoef, half_at, put, cscal, cadd, copp, cmul, cconj, ci, c0, b_coef, cinv. cbn.
  replace (0 - 0) with 0 by ring. replace (- (0 * 1)) with 0 by ring. rewrite cos_0, sin_0, Rmult_1_r. replace (exp (1 * 1)) with (exp 1) by (f_equal; ring). split; field.
Qed.
Print Assumptions rexi_oscillator.
Print Assumptions rexi_sum_is_exp_approx.
Print Assumptions reduce_to_half_is_half_refuted.
Print Assumptions half_with_beta2_is_full.

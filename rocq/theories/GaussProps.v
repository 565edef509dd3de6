(** Theorems about the boundary recovery kernel: C55. *)
From Verif Require Import Base Gauss.
From Coq Require Import Reals Lra.
Open Scope R_scope.

(** ** Sums and linear systems (the specification) *)
Definition rsum (l : list nat) (g : nat -> R) : R := fold_right (fun k s => g k + s) 0 l.
(** x solves the n by n system A x = f *)
Definition solves (n : nat) (A : mat) (x f : colv) : Prop := forall r, (r < n)%nat -> rsum (seq 0 n) (fun c => A r c * x c) = f r.
(** only the zero vector is in the kernel *)
Definition nonsingular (n : nat) (A : mat) : Prop := forall x, solves n A x (fun _ => 0) -> forall c, (c < n)%nat -> x c = 0.

Lemma rsum_ext : forall l g h, (forall k, In k l -> g k = h k) -> rsum l g = rsum l h.
Proof. induction l; simpl; intros g h E; auto. rewrite (E a), (IHl g h); auto. Qed.
Lemma rsum_plus : forall l g h, rsum l (fun k => g k + h k) = rsum l g + rsum l h.
Proof. induction l; simpl; intros; [ring|]. rewrite IHl. ring. Qed.
Lemma rsum_scale : forall l c g, rsum l (fun k => c * g k) = c * rsum l g.
Proof. induction l; simpl; intros; [ring|]. rewrite IHl. ring. Qed.
Lemma rsum_zero : forall l, rsum l (fun _ => 0) = 0.
Proof. induction l; simpl; auto. rewrite IHl. ring. Qed.
Lemma rsum_app : forall a b g, rsum (a ++ b) g = rsum a g + rsum b g.
Proof. induction a; simpl; intros; [ring|]. rewrite IHa. ring. Qed.
Lemma rsum_split : forall n j g, (j < n)%nat -> rsum (seq 0 n) g = g j + rsum (seq 0 n) (fun k => if Nat.eqb k j then 0 else g k).
Proof.
  intros n j g Hj. replace n with (j + S (n - S j))%nat by lia. rewrite seq_app, !rsum_app. simpl. rewrite Nat.eqb_refl.
  rewrite (rsum_ext (seq 0 j) (fun k => if Nat.eqb k j then 0 else g k) g).
  - rewrite (rsum_ext (seq (S j) (n - S j)) (fun k => if Nat.eqb k j then 0 else g k) g); [ring|].
    intros k Hk. apply in_seq in Hk. destruct (Nat.eqb_spec k j); [lia|auto].
  - intros k Hk. apply in_seq in Hk. destruct (Nat.eqb_spec k j); [lia|auto].
Qed.
Lemma solves_ext : forall n A B x f g, (forall r c, (r < n)%nat -> (c < n)%nat -> A r c = B r c) -> (forall r, (r < n)%nat -> f r = g r) -> solves n A x f -> solves n B x g.
Proof.
  intros n A B x f g HA Hf S r Hr. rewrite <- Hf by auto. rewrite <- (S r Hr). apply rsum_ext. intros c Hc. apply in_seq in Hc. rewrite HA; auto; lia.
Qed.
Lemma unique_solution : forall n A x y f, nonsingular n A -> solves n A x f -> solves n A y f -> forall c, (c < n)%nat -> x c = y c.
Proof.
  intros n A x y f N Sx Sy c Hc. assert (Z : solves n A (fun k => x k - y k) (fun _ => 0)).
  { intros r Hr. rewrite (rsum_ext _ _ (fun k => A r k * x k + -1 * (A r k * y k))) by (intros; ring). rewrite rsum_plus, rsum_scale, (Sx r Hr), (Sy r Hr). ring. }
  specialize (N _ Z c Hc). simpl in N. lra.
Qed.

(** ** Back substitution *)
Definition upper (n : nat) (T : mat) : Prop := forall r c, (r < n)%nat -> (c < r)%nat -> T r c = 0.
Lemma inner_loop : forall l (j : nat) (A : nat -> R) a v,
  fold_left (fun v k => if Nat.ltb j k then v - A k * a k else v) l v = v - rsum l (fun k => if Nat.ltb j k then A k * a k else 0).
Proof. induction l; simpl; intros; [ring|]. rewrite IHl. destruct (Nat.ltb j a); ring. Qed.
Lemma back_inv : forall n T f m, (m <= n)%nat -> upper n T -> (forall r, (r < n)%nat -> T r r <> 0) ->
  let a := fold_left (back_step n T f) (seq 0 m) (fun _ => 0) in
  forall r, (n - m <= r)%nat -> (r < n)%nat -> rsum (seq 0 n) (fun c => T r c * a c) = f r.
Proof.
  intros n T f m. induction m as [|m IH]; intros Hm U D a r Hr Hn; [lia|].
  unfold a. rewrite seq_S, fold_left_app. simpl. set (b := fold_left (back_step n T f) (seq 0 m) (fun _ => 0)) in *.
  unfold back_step. rewrite inner_loop. set (j := (n - m - 1)%nat). assert (Hj : (j < n)%nat) by (unfold j; lia).
  set (v := (f j - _) / T j j).
  destruct (Nat.eq_dec r j) as [->|Ne].
  - rewrite (rsum_split n j) by auto. unfold setv at 1. rewrite Nat.eqb_refl.
    rewrite (rsum_ext _ _ (fun k => if Nat.ltb j k then T j k * b k else 0)).
    + unfold v. specialize (D j Hj). field. auto.
    + intros k Hk. apply in_seq in Hk. unfold setv. destruct (Nat.eqb_spec k j) as [->|N1].
      * destruct (Nat.ltb_spec j j); [lia|auto].
      * destruct (Nat.ltb_spec j k); auto. rewrite (U j k) by lia. ring.
  - rewrite <- (IH ltac:(lia) U D r ltac:(unfold j in Ne; lia) Hn). apply rsum_ext. intros k Hk. apply in_seq in Hk. unfold setv.
    destruct (Nat.eqb_spec k j) as [->|]; auto. rewrite (U r j) by (unfold j in *; lia). ring.
Qed.
Lemma back_solves : forall n T f, upper n T -> (forall r, (r < n)%nat -> T r r <> 0) -> solves n T (back_substitute n T f) f.
Proof. intros n T f U D r Hr. apply back_inv; auto; lia. Qed.

(** ** The pivot search *)
Lemma pivot_spec : forall n A ii, (ii < n)%nat -> let im := find_pivot n A ii in
  (ii <= im < n)%nat /\ forall r, (ii <= r < n)%nat -> Rabs (A r ii) <= Rabs (A im ii).
Proof.
  intros n A ii Hii. unfold find_pivot.
  assert (G : forall l im am, (ii <= im < n)%nat -> am = Rabs (A im ii) -> (forall j, In j l -> (ii <= j < n)%nat) ->
     let p := fst (fold_left (fun '(im, am) jj => (if Rlt_dec am (Rabs (A jj ii)) then jj else im, Rmax am (Rabs (A jj ii)))) l (im, am)) in
     (ii <= p < n)%nat /\ am <= Rabs (A p ii) /\ forall r, In r l -> Rabs (A r ii) <= Rabs (A p ii)).
  { induction l as [|j l IH]; intros im am Hi Ea Hl; simpl.
    - split; auto. split; [lra|]. intros r [].
    - destruct (Rlt_dec am (Rabs (A j ii))) as [L|L].
      + rewrite Rmax_right by lra. destruct (IH j (Rabs (A j ii))) as [P1 [P2 P3]]; auto; [apply Hl; left; auto|intros; apply Hl; right; auto|].
        split; auto. split; [lra|]. intros r [<-|Hr]; auto.
      + rewrite Rmax_left by lra. destruct (IH im am) as [P1 [P2 P3]]; auto; [intros; apply Hl; right; auto|].
        split; auto. split; [lra|]. intros r [<-|Hr]; auto. lra. }
  destruct (G (seq (S ii) (n - S ii)) ii (Rabs (A ii ii))) as [P1 [P2 P3]]; auto; try lia.
  { intros j Hj. apply in_seq in Hj. lia. }
  split; auto. intros r Hr. destruct (Nat.eq_dec r ii) as [->|]; auto. apply P3. apply in_seq. lia.
Qed.

(** ** Row operations *)
Lemma row_update : forall l A r ii c, NoDup l -> r <> ii ->
  forall i j, fold_left (fun A mm => setm A r mm (A r mm + c * A ii mm)) l A i j =
    if Nat.eqb i r && (if in_dec Nat.eq_dec j l then true else false) then A r j + c * A ii j else A i j.
Proof.
  induction l as [|m l IH]; intros A r ii c N Ne i j; simpl.
  - rewrite andb_false_r. reflexivity.
  - inversion N; subst. rewrite IH by auto. unfold setm. rewrite Nat.eqb_refl.
    destruct (Nat.eqb_spec ii r); [congruence|]. simpl.
    destruct (Nat.eqb_spec i r) as [->|Nr]; simpl; [|destruct (in_dec Nat.eq_dec j l); reflexivity].
    destruct (in_dec Nat.eq_dec j l) as [I|I].
    + destruct (Nat.eqb_spec j m) as [E|E]; [subst; contradiction|]. destruct (Nat.eq_dec m j); [congruence|]. reflexivity.
    + destruct (Nat.eqb_spec j m) as [E1|E1]; destruct (Nat.eq_dec m j) as [E2|E2]; try congruence; subst; reflexivity.
Qed.
Lemma eliminate_value : forall n ii A f ll, ll <> ii -> forall i j, (j < n)%nat ->
  fst (eliminate_row n ii (A, f) ll) i j = (if Nat.eqb i ll then A ll j + - A ll ii / A ii ii * A ii j else A i j) /\
  snd (eliminate_row n ii (A, f) ll) i = (if Nat.eqb i ll then f ll + - A ll ii / A ii ii * f ii else f i).
Proof.
  intros n ii A f ll Ne i j Hj. unfold eliminate_row. cbv zeta. split.
  - simpl. rewrite row_update by (auto using seq_NoDup). destruct (in_dec Nat.eq_dec j (seq 0 n)) as [|N]; [|exfalso; apply N, in_seq; lia]. rewrite andb_true_r. reflexivity.
  - reflexivity.
Qed.
(** eliminating all the rows of a list *)
Lemma eliminate_all : forall n ii l A f, (ii < n)%nat -> NoDup l -> ~ In ii l -> forall i j, (j < n)%nat ->
  let s := fold_left (eliminate_row n ii) l (A, f) in
  fst s i j = (if in_dec Nat.eq_dec i l then A i j + - A i ii / A ii ii * A ii j else A i j) /\
  snd s i = (if in_dec Nat.eq_dec i l then f i + - A i ii / A ii ii * f ii else f i).
Proof.
  intros n ii l. induction l as [|m l IH]; intros A f Hii N NI i j Hj; [simpl; auto|].
  inversion N; subst. assert (Nm : m <> ii) by (intros ->; apply NI; left; auto).
  change (fold_left (eliminate_row n ii) (m :: l) (A, f)) with (fold_left (eliminate_row n ii) l (eliminate_row n ii (A, f) m)).
  destruct (eliminate_row n ii (A, f) m) as [B g] eqn:E.
  assert (V : forall i j, (j < n)%nat -> B i j = (if Nat.eqb i m then A m j + - A m ii / A ii ii * A ii j else A i j) /\ g i = (if Nat.eqb i m then f m + - A m ii / A ii ii * f ii else f i)).
  { intros i' j' Hj'. pose proof (eliminate_value n ii A f m Nm i' j' Hj') as Q. rewrite E in Q. exact Q. }
  destruct (IH B g Hii H2 (fun I => NI (or_intror I)) i j Hj) as [P1 P2]. cbv zeta. rewrite P1, P2.
  destruct (V i j Hj) as [-> ->]. destruct (V i ii Hii) as [-> _]. destruct (V ii ii Hii) as [-> ->]. destruct (V ii j Hj) as [-> _].
  destruct (Nat.eqb_spec ii m); [congruence|].
  destruct (Nat.eqb_spec i m) as [->|Ni].
  - destruct (in_dec Nat.eq_dec m l); [contradiction|]. destruct (in_dec Nat.eq_dec m (m :: l)) as [|X]; [auto|exfalso; apply X; left; auto].
  - destruct (in_dec Nat.eq_dec i l) as [I|I]; destruct (in_dec Nat.eq_dec i (m :: l)) as [J|J]; auto.
    + exfalso. apply J. right. auto.
    + exfalso. destruct J; [congruence|contradiction].
Qed.

(** zero below the diagonal in the first ii columns *)
Definition cleared (n ii : nat) (A : mat) : Prop := forall r c, (r < n)%nat -> (c < ii)%nat -> (c < r)%nat -> A r c = 0.
Definition pivots (ii : nat) (A : mat) : Prop := forall r, (r < ii)%nat -> A r r <> 0.

(** the swap is an exact exchange of two rows, because both are zero left of ii *)
Lemma swap_full : forall n ii im A, (ii < n)%nat -> (ii <= im < n)%nat -> cleared n ii A -> forall r c, (r < n)%nat -> (c < n)%nat ->
  swap_A ii im A r c = if Nat.eqb r ii then A im c else if Nat.eqb r im then A ii c else A r c.
Proof.
  intros n ii im A Hii Him C r c Hr Hc. unfold swap_A. destruct (Nat.leb_spec ii c) as [L|L]; auto.
  destruct (Nat.eqb_spec r ii) as [->|N1].
  - rewrite (C ii c), (C im c) by lia. reflexivity.
  - destruct (Nat.eqb_spec r im) as [->|N2]; auto. rewrite (C im c), (C ii c) by lia. reflexivity.
Qed.
Lemma swap_solves : forall n ii im A f x, (ii < n)%nat -> (ii <= im < n)%nat -> cleared n ii A ->
  (solves n A x f <-> solves n (swap_A ii im A) x (swap_f ii im f)).
Proof.
  intros n ii im A f x Hii Him C.
  assert (Row : forall r, (r < n)%nat -> rsum (seq 0 n) (fun c => swap_A ii im A r c * x c) =
     rsum (seq 0 n) (fun c => A (if Nat.eqb r ii then im else if Nat.eqb r im then ii else r) c * x c)).
  { intros r Hr. apply rsum_ext. intros c Hc. apply in_seq in Hc. rewrite (swap_full n) by (auto; lia).
    destruct (Nat.eqb r ii); auto. destruct (Nat.eqb r im); auto. }
  split; intros S r Hr.
  - rewrite Row by auto. unfold swap_f. destruct (Nat.eqb_spec r ii); [apply S; lia|]. destruct (Nat.eqb_spec r im); apply S; lia.
  - pose proof (S (if Nat.eqb r ii then im else if Nat.eqb r im then ii else r)) as Q.
    destruct (Nat.eqb_spec r ii) as [->|N1].
    + specialize (Q ltac:(lia)). rewrite Row in Q by lia. unfold swap_f in Q. destruct (Nat.eqb_spec im ii) as [->|]; [exact Q|]. rewrite Nat.eqb_refl in Q. exact Q.
    + destruct (Nat.eqb_spec r im) as [->|N2].
      * specialize (Q ltac:(lia)). rewrite Row in Q by lia. unfold swap_f in Q. rewrite Nat.eqb_refl in Q. exact Q.
      * specialize (Q Hr). rewrite Row in Q by lia. unfold swap_f in Q. destruct (Nat.eqb_spec r ii); [congruence|]. destruct (Nat.eqb_spec r im); [congruence|]. exact Q.
Qed.
Lemma eliminate_solves : forall n ii A f x, (ii < n)%nat -> let '(B, g) := fold_left (eliminate_row n ii) (seq (S ii) (n - S ii)) (A, f) in
  (solves n A x f <-> solves n B x g).
Proof.
  intros n ii A f x Hii. destruct (fold_left _ _ _) as [B g] eqn:E.
  assert (V : forall i j, (j < n)%nat -> B i j = (if in_dec Nat.eq_dec i (seq (S ii) (n - S ii)) then A i j + - A i ii / A ii ii * A ii j else A i j) /\
     g i = (if in_dec Nat.eq_dec i (seq (S ii) (n - S ii)) then f i + - A i ii / A ii ii * f ii else f i)).
  { intros i j Hj. pose proof (eliminate_all n ii (seq (S ii) (n - S ii)) A f Hii (seq_NoDup _ _)) as Q.
    assert (NI : ~ In ii (seq (S ii) (n - S ii))) by (intros I; apply in_seq in I; lia). specialize (Q NI i j Hj). rewrite E in Q. exact Q. }
  assert (Row : forall r, (r < n)%nat -> rsum (seq 0 n) (fun c => B r c * x c) =
     if in_dec Nat.eq_dec r (seq (S ii) (n - S ii)) then rsum (seq 0 n) (fun c => A r c * x c) + - A r ii / A ii ii * rsum (seq 0 n) (fun c => A ii c * x c)
     else rsum (seq 0 n) (fun c => A r c * x c)).
  { intros r Hr. destruct (in_dec Nat.eq_dec r (seq (S ii) (n - S ii))) as [I|I].
    - rewrite <- rsum_scale, <- rsum_plus. apply rsum_ext. intros c Hc. apply in_seq in Hc. destruct (V r c) as [-> _]; [lia|].
      destruct (in_dec Nat.eq_dec r (seq (S ii) (n - S ii))); [ring|contradiction].
    - apply rsum_ext. intros c Hc. apply in_seq in Hc. destruct (V r c) as [-> _]; [lia|].
      destruct (in_dec Nat.eq_dec r (seq (S ii) (n - S ii))); [contradiction|ring]. }
  split; intros S r Hr.
  - rewrite Row by auto. destruct (V r ii Hii) as [_ ->]. destruct (in_dec Nat.eq_dec r (seq (Datatypes.S ii) (n - Datatypes.S ii))); rewrite (S r Hr); auto. rewrite (S ii Hii). reflexivity.
  - assert (Sii : rsum (seq 0 n) (fun c => A ii c * x c) = f ii).
    { pose proof (S ii Hii) as Q. rewrite Row in Q by auto. destruct (V ii ii Hii) as [_ Vg]. rewrite Vg in Q.
      destruct (in_dec Nat.eq_dec ii (seq (Datatypes.S ii) (n - Datatypes.S ii))) as [I|I]; [apply in_seq in I; lia|exact Q]. }
    pose proof (S r Hr) as Q. rewrite Row in Q by auto. destruct (V r ii Hii) as [_ Vg]. rewrite Vg in Q.
    destruct (in_dec Nat.eq_dec r (seq (Datatypes.S ii) (n - Datatypes.S ii))); [|exact Q]. rewrite Sii in Q. lra.
Qed.
(** a column without pivot gives a vector of the kernel *)
Lemma no_pivot_singular : forall n ii A, (ii < n)%nat -> cleared n ii A -> pivots ii A -> (forall r, (ii <= r < n)%nat -> A r ii = 0) -> ~ nonsingular n A.
Proof.
  intros n ii A Hii C P Z N.
  assert (U : upper ii A) by (intros r c Hr Hc; apply C; lia).
  pose proof (back_solves ii A (fun r => - A r ii) U P) as Sb. set (b := back_substitute ii A (fun r => - A r ii)) in *.
  set (x := fun c => if Nat.ltb c ii then b c else if Nat.eqb c ii then 1 else 0).
  assert (Sx : solves n A x (fun _ => 0)).
  { intros r Hr. replace n with (ii + (S (n - S ii)))%nat by lia. rewrite seq_app, rsum_app. simpl.
    assert (T : rsum (seq (S ii) (n - S ii)) (fun c => A r c * x c) = 0).
    { rewrite <- (rsum_zero (seq (S ii) (n - S ii))). apply rsum_ext. intros c Hc. apply in_seq in Hc. unfold x.
      destruct (Nat.ltb_spec c ii); [lia|]. destruct (Nat.eqb_spec c ii); [lia|]. ring. }
    rewrite T. unfold x at 2. rewrite Nat.ltb_irrefl, Nat.eqb_refl.
    assert (F : rsum (seq 0 ii) (fun c => A r c * x c) = rsum (seq 0 ii) (fun c => A r c * b c)).
    { apply rsum_ext. intros c Hc. apply in_seq in Hc. unfold x. destruct (Nat.ltb_spec c ii); [auto|lia]. }
    rewrite F. destruct (le_lt_dec ii r) as [L|L].
    - rewrite (Z r) by lia. rewrite (rsum_ext _ _ (fun _ => 0)); [rewrite rsum_zero; ring|]. intros c Hc. apply in_seq in Hc. rewrite (C r c) by lia. ring.
    - rewrite (Sb r L). ring. }
  specialize (N x Sx ii Hii). unfold x in N. rewrite Nat.ltb_irrefl, Nat.eqb_refl in N. lra.
Qed.

(** one step of the elimination *)
Lemma step_correct : forall n ii A f, (ii < n)%nat -> cleared n ii A -> pivots ii A -> nonsingular n A ->
  let '(B, g) := gauss_step n (A, f) ii in
  cleared n (S ii) B /\ pivots (S ii) B /\ nonsingular n B /\ forall x, solves n A x f <-> solves n B x g.
Proof.
  intros n ii A f Hii C P N. unfold gauss_step. cbv zeta. destruct (pivot_spec n A ii Hii) as [Him Max]. set (im := find_pivot n A ii) in *.
  assert (Piv : A im ii <> 0).
  { intros Z. apply (no_pivot_singular n ii A); auto. intros r Hr. specialize (Max r Hr). rewrite Z, Rabs_R0 in Max.
    destruct (Req_dec (A r ii) 0) as [|Q]; auto. apply Rabs_pos_lt in Q. lra. }
  (* the swap *)
  set (s := if Nat.eqb im ii then (A, f) else (swap_A ii im A, swap_f ii im f)).
  assert (exists A1 f1, s = (A1, f1) /\ cleared n ii A1 /\ pivots (S ii) A1 /\ forall f' x, (solves n A x f' <-> solves n A1 x (if Nat.eqb im ii then f' else swap_f ii im f')) /\ (f' = f -> f1 = if Nat.eqb im ii then f' else swap_f ii im f')) as [A1 [f1 [Es [C1 [P1 S1]]]]].
  { unfold s. destruct (Nat.eqb_spec im ii) as [E|E].
    - exists A, f. split; auto. split; auto. split; [|intros; split; [tauto|congruence]].
      intros r Hr. destruct (Nat.eq_dec r ii) as [->|]; [rewrite E in Piv; auto|apply P; lia].
    - exists (swap_A ii im A), (swap_f ii im f). split; auto. split; [|split].
      + intros r c Hr Hc Hrc. rewrite (swap_full n) by (auto; lia). destruct (Nat.eqb_spec r ii); [apply C; lia|]. destruct (Nat.eqb_spec r im); apply C; lia.
      + intros r Hr. rewrite (swap_full n) by (auto; lia). destruct (Nat.eqb_spec r ii) as [->|]; auto. destruct (Nat.eqb_spec r im) as [->|]; [lia|]. apply P. lia.
      + intros f' x. split; [apply swap_solves; auto|intros ->; reflexivity]. }
  rewrite Es. destruct (fold_left (eliminate_row n ii) (seq (S ii) (n - S ii)) (A1, f1)) as [B g] eqn:E.
  assert (V : forall i j, (j < n)%nat -> B i j = (if in_dec Nat.eq_dec i (seq (S ii) (n - S ii)) then A1 i j + - A1 i ii / A1 ii ii * A1 ii j else A1 i j)).
  { intros i j Hj. assert (NI : ~ In ii (seq (S ii) (n - S ii))) by (intros I; apply in_seq in I; lia).
    pose proof (eliminate_all n ii (seq (S ii) (n - S ii)) A1 f1 Hii (seq_NoDup _ _) NI i j Hj) as [Q _]. rewrite E in Q. exact Q. }
  assert (SB : forall x, solves n A x f <-> solves n B x g).
  { intros x. pose proof (eliminate_solves n ii A1 f1 x Hii) as Q. rewrite E in Q. rewrite <- Q. destruct (S1 f x) as [Q1 Q2]. rewrite (Q2 eq_refl). exact Q1. }
  assert (D1 : A1 ii ii <> 0) by (apply P1; lia).
  split; [|split; [|split]]; auto.
  - intros r c Hr Hc Hrc. rewrite V by lia. destruct (in_dec Nat.eq_dec r (seq (S ii) (n - S ii))) as [I|I].
    + apply in_seq in I. destruct (Nat.eq_dec c ii) as [->|]; [field; auto|]. rewrite (C1 r c), (C1 ii c) by lia. ring.
    + destruct (Nat.eq_dec c ii) as [->|]; [exfalso; apply I, in_seq; lia|]. apply C1; lia.
  - intros r Hr. rewrite V by lia. destruct (in_dec Nat.eq_dec r (seq (S ii) (n - S ii))) as [I|I]; [apply in_seq in I; lia|]. apply P1; lia.
  - (* the same operations on the homogeneous system *)
    intros x Sx c Hc. apply (N x); auto.
    destruct (fold_left (eliminate_row n ii) (seq (S ii) (n - S ii)) (@pair mat colv A1 (fun _ => 0))) as [B' g'] eqn:E'.
    assert (NI : ~ In ii (seq (S ii) (n - S ii))) by (intros I; apply in_seq in I; lia).
    assert (V' : forall i j, (j < n)%nat -> B' i j = B i j /\ g' i = 0).
    { intros i j Hj. pose proof (eliminate_all n ii (seq (S ii) (n - S ii)) A1 (fun _ => 0) Hii (seq_NoDup _ _) NI i j Hj) as Q. rewrite E' in Q. destruct Q as [Q1 Q2]. cbn [fst snd] in Q1, Q2.
      rewrite Q1, Q2, V by auto. split; auto. destruct (in_dec Nat.eq_dec i (seq (S ii) (n - S ii))); ring. }
    pose proof (eliminate_solves n ii A1 (fun _ => 0) x Hii) as Q. rewrite E' in Q.
    destruct (S1 (fun _ => 0) x) as [Q1 _]. apply Q1.
    assert (Q3 : solves n A1 x (fun _ => 0)). { apply Q. apply (solves_ext n B B' x (fun _ => 0) g'); [| |exact Sx]. - intros r0 c0 Hr0 Hc0. symmetry. apply (V' r0 c0 Hc0). - intros r0 Hr0. symmetry. apply (V' r0 r0 Hr0). }
    destruct (Nat.eqb im ii); auto. apply (solves_ext n A1 A1 x (fun _ => 0)); [auto| |exact Q3]. intros r Hr. unfold swap_f. destruct (Nat.eqb r ii); auto. destruct (Nat.eqb r im); auto.
Qed.
Lemma triangulate_correct : forall n A f, nonsingular n A -> let '(T, g) := triangulate n A f in
  upper n T /\ (forall r, (r < n)%nat -> T r r <> 0) /\ forall x, solves n A x f <-> solves n T x g.
Proof.
  intros n A f N. unfold triangulate.
  assert (G : forall m, (m <= n)%nat -> let '(T, g) := fold_left (gauss_step n) (seq 0 m) (A, f) in
     cleared n m T /\ pivots m T /\ nonsingular n T /\ forall x, solves n A x f <-> solves n T x g).
  { induction m as [|m IH]; intros Hm.
    - simpl. split; [intros r c; lia|]. split; [intros r; lia|]. split; [auto|tauto].
    - rewrite seq_S, fold_left_app. simpl. specialize (IH ltac:(lia)). destruct (fold_left (gauss_step n) (seq 0 m) (A, f)) as [T g].
      destruct IH as [C [P [NT S]]]. pose proof (step_correct n m T g ltac:(lia) C P NT) as Q. destruct (gauss_step n (T, g) m) as [B h].
      destruct Q as [C' [P' [N' S']]]. split; auto. split; auto. split; auto. intros x. rewrite S, S'. tauto. }
  specialize (G n (le_n n)). destruct (fold_left (gauss_step n) (seq 0 n) (A, f)) as [T g]. destruct G as [C [P [_ S]]]. split; [|split; auto].
  intros r c Hr Hc. apply C; lia.
Qed.

(** The elimination solves every non-singular system of every size *)
Theorem gauss_solves : forall n A f, nonsingular n A -> solves n A (gauss_solve n A f) f.
Proof.
  intros n A f N. unfold gauss_solve. pose proof (triangulate_correct n A f N) as Q. destruct (triangulate n A f) as [T g].
  destruct Q as [U [D S]]. apply S. apply back_solves; auto.
Qed.
(** C55: in a boundary cell of any of the supported shapes, if the old values are those of a
    polynomial of the basis at the effective coordinates, the new values are those of the same
    polynomial at the actual coordinates; other cells keep their values. *)
Lemma expand_basis : forall nDOFs dim a p, In nDOFs [2; 3; 4; 6; 8]%nat -> expand nDOFs dim a p = rsum (seq 0 nDOFs) (fun k => basis nDOFs dim p k * a k).
Proof. intros nDOFs dim a p I. simpl in I. destruct I as [<-|[<-|[<-|[<-|[<-|[]]]]]]; simpl; ring. Qed.
Theorem boundary_kernel_exact : forall nDOFs dim num_ext old eff act coef, In nDOFs [2; 3; 4; 6; 8]%nat ->
  nonsingular nDOFs (fun i => basis nDOFs dim (eff i)) ->
  (forall i, (i < nDOFs)%nat -> old i = rsum (seq 0 nDOFs) (fun k => coef k * basis nDOFs dim (eff i) k)) ->
  0 < num_ext ->
  forall i, boundary_kernel nDOFs dim num_ext old eff act i = rsum (seq 0 nDOFs) (fun k => coef k * basis nDOFs dim (act i) k).
Proof.
  intros nDOFs dim ne old eff act coef I N Ho He i. unfold boundary_kernel. destruct (Rlt_dec 0 ne) as [Pos|]; [|lra].
  cbv zeta. rewrite expand_basis by auto. set (A := fun i => basis nDOFs dim (eff i)) in *. pose proof (gauss_solves nDOFs A old N) as S.
  apply rsum_ext. intros k Hk. apply in_seq in Hk. rewrite Rmult_comm. f_equal.
  apply (unique_solution nDOFs A _ coef old N S); [|lia]. intros r Hr. rewrite Ho by auto. apply rsum_ext. intros. unfold A. ring.
Qed.
Theorem interior_kernel_keeps : forall nDOFs dim num_ext old eff act i, num_ext <= 0 -> boundary_kernel nDOFs dim num_ext old eff act i = old i.
Proof. intros. unfold boundary_kernel. destruct (Rlt_dec 0 num_ext); [lra|auto]. Qed.
(** The systems that occur are non-singular: intervals with distinct effective points, ... *)
Theorem interval_nonsingular : forall eff, eff 0%nat 0%nat <> eff 1%nat 0%nat -> nonsingular 2 (fun i => basis 2 1 (eff i)).
Proof.
  intros eff Ne x S c Hc. pose proof (S 0%nat ltac:(lia)) as S0. pose proof (S 1%nat ltac:(lia)) as S1. simpl in S0, S1.
  assert (x 1%nat = 0). { assert (Q : (eff 0%nat 0%nat - eff 1%nat 0%nat) * x 1%nat = 0) by lra. apply Rmult_integral in Q. destruct Q; [lra|auto]. }
  rewrite H in S0. destruct c as [|[|c]]; try lia; lra.
Qed.
(** ... triangles whose effective points are not collinear, ... *)
Theorem triangle_nonsingular : forall eff,
  (eff 1%nat 0%nat - eff 0%nat 0%nat) * (eff 2%nat 1%nat - eff 0%nat 1%nat) - (eff 2%nat 0%nat - eff 0%nat 0%nat) * (eff 1%nat 1%nat - eff 0%nat 1%nat) <> 0 ->
  nonsingular 3 (fun i => basis 3 2 (eff i)).
Proof.
  intros eff Ne x S c Hc. pose proof (S 0%nat ltac:(lia)) as S0. pose proof (S 1%nat ltac:(lia)) as S1. pose proof (S 2%nat ltac:(lia)) as S2. simpl in S0, S1, S2.
  set (a := eff 1%nat 0%nat - eff 0%nat 0%nat) in *. set (b := eff 2%nat 1%nat - eff 0%nat 1%nat) in *. set (d := eff 2%nat 0%nat - eff 0%nat 0%nat) in *. set (e := eff 1%nat 1%nat - eff 0%nat 1%nat) in *.
  assert (E1 : a * x 1%nat + e * x 2%nat = 0) by (unfold a, e; lra). assert (E2 : d * x 1%nat + b * x 2%nat = 0) by (unfold d, b; lra).
  assert (X1 : (a * b - d * e) * x 1%nat = 0). { transitivity (b * (a * x 1%nat + e * x 2%nat) - e * (d * x 1%nat + b * x 2%nat)); [ring|rewrite E1, E2; ring]. }
  assert (X2 : (a * b - d * e) * x 2%nat = 0). { transitivity (a * (d * x 1%nat + b * x 2%nat) - d * (a * x 1%nat + e * x 2%nat)); [ring|rewrite E1, E2; ring]. }
  apply Rmult_integral in X1, X2. destruct X1 as [|X1]; [contradiction|]. destruct X2 as [|X2]; [contradiction|]. rewrite X1, X2 in S0.
  destruct c as [|[|[|c]]]; try lia; lra.
Qed.
(** ... and axis-parallel rectangles (the four corners in tensor order) *)
Theorem rectangle_nonsingular : forall x0 x1 y0 y1 eff, x0 <> x1 -> y0 <> y1 ->
  (forall i, (i < 4)%nat -> eff i 0%nat = (if Nat.ltb i 2 then x0 else x1) /\ eff i 1%nat = (if Nat.even i then y0 else y1)) ->
  nonsingular 4 (fun i => basis 4 2 (eff i)).
Proof.
  intros x0 x1 y0 y1 eff Hx Hy He a S c Hc.
  pose proof (S 0%nat ltac:(lia)) as S0. pose proof (S 1%nat ltac:(lia)) as S1. pose proof (S 2%nat ltac:(lia)) as S2. pose proof (S 3%nat ltac:(lia)) as S3. simpl in S0, S1, S2, S3.
  destruct (He 0%nat ltac:(lia)) as [e00 e01]. destruct (He 1%nat ltac:(lia)) as [e10 e11]. destruct (He 2%nat ltac:(lia)) as [e20 e21]. destruct (He 3%nat ltac:(lia)) as [e30 e31].
  simpl in *. rewrite e00, e01 in S0. rewrite e10, e11 in S1. rewrite e20, e21 in S2. rewrite e30, e31 in S3.
  assert (A3 : (x0 - x1) * (y0 - y1) * a 3%nat = 0). 
  { match type of S0 with ?u = 0 => match type of S1 with ?v = 0 => match type of S2 with ?w = 0 => match type of S3 with ?t = 0 => transitivity (u - v - w + t) end end end end; [ring|rewrite S0, S1, S2, S3; ring]. }
  assert (a 3%nat = 0). { apply Rmult_integral in A3. destruct A3 as [A3|]; auto. apply Rmult_integral in A3. destruct A3; lra. }
  rewrite H in *. 
  assert (A2 : (y0 - y1) * a 2%nat = 0) by lra. apply Rmult_integral in A2. destruct A2 as [|A2]; [lra|]. rewrite A2 in *.
  assert (A1 : (x0 - x1) * a 1%nat = 0) by lra. apply Rmult_integral in A1. destruct A1 as [|A1]; [lra|]. rewrite A1 in *.
  destruct c as [|[|[|[|c]]]]; try lia; lra.
Qed.
(** ... prisms: two levels over a triangle, and boxes: two levels over a rectangle (degrees of
    freedom ordered up the column, index 2b + l for base point b and level l) *)
Lemma two_levels : forall z0 z1 u v, z0 <> z1 -> u + z0 * v = 0 -> u + z1 * v = 0 -> u = 0 /\ v = 0.
Proof.
  intros z0 z1 u v Ne E0 E1. assert (V : (z0 - z1) * v = 0) by lra. apply Rmult_integral in V. destruct V as [V|V]; [lra|].
  rewrite V in E0. split; lra.
Qed.
Theorem prism_nonsingular : forall (h : nat -> nat -> R) z0 z1 eff, z0 <> z1 ->
  (h 1%nat 0%nat - h 0%nat 0%nat) * (h 2%nat 1%nat - h 0%nat 1%nat) - (h 2%nat 0%nat - h 0%nat 0%nat) * (h 1%nat 1%nat - h 0%nat 1%nat) <> 0 ->
  (forall b, (b < 3)%nat -> forall d, (d < 2)%nat -> eff (2 * b)%nat d = h b d /\ eff (2 * b + 1)%nat d = h b d) ->
  (forall b, (b < 3)%nat -> eff (2 * b)%nat 2%nat = z0 /\ eff (2 * b + 1)%nat 2%nat = z1) ->
  nonsingular 6 (fun i => basis 6 3 (eff i)).
Proof.
  intros h z0 z1 eff Nz Ht Hh Hz a S.
  pose proof (triangle_nonsingular h Ht) as TN.
  assert (B : forall b, (b < 3)%nat -> a 0%nat + h b 0%nat * a 1%nat + h b 1%nat * a 2%nat = 0 /\ a 3%nat + h b 0%nat * a 4%nat + h b 1%nat * a 5%nat = 0).
  { intros b Hb. destruct (Hh b Hb 0%nat ltac:(lia)) as [A0 A1]. destruct (Hh b Hb 1%nat ltac:(lia)) as [B0 B1]. destruct (Hz b Hb) as [C0 C1].
    apply (two_levels z0 z1); auto.
    - pose proof (S (2 * b)%nat ltac:(lia)) as Q. cbn [seq rsum fold_right basis Nat.sub] in Q. rewrite A0, B0, C0 in Q. rewrite <- Q. ring.
    - pose proof (S (2 * b + 1)%nat ltac:(lia)) as Q. cbn [seq rsum fold_right basis Nat.sub] in Q. rewrite A1, B1, C1 in Q. rewrite <- Q. ring. }
  assert (L : forall c, (c < 3)%nat -> a c = 0).
  { apply (TN a). intros r Hr. destruct (B r Hr) as [Q _]. simpl. lra. }
  assert (U : forall c, (c < 3)%nat -> a (3 + c)%nat = 0).
  { apply (TN (fun c => a (3 + c)%nat)). intros r Hr. destruct (B r Hr) as [_ Q]. simpl. lra. }
  intros c Hc. destruct (le_lt_dec 3 c) as [G|G]; [|auto]. replace c with (3 + (c - 3))%nat by lia. apply U. lia.
Qed.
Theorem box_nonsingular : forall (h : nat -> nat -> R) x0 x1 y0 y1 z0 z1 eff, x0 <> x1 -> y0 <> y1 -> z0 <> z1 ->
  (forall b, (b < 4)%nat -> h b 0%nat = (if Nat.ltb b 2 then x0 else x1) /\ h b 1%nat = (if Nat.even b then y0 else y1)) ->
  (forall b, (b < 4)%nat -> forall d, (d < 2)%nat -> eff (2 * b)%nat d = h b d /\ eff (2 * b + 1)%nat d = h b d) ->
  (forall b, (b < 4)%nat -> eff (2 * b)%nat 2%nat = z0 /\ eff (2 * b + 1)%nat 2%nat = z1) ->
  nonsingular 8 (fun i => basis 8 3 (eff i)).
Proof.
  intros h x0 x1 y0 y1 z0 z1 eff Nx Ny Nz Hb4 Hh Hz a S.
  pose proof (rectangle_nonsingular x0 x1 y0 y1 h Nx Ny Hb4) as TN.
  assert (B : forall b, (b < 4)%nat -> a 0%nat + h b 0%nat * a 1%nat + h b 1%nat * a 2%nat + h b 0%nat * h b 1%nat * a 3%nat = 0 /\ a 4%nat + h b 0%nat * a 5%nat + h b 1%nat * a 6%nat + h b 0%nat * h b 1%nat * a 7%nat = 0).
  { intros b Hb. destruct (Hh b Hb 0%nat ltac:(lia)) as [A0 A1]. destruct (Hh b Hb 1%nat ltac:(lia)) as [B0 B1]. destruct (Hz b Hb) as [C0 C1].
    apply (two_levels z0 z1); auto.
    - pose proof (S (2 * b)%nat ltac:(lia)) as Q. cbn [seq rsum fold_right basis Nat.sub] in Q. rewrite A0, B0, C0 in Q. rewrite <- Q. ring.
    - pose proof (S (2 * b + 1)%nat ltac:(lia)) as Q. cbn [seq rsum fold_right basis Nat.sub] in Q. rewrite A1, B1, C1 in Q. rewrite <- Q. ring. }
  assert (L : forall c, (c < 4)%nat -> a c = 0).
  { apply (TN a). intros r Hr. destruct (B r Hr) as [Q _]. simpl. lra. }
  assert (U : forall c, (c < 4)%nat -> a (4 + c)%nat = 0).
  { apply (TN (fun c => a (4 + c)%nat)). intros r Hr. destruct (B r Hr) as [_ Q]. simpl. lra. }
  intros c Hc. destruct (le_lt_dec 4 c) as [G|G]; [|auto]. replace c with (4 + (c - 4))%nat by lia. apply U. lia.
Qed.
Example interval_kernel : boundary_kernel 2 1 1 (fun i => match i with O => 5 | _ => 7 end) (fun i _ => match i with O => 1/2 | _ => 1 end) (fun i _ => INR i) 0%nat = 3.
Proof.
  rewrite (boundary_kernel_exact 2 1 1 _ _ _ (fun k => match k with O => 3 | _ => 4 end)).
  - simpl. lra.
  - simpl. auto.
  - apply (interval_nonsingular (fun i _ => match i with O => 1/2 | _ => 1 end)). simpl. lra.
  - intros [|[|i]] Hi; simpl; try lra; lia.
  - lra.
Qed.

Print Assumptions gauss_solves.
Print Assumptions boundary_kernel_exact.
Print Assumptions interior_kernel_keeps.
Print Assumptions interval_nonsingular.
Print Assumptions triangle_nonsingular.
Print Assumptions rectangle_nonsingular.
Print Assumptions prism_nonsingular.
Print Assumptions box_nonsingular.

(** Theorems about averaging and boundary recovery: C56, C57. *)
From Verif Require Import Base Gauss Recovery GaussProps.
From Coq Require Import Reals Lra Permutation.
Open Scope R_scope.

(** ** Specification: sum and mean of a list *)
Definition total (l : list R) : R := fold_right Rplus 0 l.
Definition mean (l : list R) : R := total l / INR (length l).

Lemma total_app : forall a b, total (a ++ b) = total a + total b.
Proof. induction a; simpl; intros; [ring|]. rewrite IHa. ring. Qed.
Lemma total_perm : forall a b, Permutation a b -> total a = total b.
Proof. unfold total. induction 1; simpl in *; try lra. Qed.
Lemma total_const : forall l c, (forall x, In x l -> x = c) -> total l = INR (length l) * c.
Proof. induction l; intros c H; [simpl; ring|]. cbn [length]. rewrite S_INR. simpl. rewrite (IHl c) by (intros; apply H; simpl; auto). rewrite (H a) by (simpl; auto). ring. Qed.
Lemma mean_const : forall l c, l <> [] -> (forall x, In x l -> x = c) -> mean l = c.
Proof.
  intros l c Ne H. unfold mean. rewrite (total_const l c H). assert (INR (length l) <> 0).
  { destruct l; [congruence|]. apply not_0_INR. simpl. lia. } field. auto.
Qed.

Section Nodes.
Context {N : Type} (eqb : N -> N -> bool).
Hypothesis eqb_spec : forall a b, reflect (a = b) (eqb a b).

(** the values that the cells hold at a node: one for each cell and local node mapped to g *)
Definition contributions (mesh : list (@bcell N)) (g : N) (j : nat) : list R :=
  map (fun p => snd p j) (filter (fun p => eqb (fst p) g) (concat mesh)).

Lemma fold_concat : forall (A B : Type) (f : A -> B -> A) l a, fold_left (fun a c => fold_left f c a) l a = fold_left f (concat l) a.
Proof. induction l; simpl; intros; auto. rewrite fold_left_app. apply IHl. Qed.
Lemma inner_add : forall dim (h : nat -> R) (g0 : N) (vo : field) g j,
  fold_left (fun vo j => addf eqb vo g0 j (h j)) (seq 0 dim) vo g j = if eqb g g0 && Nat.ltb j dim then vo g j + h j else vo g j.
Proof.
  induction dim; intros h g0 vo g j; [simpl; rewrite andb_false_r; reflexivity|].
  rewrite seq_S, fold_left_app. cbn [fold_left Nat.add]. unfold addf at 1. rewrite IHdim.
  destruct (eqb_spec g g0); cbn [andb]; auto.
  destruct (Nat.eqb_spec j dim); destruct (Nat.ltb_spec j (S dim)); destruct (Nat.ltb_spec j dim); try lia; auto. subst; auto.
Qed.
Lemma outer_add : forall (P : Type) (key : P -> N) dim (h : P -> nat -> R) l (vo : field) g j, (j < dim)%nat ->
  fold_left (fun vo p => fold_left (fun vo j => addf eqb vo (key p) j (h p j)) (seq 0 dim) vo) l vo g j
  = vo g j + total (map (fun p => h p j) (filter (fun p => eqb (key p) g) l)).
Proof.
  induction l as [|p l IH]; intros vo g j Hj; simpl; [ring|].
  rewrite IH by auto. rewrite inner_add. destruct (eqb_spec g (key p)) as [E|E].
  - destruct (eqb_spec (key p) g); [|congruence]. destruct (Nat.ltb_spec j dim); [|lia]. simpl. ring.
  - destruct (eqb_spec (key p) g); [congruence|]. simpl. ring.
Qed.
Lemma weights_count : forall dim nodes g j, (j < dim)%nat -> weights eqb dim nodes g j = INR (length (filter (fun g' => eqb g' g) (concat nodes))).
Proof.
  intros dim nodes g j Hj. unfold weights.
  rewrite (fold_concat _ _ (fun w g => fold_left (fun w j => addf eqb w g j 1) (seq 0 dim) w)).
  rewrite (outer_add N (fun g => g) dim (fun _ _ => 1)) by auto. rewrite (total_const _ 1).
  - rewrite map_length. ring.
  - intros x Hx. apply in_map_iff in Hx. destruct Hx as [? [<- _]]. reflexivity.
Qed.
Lemma total_div : forall l c, total (map (fun x => x / c) l) = total l / c.
Proof. induction l; simpl; intros; [unfold Rdiv; ring|]. rewrite IHl. unfold Rdiv. ring. Qed.
Lemma filter_fst : forall (l : @bcell N) g, length (filter (fun g' => eqb g' g) (map fst l)) = length (filter (fun p => eqb (fst p) g) l).
Proof. induction l as [|p l IH]; simpl; intros; auto. destruct (eqb (fst p) g); simpl; auto. Qed.

(** C56: the result at each degree of freedom is the mean of the values of the cells sharing it,
    whatever the output field held before *)
Theorem average_is_mean : forall dim mesh v_out g j, (j < dim)%nat ->
  average eqb dim mesh v_out g j = mean (contributions mesh g j).
Proof.
  intros dim mesh v_out g j Hj. unfold average, average_kernel.
  set (w := weights _ _ _).
  rewrite (fold_concat _ _ (fun vo p => fold_left (fun vo j => addf eqb vo (fst p) j (snd p j / w (fst p) j)) (seq 0 dim) vo)).
  rewrite (outer_add _ fst dim (fun p j => snd p j / w (fst p) j)) by auto. rewrite Rplus_0_l.
  assert (W : w g j = INR (length (contributions mesh g j))).
  { unfold w. rewrite weights_count by auto. unfold contributions. rewrite map_length, <- filter_fst.
    f_equal. f_equal. f_equal. symmetry. apply concat_map. }
  unfold mean. rewrite <- W, <- total_div. unfold contributions. rewrite map_map. f_equal.
  apply map_ext_in. intros p Hp. apply filter_In in Hp. destruct Hp as [_ Hp]. destruct (eqb_spec (fst p) g) as [->|]; [auto|discriminate].
Qed.

Lemma contributions_perm : forall m1 m2 g j, Permutation m1 m2 -> Permutation (contributions m1 g j) (contributions m2 g j).
Proof.
  intros m1 m2 g j P. unfold contributions. apply Permutation_map.
  induction P; cbn [concat].
  - constructor.
  - rewrite !filter_app. apply Permutation_app_head. auto.
  - rewrite !filter_app, !app_assoc. apply Permutation_app_tail, Permutation_app_comm.
  - etransitivity; eauto.
Qed.
(** it does not depend on the order of the cells *)
Theorem average_order_independent : forall dim m1 m2 v_out g j, (j < dim)%nat -> Permutation m1 m2 ->
  average eqb dim m1 v_out g j = average eqb dim m2 v_out g j.
Proof.
  intros dim m1 m2 v_out g j Hj P. rewrite !average_is_mean by auto. unfold mean.
  rewrite (total_perm _ _ (contributions_perm m1 m2 g j P)), (Permutation_length (contributions_perm m1 m2 g j P)). reflexivity.
Qed.
(** a field that is already single-valued is preserved *)
Theorem average_preserves_continuous : forall dim mesh v_out (x : N -> nat -> R) g j, (j < dim)%nat ->
  (forall p, In p (concat mesh) -> snd p j = x (fst p) j) -> In g (map fst (concat mesh)) ->
  average eqb dim mesh v_out g j = x g j.
Proof.
  intros dim mesh v_out x g j Hj H I. rewrite average_is_mean by auto. apply mean_const.
  - apply in_map_iff in I. destruct I as [p [E I]]. unfold contributions. intros Q. apply map_eq_nil in Q.
    assert (F : In p (filter (fun p => eqb (fst p) g) (concat mesh))). { apply filter_In. split; auto. destruct (eqb_spec (fst p) g); auto. }
    rewrite Q in F. destruct F.
  - intros y Hy. unfold contributions in Hy. apply in_map_iff in Hy. destruct Hy as [p [<- Hp]]. apply filter_In in Hp. destruct Hp as [Hp E].
    rewrite (H p Hp). destruct (eqb_spec (fst p) g) as [->|]; [auto|discriminate].
Qed.
(** it stays within any bounds on the contributions *)
Theorem average_bounds : forall dim mesh v_out lo hi g j, (j < dim)%nat -> In g (map fst (concat mesh)) ->
  (forall p, In p (concat mesh) -> fst p = g -> lo <= snd p j <= hi) -> lo <= average eqb dim mesh v_out g j <= hi.
Proof.
  intros dim mesh v_out lo hi g j Hj I H. rewrite average_is_mean by auto.
  assert (B : forall y, In y (contributions mesh g j) -> lo <= y <= hi).
  { intros y Hy. unfold contributions in Hy. apply in_map_iff in Hy. destruct Hy as [p [<- Hp]]. apply filter_In in Hp. destruct Hp as [Hp E].
    apply H; auto. destruct (eqb_spec (fst p) g); [auto|discriminate]. }
  assert (Ne : contributions mesh g j <> []).
  { apply in_map_iff in I. destruct I as [p [E I]]. unfold contributions. intros Q. apply map_eq_nil in Q.
    assert (F : In p (filter (fun p => eqb (fst p) g) (concat mesh))). { apply filter_In. split; auto. destruct (eqb_spec (fst p) g); auto. }
    rewrite Q in F. destruct F. }
  set (l := contributions mesh g j) in *. clearbody l.
  assert (T : INR (length l) * lo <= total l <= INR (length l) * hi).
  { clear Ne. induction l; [simpl; lra|]. cbn [length]. rewrite S_INR. simpl. pose proof (B a (or_introl eq_refl)). specialize (IHl (fun y Hy => B y (or_intror Hy))). lra. }
  assert (P : 0 < INR (length l)). { destruct l; [congruence|]. apply lt_0_INR. simpl. lia. }
  unfold mean. split; apply Rmult_le_reg_r with (INR (length l)); auto; replace (total l / INR (length l) * INR (length l)) with (total l) by (field; lra); lra.
Qed.
(** it is linear *)
Definition map_values (f : N -> nat -> R -> R) (mesh : list (@bcell N)) : list (@bcell N) := map (map (fun p => (fst p, fun j => f (fst p) j (snd p j)))) mesh.
Definition combine_cells (a b : R) (c1 c2 : @bcell N) : @bcell N := map (fun p => (fst (fst p), fun j => a * snd (fst p) j + b * snd (snd p) j)) (combine c1 c2).
Definition combine_meshes (a b : R) (m1 m2 : list (@bcell N)) : list (@bcell N) := map (fun p => combine_cells a b (fst p) (snd p)) (combine m1 m2).
Lemma contributions_combine : forall a b m1 m2 g j, map (map fst) m1 = map (map fst) m2 ->
  total (contributions (combine_meshes a b m1 m2) g j) = a * total (contributions m1 g j) + b * total (contributions m2 g j) /\
  length (contributions (combine_meshes a b m1 m2) g j) = length (contributions m1 g j) /\ length (contributions m2 g j) = length (contributions m1 g j).
Proof.
  intros a b. unfold contributions.
  induction m1 as [|c1 m1 IH]; intros [|c2 m2] g j E; simpl in E; try discriminate; [simpl; repeat split; ring|].
  injection E; intros E2 E1. destruct (IH m2 g j E2) as [I1 [I2 I3]]. cbn [combine_meshes combine map fst snd concat]. rewrite !filter_app, !map_app, !total_app, !app_length.
  fold (combine_meshes a b m1 m2). rewrite I1, I2, I3.
  assert (C : total (map (fun p => snd p j) (filter (fun p => eqb (fst p) g) (combine_cells a b c1 c2))) =
              a * total (map (fun p => snd p j) (filter (fun p => eqb (fst p) g) c1)) + b * total (map (fun p => snd p j) (filter (fun p => eqb (fst p) g) c2)) /\
              length (map (fun p => snd p j) (filter (fun p => eqb (fst p) g) (combine_cells a b c1 c2))) = length (map (fun p => snd p j) (filter (fun p => eqb (fst p) g) c1)) /\
              length (map (fun p => snd p j) (filter (fun p => eqb (fst p) g) c2)) = length (map (fun p => snd p j) (filter (fun p => eqb (fst p) g) c1))).
  { clear - E1. revert c2 E1. induction c1 as [|p1 c1 IH]; intros [|p2 c2] E; simpl in E; try discriminate; [simpl; repeat split; ring|].
    injection E; intros Et Eh. destruct (IH c2 Et) as [J1 [J2 J3]]. cbn [combine_cells combine map fst snd filter]. fold (combine_cells a b c1 c2).
    rewrite <- Eh. destruct (eqb (fst p1) g); cbn [map total fold_right length fst snd]; unfold total in *; rewrite ?J1, ?J2, ?J3; repeat split; auto; ring. }
  destruct C as [C1 [C2 C3]]. rewrite C1, C2, C3. repeat split; auto; ring.
Qed.
Theorem average_linear : forall dim a b m1 m2 v_out g j, (j < dim)%nat -> map (map fst) m1 = map (map fst) m2 ->
  average eqb dim (combine_meshes a b m1 m2) v_out g j = a * average eqb dim m1 v_out g j + b * average eqb dim m2 v_out g j.
Proof.
  intros dim a b m1 m2 v_out g j Hj E. rewrite !average_is_mean by auto. unfold mean.
  destruct (contributions_combine a b m1 m2 g j E) as [-> [-> ->]]. unfold Rdiv. ring.
Qed.
End Nodes.

(** ** Extruded meshes *)
Lemma node_eqb_spec : forall a b, reflect (a = b) (node_eqb a b).
Proof.
  intros [a1 a2] [b1 b2]. unfold node_eqb. simpl. destruct (Nat.eqb_spec a1 b1); destruct (Nat.eqb_spec a2 b2); simpl; constructor; congruence.
Qed.
(** the base cells containing a node of the base mesh *)
Definition cells_at (base : list (list nat)) (b : nat) : list nat :=
  flat_map (fun p => map (fun _ => fst p) (filter (Nat.eqb b) (snd p))) (combine (seq 0 (length base)) base).

Definition tsum (l : list (node * (nat -> R))) (g : node) : R := total (map (fun p => snd p 0%nat) (filter (fun p => node_eqb (fst p) g) l)).
Lemma tsum_app : forall a b g, tsum (a ++ b) g = tsum a g + tsum b g.
Proof. intros. unfold tsum. rewrite filter_app, map_app, total_app. reflexivity. Qed.
Definition here (c : list nat) (b : nat) : R := INR (length (filter (Nat.eqb b) c)).
Lemma tsum_cell : forall c l v b k, tsum (map (fun g => (g, fun _ => v)) (layer_cell c l)) (b, k) = here c b * ((if Nat.eqb k l then v else 0) + (if Nat.eqb k (S l) then v else 0)).
Proof.
  induction c as [|b' c IH]; intros l v b k; [unfold tsum, here; simpl; ring|].
  change (layer_cell (b' :: c) l) with ([(b', l); (b', S l)] ++ layer_cell c l). rewrite map_app, tsum_app, IH.
  unfold here. cbn [filter]. rewrite (Nat.eqb_sym b b'). unfold tsum. cbn [map filter fst snd]. unfold node_eqb; cbn [fst snd].
  destruct (Nat.eqb b' b); cbn [andb length]; [rewrite S_INR|simpl; ring].
  rewrite (Nat.eqb_sym l k), (Nat.eqb_sym (S l) k). destruct (Nat.eqb_spec k l); destruct (Nat.eqb_spec k (S l)); try lia; simpl; ring.
Qed.
Lemma tsum_column : forall c (q : nat -> R) b k L, tsum (concat (map (fun l => map (fun g => (g, fun _ => q l)) (layer_cell c l)) (seq 0 L))) (b, k)
  = here c b * ((if Nat.ltb k L then q k else 0) + (match k with O => 0 | S k' => if Nat.ltb k' L then q k' else 0 end)).
Proof.
  intros c q b k L. induction L as [|L IH]; [unfold tsum; simpl; destruct k; ring|].
  rewrite seq_S, map_app, concat_app, tsum_app, IH. cbn [map concat Nat.add]. rewrite app_nil_r, tsum_cell.
  rewrite <- Rmult_plus_distr_l. f_equal.
  assert (A : (if Nat.ltb k (S L) then q k else 0) = (if Nat.ltb k L then q k else 0) + (if Nat.eqb k L then q L else 0)).
  { destruct (Nat.ltb_spec k (S L)); destruct (Nat.ltb_spec k L); destruct (Nat.eqb_spec k L); try lia; subst; ring. }
  assert (B : match k with O => 0 | S k' => if Nat.ltb k' (S L) then q k' else 0 end = match k with O => 0 | S k' => if Nat.ltb k' L then q k' else 0 end + (if Nat.eqb k (S L) then q L else 0)).
  { destruct k as [|k]; [simpl; ring|]. change (Nat.eqb (S k) (S L)) with (Nat.eqb k L). destruct (Nat.ltb_spec k (S L)); destruct (Nat.ltb_spec k L); destruct (Nat.eqb_spec k L); try lia; subst; ring. }
  rewrite A, B. ring.
Qed.
Definition around (L : nat) (q : nat -> R) (k : nat) : R := (if Nat.ltb k L then q k else 0) + (match k with O => 0 | S k' => if Nat.ltb k' L then q k' else 0 end).
Lemma total_scale : forall (A : Type) (l : list A) f c, total (map (fun x => c * f x) l) = c * total (map f l).
Proof. induction l; simpl; intros; [ring|]. rewrite IHl. ring. Qed.
Lemma tsum_all : forall base L q b k, tsum (concat (broken_dg0 base L q)) (b, k) = total (map (fun i => around L (q i) k) (cells_at base b)).
Proof.
  intros base L q b k. unfold broken_dg0, cells_at. generalize (combine (seq 0 (length base)) base). induction l as [|[i c] l IH]; [reflexivity|].
  cbn [flat_map fst snd]. rewrite concat_app, tsum_app, IH, map_app, total_app. f_equal.
  rewrite (tsum_column c (q i)). fold (around L (q i) k). unfold here. rewrite map_map. rewrite (total_const _ (around L (q i) k)).
  - rewrite map_length. reflexivity.
  - intros x Hx. apply in_map_iff in Hx. destruct Hx as [? [<- _]]. reflexivity.
Qed.
Lemma count_all : forall base L q b k, INR (length (contributions node_eqb (broken_dg0 base L q) (b, k) 0)) = total (map (fun i => around L (fun _ => 1) k) (cells_at base b)).
Proof.
  intros. rewrite <- (tsum_all base L (fun _ _ => 1) b k). unfold tsum, contributions. rewrite map_length.
  rewrite (total_const _ 1).
  - rewrite map_length, Rmult_1_r. f_equal. unfold broken_dg0. generalize (combine (seq 0 (length base)) base). induction l as [|[i c] l IH]; [reflexivity|].
    cbn [flat_map fst snd]. rewrite !concat_app, !filter_app, !app_length, IH. f_equal. clear.
    induction (seq 0 L) as [|m ls IH]; [reflexivity|]. cbn [map concat]. rewrite !filter_app, !app_length, IH. f_equal. clear.
    induction (layer_cell c m); [reflexivity|]. simpl. destruct (node_eqb a (b, k)); simpl; auto.
  - intros x Hx. apply in_map_iff in Hx. destruct Hx as [p [<- Hp]]. apply filter_In in Hp. destruct Hp as [Hp _].
    apply in_concat in Hp. destruct Hp as [cell [Hc Hp]]. unfold broken_dg0 in Hc. apply in_flat_map in Hc. destruct Hc as [pc [_ Hc]].
    apply in_map_iff in Hc. destruct Hc as [l [<- _]]. apply in_map_iff in Hp. destruct Hp as [g [<- _]]. reflexivity.
Qed.
Lemma average_column : forall base L q x_out b k, average node_eqb 1 (broken_dg0 base L q) x_out (b, k) 0%nat
  = total (map (fun i => around L (q i) k) (cells_at base b)) / (INR (length (cells_at base b)) * around L (fun _ => 1) k).
Proof.
  intros. rewrite average_is_mean by (auto using node_eqb_spec). unfold mean. rewrite count_all.
  change (total (contributions node_eqb (broken_dg0 base L q) (b, k) 0)) with (tsum (concat (broken_dg0 base L q)) (b, k)). rewrite tsum_all. f_equal.
  rewrite (total_const _ (around L (fun _ => 1) k)); [rewrite map_length; reflexivity|].
  intros x Hx. apply in_map_iff in Hx. destruct Hx as [? [<- _]]. reflexivity.
Qed.

(** *** Par_loops that write consistent values *)
Section Loop.
Context {N : Type} (eqb : N -> N -> bool).
Hypothesis eqb_spec : forall a b, reflect (a = b) (eqb a b).
Lemma write_local_spec : forall cell s out (x : N -> R) d F g, (forall k, (k < length cell)%nat -> out (s + k)%nat = F (nth k cell d)) ->
  fold_left (fun x p => fun g => if eqb g (snd p) then out (fst p) else x g) (combine (seq s (length cell)) cell) x g = if existsb (eqb g) cell then F g else x g.
Proof.
  induction cell as [|c cell IH]; intros s out x d F g H; [reflexivity|]. cbn [length seq combine fold_left existsb fst snd].
  rewrite (IH (S s) out _ d F).
  - destruct (eqb_spec g c) as [->|]; simpl; [|reflexivity]. destruct (existsb (eqb c) cell); auto.
    specialize (H 0%nat ltac:(simpl; lia)). rewrite Nat.add_0_r in H. exact H.
  - intros k Hk. replace (S s + k)%nat with (s + S k)%nat by lia. apply (H (S k)). simpl. lia.
Qed.
Lemma par_loop_spec : forall kernel cells d x_in x_out F g,
  (forall cell, In cell cells -> forall k, (k < length cell)%nat -> kernel (gather x_in cell d) k = F (nth k cell d)) ->
  par_loop eqb kernel cells d x_in x_out g = if existsb (existsb (eqb g)) cells then F g else x_out g.
Proof.
  intros kernel cells d x_in x_out F g. unfold par_loop. revert x_out. induction cells as [|c cells IH]; intros x_out H; [reflexivity|].
  cbn [fold_left existsb]. rewrite IH by (intros; apply H; simpl; auto). unfold write_local.
  rewrite (write_local_spec c 0 (kernel (gather x_in c d)) x_out d F g) by (intros k Hk; apply (H c); simpl; auto).
  destruct (existsb (eqb g) c); simpl; auto. destruct (existsb (existsb (eqb g)) cells); auto.
Qed.
End Loop.
Lemma layer_cell_length : forall c l, length (layer_cell c l) = (2 * length c)%nat.
Proof. induction c as [|b c IH]; intros l; auto. change (layer_cell (b :: c) l) with ((b, l) :: (b, S l) :: layer_cell c l). cbn [length]. rewrite IH. lia. Qed.
Lemma layer_cell_nth : forall c l d i, (i < length c)%nat ->
  nth (2 * i) (layer_cell c l) d = (nth i c 0%nat, l) /\ nth (2 * i + 1) (layer_cell c l) d = (nth i c 0%nat, S l).
Proof.
  induction c as [|b c IH]; intros l d i Hi; [simpl in Hi; lia|]. destruct i as [|i]; [split; reflexivity|].
  replace (2 * S i)%nat with (S (S (2 * i))) by lia. replace (S (S (2 * i)) + 1)%nat with (S (S (2 * i + 1))) by lia.
  change (layer_cell (b :: c) l) with ((b, l) :: (b, S l) :: layer_cell c l). cbn [nth]. apply IH. simpl in Hi. lia.
Qed.
Lemma even_odd_cases : forall k n, (k < 2 * n)%nat -> exists i, (i < n)%nat /\ (k = 2 * i \/ k = 2 * i + 1)%nat.
Proof. intros k n H. exists (Nat.div2 k). pose proof (Nat.div2_odd k) as D. destruct (Nat.odd k); simpl Nat.b2n in D; lia. Qed.
Lemma div2_even : forall i, Nat.div2 (2 * i) = i /\ Nat.even (2 * i) = true.
Proof. intros. split; [apply Nat.div2_double|]. rewrite Nat.even_mul. reflexivity. Qed.
Lemma div2_odd : forall i, Nat.div2 (2 * i + 1) = i /\ Nat.even (2 * i + 1) = false.
Proof. intros. split; [rewrite Nat.add_1_r; apply Nat.div2_succ_double|]. rewrite Nat.even_add, Nat.even_mul. reflexivity. Qed.

Lemma in_layer : forall base l b k, existsb (existsb (node_eqb (b, k))) (map (fun c => layer_cell c l) base)
  = existsb (existsb (Nat.eqb b)) base && (Nat.eqb k l || Nat.eqb k (S l)).
Proof.
  intros base l b k. induction base as [|c base IH]; [reflexivity|]. cbn [map existsb]. rewrite IH, andb_orb_distrib_l. f_equal.
  clear. induction c as [|b' c IH]; [reflexivity|]. change (layer_cell (b' :: c) l) with ((b', l) :: (b', S l) :: layer_cell c l). cbn [existsb].
  rewrite IH. unfold node_eqb; cbn [fst snd]. destruct (Nat.eqb b b'); destruct (Nat.eqb k l); destruct (Nat.eqb k (S l)); destruct (existsb (Nat.eqb b) c); reflexivity.
Qed.
(** the corrected field: extrapolation at the two ends, the rest untouched *)
Definition corrected (L : nat) (x : node -> R) (b k : nat) : R :=
  if Nat.eqb k 0 then 2 * x (b, 0%nat) - x (b, 1%nat)
  else if Nat.eqb k L then (if Nat.eqb L 1 then x (b, 1%nat) else 2 * x (b, L) - x (b, (L - 1)%nat)) else x (b, k).
Theorem extruded_correction : forall base L x b k, (1 <= L)%nat ->
  extruded_apply base L x (b, k) = if existsb (existsb (Nat.eqb b)) base then corrected L x b k else x (b, k).
Proof.
  intros base L x b k HL. unfold extruded_apply. cbv zeta.
  rewrite (par_loop_spec node_eqb node_eqb_spec bot_kernel _ _ _ _ (fun g => if Nat.eqb (snd g) 0 then 2 * x (fst g, 0%nat) - x (fst g, 1%nat) else x (fst g, 1%nat))).
  - rewrite (par_loop_spec node_eqb node_eqb_spec top_kernel _ _ _ _ (fun g => if Nat.eqb (snd g) L then - x (fst g, (L-1)%nat) + 2 * x (fst g, L) else x (fst g, (L-1)%nat))).
    + rewrite !in_layer. cbn [fst snd]. destruct (existsb (existsb (Nat.eqb b)) base); cbn [andb]; auto. unfold corrected. replace (S (L - 1)) with L by lia.
      destruct (Nat.eqb_spec k 0) as [->|K0]; [reflexivity|]. cbn [orb]. destruct (Nat.eqb_spec k 1) as [->|K1].
      * destruct (Nat.eqb_spec 1 L) as [<-|]; [reflexivity|]. reflexivity.
      * destruct (Nat.eqb_spec k (L - 1)) as [->|]; cbn [orb].
        -- destruct (Nat.eqb_spec (L - 1) L); [lia|reflexivity].
        -- destruct (Nat.eqb_spec k L) as [->|]; auto. destruct (Nat.eqb_spec L 1); [lia|]. ring.
    + intros cell Hc m Hm. apply in_map_iff in Hc. destruct Hc as [c [<- _]]. rewrite layer_cell_length in Hm. destruct (even_odd_cases _ _ Hm) as [i [Hi [-> | ->]]];
        destruct (layer_cell_nth c (L - 1) (0, 0)%nat i Hi) as [E1 E2]; unfold top_kernel, gather; [destruct (div2_even i) as [-> ->]|destruct (div2_odd i) as [-> ->]]; rewrite ?E1, ?E2; cbn [fst snd].
      * destruct (Nat.eqb_spec (L - 1) L); [lia|reflexivity].
      * replace (S (L - 1)) with L by lia. rewrite Nat.eqb_refl. reflexivity.
  - intros cell Hc m Hm. apply in_map_iff in Hc. destruct Hc as [c [<- _]]. rewrite layer_cell_length in Hm. destruct (even_odd_cases _ _ Hm) as [i [Hi [-> | ->]]];
      destruct (layer_cell_nth c 0 (0, 0)%nat i Hi) as [E1 E2]; unfold bot_kernel, gather; [destruct (div2_even i) as [-> ->]|destruct (div2_odd i) as [-> ->]]; rewrite ?E1, ?E2; reflexivity.
Qed.

Lemma total_lin : forall (A : Type) (l : list A) a b f g, a * total (map f l) + b * total (map g l) = total (map (fun i => a * f i + b * g i) l).
Proof. induction l; simpl; intros; [ring|]. rewrite <- IHl. ring. Qed.
Lemma cells_at_nonempty : forall base b, existsb (existsb (Nat.eqb b)) base = true -> cells_at base b <> [].
Proof.
  intros base b H Q. apply existsb_exists in H. destruct H as [c [Hc H]]. apply existsb_exists in H. destruct H as [b' [Hb E]]. apply Nat.eqb_eq in E. subst b'.
  apply In_nth with (d := @nil nat) in Hc. destruct Hc as [i [Hi E]].
  assert (I : In i (cells_at base b)).
  { unfold cells_at. apply in_flat_map. exists (i, c). split.
    - assert (Q2 : nth i (combine (seq 0 (length base)) base) (0%nat, []) = (i, c)) by (rewrite combine_nth by (apply seq_length); rewrite seq_nth by auto; rewrite E; reflexivity).
      rewrite <- Q2. apply nth_In. rewrite combine_length, seq_length. lia.
    - cbn [fst snd]. apply in_map_iff. exists b. split; auto. apply filter_In. split; auto. apply Nat.eqb_refl. }
  rewrite Q in I. destruct I.
Qed.
(** C57: for every base mesh, every number of layers from two on and every layer depth, if the
    input is in each column a linear profile sampled at the layer centres, the recovered field is
    exact at every level: at each node, the mean over the columns around it of their profiles. *)
Theorem extruded_recovery_exact : forall base L (A B : nat -> R) h q x_out b k, (2 <= L)%nat ->
  (forall i l, (l < L)%nat -> q i l = A i + B i * ((INR l + / 2) * h)) ->
  existsb (existsb (Nat.eqb b)) base = true -> (k <= L)%nat ->
  recover_extruded base L q x_out (b, k) = mean (map (fun i => A i + B i * (INR k * h)) (cells_at base b)).
Proof.
  intros base L A B h q x_out b k HL Hq Hb Hk. unfold recover_extruded. rewrite extruded_correction by lia. rewrite Hb.
  assert (Nz : INR (length (cells_at base b)) <> 0).
  { pose proof (cells_at_nonempty base b Hb). destruct (cells_at base b); [congruence|]. apply not_0_INR. simpl. lia. }
  unfold mean. rewrite map_length. unfold corrected. rewrite !average_column. set (n := INR (length (cells_at base b))) in *.
  assert (In0 : around L (fun _ => 1) 0 = 1). { unfold around. destruct (Nat.ltb_spec 0 L); [ring|lia]. }
  assert (InL : around L (fun _ => 1) L = 1). { unfold around. destruct L as [|L']; [lia|]. destruct (Nat.ltb_spec (S L') (S L')); [lia|]. destruct (Nat.ltb_spec L' (S L')); [ring|lia]. }
  assert (Ink : forall m, (1 <= m < L)%nat -> around L (fun _ => 1) m = 2). { intros [|m] Hm; [lia|]. unfold around. destruct (Nat.ltb_spec (S m) L); [|lia]. destruct (Nat.ltb_spec m L); [ring|lia]. }
  assert (V0 : forall i, around L (q i) 0 = A i + B i * (/ 2 * h)). { intros i. unfold around. destruct (Nat.ltb_spec 0 L); [|lia]. rewrite Hq by lia. simpl. ring. }
  assert (VL : forall i, around L (q i) L = A i + B i * ((INR L - / 2) * h)).
  { intros i. unfold around. destruct L as [|L']; [lia|]. destruct (Nat.ltb_spec (S L') (S L')); [lia|]. destruct (Nat.ltb_spec L' (S L')); [|lia]. rewrite Hq by lia. rewrite S_INR. field. }
  assert (Vk : forall m i, (1 <= m < L)%nat -> around L (q i) m = 2 * (A i + B i * (INR m * h))).
  { intros [|m] i Hm; [lia|]. unfold around. destruct (Nat.ltb_spec (S m) L); [|lia]. destruct (Nat.ltb_spec m L); [|lia]. rewrite !Hq by lia. rewrite S_INR. field. }
  destruct (Nat.eqb_spec k 0) as [->|K0]; [|destruct (Nat.eqb_spec k L) as [->|KL]].
  - rewrite In0, (Ink 1%nat) by lia. rewrite (map_ext _ _ V0), (map_ext _ _ (fun i => Vk 1%nat i ltac:(lia))).
    transitivity ((2 * total (map (fun i => A i + B i * (/ 2 * h)) (cells_at base b)) + (- / 2) * total (map (fun i => 2 * (A i + B i * (INR 1 * h))) (cells_at base b))) / n); [field; auto|].
    rewrite total_lin. f_equal. f_equal. apply map_ext. intros i. simpl. field.
  - destruct (Nat.eqb_spec L 1); [lia|]. rewrite InL, (Ink (L - 1)%nat) by lia. rewrite (map_ext _ _ VL), (map_ext _ _ (fun i => Vk (L - 1)%nat i ltac:(lia))).
    match goal with |- 2 * (total ?u / _) - total ?v / _ = _ => transitivity ((2 * total u + (- / 2) * total v) / n); [field; auto|] end.
    rewrite total_lin. f_equal. f_equal. apply map_ext. intros i. rewrite minus_INR by lia. simpl. field.
  - rewrite Ink by lia. rewrite (map_ext _ _ (fun i => Vk k i ltac:(lia))). rewrite total_scale. field. auto.
Qed.
(** a field that depends linearly on height alone is reproduced exactly *)
Theorem extruded_recovery_linear : forall base L a s h x_out b k, (2 <= L)%nat -> existsb (existsb (Nat.eqb b)) base = true -> (k <= L)%nat ->
  recover_extruded base L (fun _ l => a + s * ((INR l + / 2) * h)) x_out (b, k) = a + s * (INR k * h).
Proof.
  intros base L a s h x_out b k HL Hb Hk. rewrite (extruded_recovery_exact base L (fun _ => a) (fun _ => s) h) by auto.
  apply mean_const.
  - intros Q. apply map_eq_nil in Q. exact (cells_at_nonempty base b Hb Q).
  - intros x Hx. apply in_map_iff in Hx. destruct Hx as [? [<- _]]. reflexivity.
Qed.
(** With a single layer, or with layers of different depths, the profile is not reproduced: the full
    statement of C57 ("every number of layers") fails there. *)
Theorem extruded_single_layer_refuted : exists a s h, recover_extruded [[0]]%nat 1 (fun _ l => a + s * ((INR l + / 2) * h)) (fun _ => 0) (0, 1)%nat <> a + s * (INR 1 * h).
Proof.
  exists 0, 1, 1. unfold recover_extruded. rewrite extruded_correction by lia. cbn [existsb Nat.eqb orb]. unfold corrected. cbn [Nat.eqb].
  rewrite average_column. unfold cells_at, around. simpl. lra.
Qed.
(** layers [0,1] and [1,3]: centres 1/2 and 2; the recovered surface value of z is not 0 *)
Theorem extruded_stretched_refuted : recover_extruded [[0]]%nat 2 (fun _ l => match l with O => / 2 | _ => 2 end) (fun _ => 0) (0, 0)%nat <> 0.
Proof.
  unfold recover_extruded. rewrite extruded_correction by lia. cbn [existsb Nat.eqb orb]. unfold corrected. cbn [Nat.eqb].
  rewrite !average_column. unfold cells_at, around. simpl. lra.
Qed.

(** *** HCurl *)
Lemma hdof_eqb_spec : forall a b, reflect (a = b) (hdof_eqb a b).
Proof.
  intros [a1 a2|a1 a2] [b1 b2|b1 b2]; simpl; try (constructor; congruence); destruct (Nat.eqb_spec a1 b1); destruct (Nat.eqb_spec a2 b2); simpl; constructor; congruence.
Qed.
Lemma hcurl_in_hori : forall nh base l e k, existsb (existsb (hdof_eqb (Hori e k))) (map (fun c => hcurl_cell nh c l) base)
  = existsb (existsb (Nat.eqb e)) (map fst base) && (Nat.eqb k l || Nat.eqb k (S l)).
Proof.
  intros nh base l e k. rewrite <- in_layer. rewrite map_map. induction base as [|c base IH]; [reflexivity|]. cbn [map existsb]. rewrite IH. f_equal. unfold hcurl_cell.
  rewrite existsb_app. replace (existsb (hdof_eqb (Hori e k)) (map (fun b => Vert b l) (snd c))) with false.
  - rewrite orb_false_r. clear. induction (layer_cell (fst c) l) as [|p r IH]; [reflexivity|]. cbn [map existsb]. rewrite IH. reflexivity.
  - clear. induction (snd c); simpl; auto.
Qed.
(** the horizontal degrees of freedom are corrected like a scalar field, the vertical ones are kept *)
Theorem hcurl_correction : forall base nh L x, (1 <= L)%nat -> (forall c, In c base -> length (fst c) = nh) ->
  (forall e k, hcurl_apply base nh L x (Hori e k) = if existsb (existsb (Nat.eqb e)) (map fst base) then corrected L (fun p => x (Hori (fst p) (snd p))) e k else x (Hori e k)) /\
  (forall b l, hcurl_apply base nh L x (Vert b l) = x (Vert b l)).
Proof.
  intros base nh L x HL Hn.
  assert (BotK : forall cell, In cell (map (fun c => hcurl_cell nh c 0) base) -> forall m, (m < length cell)%nat ->
     hcurl_kernel bot_kernel nh (gather x cell (Hori 0 0)) m = match nth m cell (Hori 0 0) with Hori e k => if Nat.eqb k 0 then 2 * x (Hori e 0) - x (Hori e 1) else x (Hori e 1) | Vert b l => x (Vert b l) end).
  { intros cell Hc m Hm. apply in_map_iff in Hc. destruct Hc as [c [<- Hc]]. specialize (Hn c Hc). unfold hcurl_kernel.
    assert (Len : length (map (fun p => Hori (fst p) (snd p)) (layer_cell (fst c) 0)) = (2 * nh)%nat) by (rewrite map_length, layer_cell_length; congruence).
    destruct (Nat.ltb_spec m (2 * nh)) as [Lt|Ge].
    - rewrite <- Hn in Lt. destruct (even_odd_cases _ _ Lt) as [i [Hi Em]]. destruct (layer_cell_nth (fst c) 0 (0, 0)%nat i Hi) as [E1 E2].
      assert (G : forall j, (j < 2 * nh)%nat -> nth j (hcurl_cell nh c 0) (Hori 0 0) = Hori (fst (nth j (layer_cell (fst c) 0) (0,0)%nat)) (snd (nth j (layer_cell (fst c) 0) (0,0)%nat))).
      { intros j Hj. unfold hcurl_cell. rewrite app_nth1 by (rewrite Len; auto). apply (map_nth (fun p => Hori (fst p) (snd p)) _ (0, 0)%nat). }
      unfold bot_kernel, gather. destruct Em as [-> | ->]; [destruct (div2_even i) as [-> ->]|destruct (div2_odd i) as [-> ->]]; rewrite !G by lia; rewrite ?E1, ?E2; reflexivity.
    - unfold gather. unfold hcurl_cell. rewrite app_nth2 by (rewrite Len; auto). rewrite Len. unfold hcurl_cell in Hm. rewrite app_length, Len, map_length in Hm.
      rewrite (nth_indep _ (Hori 0 0) (Vert 0 0)) by (rewrite map_length; lia). rewrite (map_nth (fun b => Vert b 0%nat)). reflexivity. }
  assert (TopK : forall cell, In cell (map (fun c => hcurl_cell nh c (L - 1)) base) -> forall m, (m < length cell)%nat ->
     hcurl_kernel top_kernel nh (gather x cell (Hori 0 0)) m = match nth m cell (Hori 0 0) with Hori e k => if Nat.eqb k L then - x (Hori e (L - 1)) + 2 * x (Hori e L) else x (Hori e (L - 1)) | Vert b l => x (Vert b l) end).
  { intros cell Hc m Hm. apply in_map_iff in Hc. destruct Hc as [c [<- Hc]]. specialize (Hn c Hc). unfold hcurl_kernel.
    assert (Len : length (map (fun p => Hori (fst p) (snd p)) (layer_cell (fst c) (L - 1))) = (2 * nh)%nat) by (rewrite map_length, layer_cell_length; congruence).
    destruct (Nat.ltb_spec m (2 * nh)) as [Lt|Ge].
    - rewrite <- Hn in Lt. destruct (even_odd_cases _ _ Lt) as [i [Hi Em]]. destruct (layer_cell_nth (fst c) (L - 1) (0, 0)%nat i Hi) as [E1 E2].
      assert (G : forall j, (j < 2 * nh)%nat -> nth j (hcurl_cell nh c (L - 1)) (Hori 0 0) = Hori (fst (nth j (layer_cell (fst c) (L - 1)) (0,0)%nat)) (snd (nth j (layer_cell (fst c) (L - 1)) (0,0)%nat))).
      { intros j Hj. unfold hcurl_cell. rewrite app_nth1 by (rewrite Len; auto). apply (map_nth (fun p => Hori (fst p) (snd p)) _ (0, 0)%nat). }
      unfold top_kernel, gather. destruct Em as [-> | ->]; [destruct (div2_even i) as [-> ->]|destruct (div2_odd i) as [-> ->]]; rewrite !G by lia; rewrite ?E1, ?E2; cbn [fst snd].
      + destruct (Nat.eqb_spec (L - 1) L); [lia|reflexivity].
      + replace (S (L - 1)) with L by lia. rewrite Nat.eqb_refl. reflexivity.
    - unfold gather. unfold hcurl_cell. rewrite app_nth2 by (rewrite Len; auto). rewrite Len. unfold hcurl_cell in Hm. rewrite app_length, Len, map_length in Hm.
      rewrite (nth_indep _ (Hori 0 0) (Vert 0 (L - 1))) by (rewrite map_length; lia). rewrite (map_nth (fun b => Vert b (L - 1)%nat)). reflexivity. }
  pose proof (fun xo g => par_loop_spec hdof_eqb hdof_eqb_spec _ _ _ x xo (fun d => match d with Hori e k => if Nat.eqb k 0 then 2 * x (Hori e 0) - x (Hori e 1) else x (Hori e 1) | Vert b l => x (Vert b l) end) g BotK) as RB.
  pose proof (fun xo g => par_loop_spec hdof_eqb hdof_eqb_spec _ _ _ x xo (fun d => match d with Hori e k => if Nat.eqb k L then - x (Hori e (L - 1)) + 2 * x (Hori e L) else x (Hori e (L - 1)) | Vert b l => x (Vert b l) end) g TopK) as RT.
  cbv beta in RB, RT. split.
  - intros e k. unfold hcurl_apply. cbv zeta. rewrite RB, RT.
    rewrite !hcurl_in_hori. destruct (existsb (existsb (Nat.eqb e)) (map fst base)); cbn [andb]; auto. unfold corrected. cbn [fst snd]. replace (S (L - 1)) with L by lia.
    destruct (Nat.eqb_spec k 0) as [->|K0]; [reflexivity|]. cbn [orb]. destruct (Nat.eqb_spec k 1) as [->|K1].
    + destruct (Nat.eqb_spec 1 L) as [<-|]; reflexivity.
    + destruct (Nat.eqb_spec k (L - 1)) as [->|]; cbn [orb].
      * destruct (Nat.eqb_spec (L - 1) L); [lia|reflexivity].
      * destruct (Nat.eqb_spec k L) as [->|]; auto. destruct (Nat.eqb_spec L 1); [lia|]. ring.
  - intros b l. unfold hcurl_apply. cbv zeta. rewrite RB, RT.
    destruct (existsb _ _); auto. destruct (existsb _ _); auto.
Qed.

(** ** The Taylor method on an interval *)
Lemma interval_contributions : forall M v g, contributions Nat.eqb (interval_broken M v) g 0 =
  (match g with O => [] | S g' => if Nat.ltb g' M then [v g' g] else [] end) ++ (if Nat.ltb g M then [v g g] else []).
Proof.
  intros M v g. unfold contributions, interval_broken. induction M as [|M IH]; [destruct g; reflexivity|].
  rewrite seq_S, map_app, concat_app, filter_app, map_app, IH. cbn [map concat interval_cell app Nat.add filter fst].
  destruct (Nat.eqb_spec M g) as [E1|E1]; destruct (Nat.eqb_spec (S M) g) as [E2|E2]; try lia; cbn [map snd app].
  - subst. rewrite Nat.ltb_irrefl. destruct (Nat.ltb_spec g (S g)); [|lia]. rewrite app_nil_r. destruct g as [|g']; auto.
    destruct (Nat.ltb_spec g' (S g')); [|lia]. destruct (Nat.ltb_spec g' (S (S g'))); [auto|lia].
  - subst. rewrite !Nat.ltb_irrefl. destruct (Nat.ltb_spec M (S M)); [|lia]. destruct (Nat.ltb_spec (S M) M); [lia|]. reflexivity.
  - rewrite app_nil_r. f_equal.
    + destruct g as [|g']; auto. destruct (Nat.ltb_spec g' M); destruct (Nat.ltb_spec g' (S M)); try lia; auto.
    + destruct (Nat.ltb_spec g M); destruct (Nat.ltb_spec g (S M)); try lia; auto.
Qed.
Lemma averaged_value : forall M v x_out g, (1 <= M)%nat -> (g <= M)%nat -> averaged M v x_out g =
  if Nat.eqb g 0 then v 0%nat 0%nat else if Nat.eqb g M then v (M - 1)%nat M else (v (g - 1)%nat g + v g g) / 2.
Proof.
  intros M v x_out g HM Hg. unfold averaged. rewrite (average_is_mean Nat.eqb Nat.eqb_spec) by lia. rewrite interval_contributions.
  destruct g as [|g].
  - destruct (Nat.ltb_spec 0 M); [|lia]. unfold mean. simpl. field.
  - change (Nat.eqb (S g) 0) with false. cbv iota. destruct (Nat.ltb_spec g M); [|lia]. replace (S g - 1)%nat with g by lia.
    destruct (Nat.eqb_spec (S g) M) as [E|E].
    + rewrite <- E. rewrite Nat.ltb_irrefl. replace (S g - 1)%nat with g by lia. unfold mean. simpl. field.
    + destruct (Nat.ltb_spec (S g) M); [|lia]. unfold mean. simpl. field.
Qed.
Lemma num_ext_pos : forall M c, c = 0%nat \/ S c = M -> 0 < num_exterior M c.
Proof.
  intros M c H. unfold num_exterior. assert (P : forall g, 0 <= indicator M g) by (intros g; unfold indicator; destruct (_ || _); lra).
  pose proof (P c). pose proof (P (S c)). destruct H as [-> | <-].
  - assert (indicator M 0 = 1) by reflexivity. lra.
  - assert (indicator (S c) (S c) = 1) by (unfold indicator; rewrite Nat.eqb_refl, orb_true_r; reflexivity). lra.
Qed.
(** C57 for the Taylor method: linear fields are reproduced on every uniform interval mesh with at
    least two cells, at every node *)
Theorem taylor_recovery_exact : forall M x0 h a s x_out g, (2 <= M)%nat -> h <> 0 -> (g <= M)%nat ->
  let X := fun k => x0 + INR k * h in
  recover_taylor M X (fun c => a + s * ((X c + X (S c)) / 2)) x_out g = a + s * X g.
Proof.
  intros M x0 h a s x_out g HM Hh Hg X. unfold recover_taylor, taylor_apply.
  set (f := averaged M (fun c _ => a + s * ((X c + X (S c)) / 2)) x_out).
  assert (Ef : forall k, (k <= M)%nat -> f k = a + s * eff_coord M X k).
  { intros k Hk. unfold f, eff_coord. rewrite !averaged_value by lia. destruct (Nat.eqb k 0); [reflexivity|]. destruct (Nat.eqb k M); [reflexivity|]. field. }
  assert (Ei : forall k, (1 <= k < M)%nat -> eff_coord M X k = X k).
  { intros k Hk. unfold eff_coord. rewrite averaged_value by lia. destruct (Nat.eqb_spec k 0); [lia|]. destruct (Nat.eqb_spec k M); [lia|].
    unfold X. rewrite !S_INR, minus_INR by lia. simpl. field. }
  assert (E0 : eff_coord M X 0 = x0 + h / 2). { unfold eff_coord. rewrite averaged_value by lia. simpl. unfold X. simpl. field. }
  assert (EM : eff_coord M X M = X M - h / 2).
  { unfold eff_coord. rewrite averaged_value by lia. destruct (Nat.eqb_spec M 0); [lia|]. rewrite Nat.eqb_refl. replace (S (M - 1)) with M by lia. unfold X. rewrite minus_INR by lia. simpl. field. }
  assert (K : forall c k, (c < M)%nat -> (k = c \/ k = S c) ->
     boundary_kernel 2 1 (num_exterior M c) (fun i => f (c + i)%nat) (fun i _ => eff_coord M X (c + i)%nat) (fun i _ => X (c + i)%nat) (k - c)%nat = a + s * X k).
  { intros c k Hc Hk. assert (Ck : (c + (k - c))%nat = k) by lia.
    destruct (Nat.eq_dec c 0) as [C0|C0]; [|destruct (Nat.eq_dec (S c) M) as [CM|CM]].
    1,2: rewrite (boundary_kernel_exact 2 1 _ _ _ _ (fun k => match k with O => a | _ => s end)); [cbn [rsum seq fold_right basis]; rewrite Ck; ring|simpl; auto| | |].
    - apply (interval_nonsingular (fun i _ => eff_coord M X (c + i)%nat)). subst c. cbn [Nat.add]. rewrite E0, (Ei 1%nat) by lia. unfold X. simpl. lra.
    - intros i Hi. rewrite Ef by lia. cbn [rsum seq fold_right basis]. ring.
    - apply num_ext_pos; auto.
    - apply (interval_nonsingular (fun i _ => eff_coord M X (c + i)%nat)). rewrite Nat.add_0_r, Nat.add_1_r, CM, EM, Ei by lia. unfold X. rewrite <- CM, S_INR. lra.
    - intros i Hi. rewrite Ef by lia. cbn [rsum seq fold_right basis]. ring.
    - apply num_ext_pos; auto.
    - rewrite interior_kernel_keeps.
      + rewrite Ck, Ef, Ei by lia. reflexivity.
      + unfold num_exterior, indicator. destruct (Nat.eqb_spec c 0); [lia|]. destruct (Nat.eqb_spec c M); [lia|]. destruct (Nat.eqb_spec (S c) 0); [lia|]. destruct (Nat.eqb_spec (S c) M); [lia|]. simpl. lra. }
  rewrite averaged_value by lia. destruct (Nat.eqb_spec g 0) as [->|G0]; [apply (K 0%nat 0%nat); lia|].
  destruct (Nat.eqb_spec g M) as [->|GM]; [apply K; lia|]. rewrite (K (g - 1)%nat g), (K g g) by lia. field.
Qed.
(** with a single cell the effective coordinates coincide: the elimination meets a zero pivot, by
    which the kernel divides *)
Theorem taylor_single_cell_refuted : forall X f, let A : mat := fun i => basis 2 1 (fun _ => eff_coord 1 X i) in fst (triangulate 2 A f) 1%nat 1%nat = 0.
Proof.
  intros X f A.
  assert (E : eff_coord 1 X 1 = eff_coord 1 X 0). { unfold eff_coord. rewrite !averaged_value by lia. reflexivity. }
  assert (P : find_pivot 2 A 0 = 0%nat). { unfold find_pivot. cbn [seq Nat.sub fold_left fst]. change (A 0%nat 0%nat) with 1. change (A 1%nat 0%nat) with 1. destruct (Rlt_dec (Rabs 1) (Rabs 1)); [lra|reflexivity]. }
  assert (P1 : forall B, find_pivot 2 B 1 = 1%nat) by reflexivity.
  assert (G0 : gauss_step 2 (A, f) 0 = eliminate_row 2 0 (A, f) 1). { unfold gauss_step. rewrite P. reflexivity. }
  assert (G1 : forall B g, gauss_step 2 (B, g) 1 = (B, g)) by reflexivity.
  unfold triangulate. cbn [seq fold_left]. rewrite G0. destruct (eliminate_row 2 0 (A, f) 1) as [B g] eqn:Q. rewrite G1.
  pose proof (eliminate_value 2 0 A f 1 ltac:(lia) 1 1 ltac:(lia)) as [V _]. rewrite Q in V. cbn [fst Nat.eqb] in V. cbn [fst]. rewrite V. unfold A. cbn [basis]. rewrite E. field.
Qed.

(** ** Non-trivial instances: two triangles sharing an edge, three layers *)
Example average_two_triangles : average Nat.eqb 1 [[(0%nat, fun _ => 1); (1%nat, fun _ => 2); (2%nat, fun _ => 3)]; [(2%nat, fun _ => 5); (1%nat, fun _ => 4); (3%nat, fun _ => 7)]] (fun _ _ => 99) 2%nat 0%nat = 4.
Proof. rewrite (average_is_mean Nat.eqb Nat.eqb_spec) by lia. unfold mean, contributions. simpl. lra. Qed.
Example recover_two_columns : recover_extruded [[0; 1]; [1; 2]]%nat 3 (fun i l => INR i + (INR l + / 2) * 2) (fun _ => 7) (1, 3)%nat = 13 / 2.
Proof.
  rewrite (extruded_recovery_exact [[0; 1]; [1; 2]]%nat 3 (fun i => INR i) (fun _ => 1) 2).
  - unfold mean, cells_at. simpl. lra.
  - lia.
  - intros. ring.
  - reflexivity.
  - lia.
Qed.

Print Assumptions average_is_mean.
Print Assumptions average_order_independent.
Print Assumptions average_preserves_continuous.
Print Assumptions average_bounds.
Print Assumptions average_linear.
Print Assumptions extruded_correction.
Print Assumptions extruded_recovery_exact.
Print Assumptions extruded_recovery_linear.
Print Assumptions extruded_single_layer_refuted.
Print Assumptions extruded_stretched_refuted.
Print Assumptions hcurl_correction.
Print Assumptions taylor_recovery_exact.
Print Assumptions taylor_single_cell_refuted.

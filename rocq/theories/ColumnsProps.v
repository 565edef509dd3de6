(** Theorems about column data: C50. *)
From Verif Require Import Base Columns.
From Coq Require Import Reals Lra Permutation Sorted.
Open Scope R_scope.

(** ** Specification: a rank's degrees of freedom, in field order *)
Record dofs := { dX : list R; dY : list R; dZ : list R; dF : list R }.
Definition consistent (D : dofs) : Prop :=
  length (dX D) = length (dF D) /\ length (dY D) = length (dF D) /\ length (dZ D) = length (dF D).
(** the data frame after sort_values: any sorted rearrangement of the rows *)
Definition sorted_frame (D : dofs) (d : list row) : Prop :=
  Permutation d (frame_of (dX D) (dY D) (dZ D) (dF D)) /\ StronglySorted row_le d.

(** ** Rows of the frame *)
Lemma frame_length : forall D, consistent D -> length (frame_of (dX D) (dY D) (dZ D) (dF D)) = length (dF D).
Proof. intros D [A [B C]]. unfold frame_of. rewrite map_length, !combine_length, seq_length. lia. Qed.
Definition row_at (D : dofs) (i : nat) : row :=
  {| fld := nth i (dF D) 0; cX := nth i (dX D) 0; cY := nth i (dY D) 0; cZ := nth i (dZ D) 0; idx := i |}.
Lemma frame_rows : forall D, consistent D -> frame_of (dX D) (dY D) (dZ D) (dF D) = map (row_at D) (seq 0 (length (dF D))).
Proof.
  intros [X Y Z F] [A [B C]]. simpl in *. unfold frame_of.
  assert (G : forall k X Y Z F, length X = length F -> length Y = length F -> length Z = length F ->
     map (fun '(i, (f, (x, (y, z)))) => {| fld := f; cX := x; cY := y; cZ := z; idx := i |}) (combine (seq k (length F)) (combine F (combine X (combine Y Z))))
     = map (fun i => {| fld := nth (i - k) F 0; cX := nth (i - k) X 0; cY := nth (i - k) Y 0; cZ := nth (i - k) Z 0; idx := i |}) (seq k (length F))).
  { clear. intros k X Y Z F. revert k X Y Z. induction F; destruct X, Y, Z; simpl; intros; try lia; auto.
    rewrite Nat.sub_diag. f_equal. rewrite IHF by lia. apply map_ext_in. intros i Hi. apply in_seq in Hi.
    replace (i - k)%nat with (S (i - S k)) by lia. reflexivity. }
  rewrite G by auto. apply map_ext. intros i. rewrite Nat.sub_0_r. reflexivity.
Qed.

Section Reshape.
Variables (D : dofs) (d : list row) (L : nat).
Hypotheses (Hc : consistent D) (Hs : sorted_frame D d) (HL : (0 < L)%nat) (Hd : Nat.modulo (length d) L = 0%nat).
Let n := length (dF D).
Let H := Nat.div (length d) L.
Lemma d_length : length d = n.
Proof. destruct Hs as [P _]. rewrite (Permutation_length P). apply frame_length; auto. Qed.
Lemma d_size : (H * L = n)%nat.
Proof. unfold H. rewrite <- d_length. pose proof (Nat.div_mod (length d) L). lia. Qed.
Lemma idx_perm : Permutation (map idx d) (seq 0 n).
Proof.
  destruct Hs as [P _]. rewrite frame_rows in P by auto. apply (Permutation_map idx) in P. rewrite map_map in P. simpl in P. rewrite map_id in P. exact P.
Qed.
Lemma row_in : forall r, In r d -> r = row_at D (idx r) /\ (idx r < n)%nat.
Proof.
  intros r Hr. destruct Hs as [P _]. rewrite frame_rows in P by auto. apply (Permutation_in r P) in Hr. apply in_map_iff in Hr.
  destruct Hr as [i [E I]]. apply in_seq in I. subst r. simpl. split; auto. unfold n. lia.
Qed.
Lemma pos_lt : forall h l, (h < H)%nat -> (l < L)%nat -> (l + h * L < length d)%nat.
Proof. intros. rewrite d_length, <- d_size. nia. Qed.
Lemma entry_at : forall h l, (h < H)%nat -> (l < L)%nat ->
  fld (nth (l + h * L) d row0) = nth (idx (nth (l + h * L) d row0)) (dF D) 0 /\ (idx (nth (l + h * L) d row0) < n)%nat.
Proof.
  intros h l Hh Hl. destruct (row_in (nth (l + h * L) d row0)) as [E B]; [apply nth_In, pos_lt; auto|]. split; auto. rewrite E at 1. reflexivity.
Qed.
Lemma idx_inj : forall p q, (p < length d)%nat -> (q < length d)%nat -> idx (nth p d row0) = idx (nth q d row0) -> p = q.
Proof.
  intros p q Hp Hq E. assert (N : NoDup (map idx d)) by (eapply Permutation_NoDup; [apply Permutation_sym, idx_perm|apply seq_NoDup]).
  rewrite NoDup_nth with (d := 0%nat) in N. apply N; try (rewrite map_length; auto).
  change 0%nat with (idx row0). rewrite !map_nth. exact E.
Qed.
Lemma position_unique : forall h l h' l', (l < L)%nat -> (l' < L)%nat -> (l + h * L = l' + h' * L)%nat -> h = h' /\ l = l'.
Proof. intros. assert (h = h') by nia. subst. split; auto. lia. Qed.

Lemma idx_onto : forall i, (i < n)%nat -> exists h l, (h < H)%nat /\ (l < L)%nat /\ idx (nth (l + h * L) d row0) = i.
Proof.
  intros i Hi. assert (I : In i (map idx d)). { eapply Permutation_in; [apply Permutation_sym, idx_perm|]. apply in_seq. lia. }
  apply In_nth with (d := 0%nat) in I. destruct I as [p [Hp E]]. rewrite map_length in Hp.
  change 0%nat with (idx row0) in E. rewrite map_nth in E.
  exists (p / L)%nat, (p mod L)%nat. pose proof (Nat.div_mod p L). pose proof (Nat.mod_upper_bound p L).
  split; [|split; [lia|]].
  - apply Nat.div_lt_upper_bound; [lia|]. rewrite Nat.mul_comm, d_size, <- d_length. auto.
  - rewrite <- E. f_equal. f_equal. lia.
Qed.
End Reshape.

(** ** Writing *)
Lemma update_length : forall l i v, length (update l i v) = length l.
Proof. induction l; destruct i; simpl; auto. Qed.
Lemma update_same : forall l i v, (i < length l)%nat -> nth i (update l i v) 0 = v.
Proof. induction l; destruct i; simpl; intros; try lia; auto. apply IHl. lia. Qed.
Lemma update_other : forall l i j v, i <> j -> nth j (update l i v) 0 = nth j l 0.
Proof. induction l; destruct i, j; simpl; intros; auto; try congruence. Qed.
Lemma assign_length : forall a f, length (fold_left (fun f '(i, v) => update f i v) a f) = length f.
Proof. induction a as [|[i v] a IH]; simpl; intros; auto. rewrite IH. apply update_length. Qed.
Lemma assign_untouched : forall a f j, ~ In j (map fst a) -> nth j (fold_left (fun f '(i, v) => update f i v) a f) 0 = nth j f 0.
Proof.
  induction a as [|[i v] a IH]; simpl; intros f j N; auto. rewrite IH by auto. apply update_other. intros E. apply N. auto.
Qed.
(** the last assignment wins; if all assignments to j agree, j gets that value *)
Lemma assign_value : forall a f j v, (j < length f)%nat -> In (j, v) a -> (forall w, In (j, w) a -> w = v) ->
  nth j (fold_left (fun f '(i, v) => update f i v) a f) 0 = v.
Proof.
  induction a as [|[i w] a IH]; simpl; intros f j v Hj I A; [contradiction|].
  destruct (in_dec Nat.eq_dec j (map fst a)) as [J|J].
  - apply in_map_iff in J. destruct J as [[j' w'] [E I']]. simpl in E. subst j'.
    pose proof (A w' (or_intror I')). subst w'. apply IH; auto. rewrite update_length; auto.
  - rewrite assign_untouched by auto. destruct I as [E|I].
    + injection E. intros. subst. apply update_same; auto.
    + exfalso. apply J. change j with (fst (j, v)). apply in_map. auto.
Qed.
Lemma in_assignments : forall H L data index j v,
  In (j, v) (assignments H L data index) <-> exists h l, (h < H)%nat /\ (l < L)%nat /\ index h l = j /\ data h l = v.
Proof.
  intros. unfold assignments. rewrite in_flat_map. split.
  - intros [l [Hl I]]. apply in_map_iff in I. destruct I as [h [E Hh]]. apply in_seq in Hl, Hh. injection E. intros. exists h, l. repeat split; auto; lia.
  - intros [h [l [Hh [Hl [E1 E2]]]]]. exists l. split; [apply in_seq; lia|]. apply in_map_iff. exists h. split; [congruence|apply in_seq; lia].
Qed.

(** ** The collective operation, seen by one rank *)
Lemma levels_pos : forall d n, num_levels d = Some n -> (0 < n)%nat.
Proof.
  intros [|f d] n E; [discriminate|]. simpl in E. injection E. intros <-. 
  assert (R1 : near_first f f = true).
  { unfold near_first, isclose. rewrite !Rminus_diag_eq, Rabs_R0 by auto. pose proof (Rabs_pos (cX f)). pose proof (Rabs_pos (cY f)).
    destruct (Rle_dec 0 (1 / 100000000 + 1 / 100000 * Rabs (cX f))); [|lra]. destruct (Rle_dec 0 (1 / 100000000 + 1 / 100000 * Rabs (cY f))); [reflexivity|lra]. }
  simpl. rewrite R1. simpl. lia.
Qed.
Lemma get_columns : forall frames r n c, nth_error (get_column_data frames) r = Some (Columns n c) ->
  exists d, nth_error frames r = Some d /\ num_levels d = Some n /\ Nat.modulo (length d) n = 0%nat /\ c = columns d n.
Proof.
  intros frames r n c E. unfold get_column_data in E. cbv zeta in E.
  destruct (existsb _ _).
  - rewrite map_map in E. rewrite nth_error_map in E. destruct (nth_error frames r); simpl in E; [|discriminate]. destruct (num_levels l); discriminate.
  - rewrite nth_error_map in E. destruct (nth_error frames r) as [d|] eqn:Er; simpl in E; [|discriminate]. exists d.
    destruct (num_levels d) as [m|] eqn:N; [|discriminate]. destruct (forallb _ _) eqn:F; [|discriminate]. injection E. intros.
    subst. repeat split; auto. rewrite forallb_forall in F. specialize (F d (nth_error_In _ _ Er)). rewrite N in F. apply Nat.eqb_eq in F. exact F.
Qed.

(** C50: whatever the ranks, sizes and coordinates, when columns are returned every degree of
    freedom of the rank's field is in exactly one position of the arrays, with its value; *)
Theorem each_dof_in_one_column : forall frames r D d L H data index,
  consistent D -> sorted_frame D d -> nth_error frames r = Some d ->
  nth_error (get_column_data frames) r = Some (Columns L (H, data, index)) ->
  (H * L = length (dF D))%nat /\
  (forall h l, (h < H)%nat -> (l < L)%nat -> (index h l < length (dF D))%nat /\ data h l = nth (index h l) (dF D) 0) /\
  (forall i, (i < length (dF D))%nat -> exists h l, (h < H)%nat /\ (l < L)%nat /\ index h l = i) /\
  (forall h l h' l', (h < H)%nat -> (l < L)%nat -> (h' < H)%nat -> (l' < L)%nat -> index h l = index h' l' -> h = h' /\ l = l').
Proof.
  intros frames r D d L H data index C S Er E. destruct (get_columns _ _ _ _ E) as [d' [Er' [N [M Ec]]]].
  rewrite Er in Er'. injection Er'. intros <-. pose proof (levels_pos d L N) as HL.
  unfold columns in Ec. injection Ec. intros -> -> ->. split; [|split; [|split]].
  - apply d_size; auto.
  - intros h l Hh Hl. destruct (entry_at D d L C S HL M h l Hh Hl). auto.
  - intros i Hi. destruct (idx_onto D d L C S HL M i) as [h [l [A [B I]]]]; auto. exists h, l. repeat split; auto.
  - intros h l h' l' h1 h2 h3 h4 EE. apply (idx_inj D d C S (l + h * L)%nat (l' + h' * L)%nat) in EE; try (apply (pos_lt D d L C S HL M); auto). assert (h = h') by nia. subst. split; auto. lia.
Qed.
(** ... writing (possibly modified) column data puts each entry back where it came from, ... *)
Theorem write_columns : forall frames r D d L H data index g data',
  consistent D -> sorted_frame D d -> nth_error frames r = Some d ->
  nth_error (get_column_data frames) r = Some (Columns L (H, data, index)) -> length g = length (dF D) ->
  let f' := set_field_from_column_data H L g data' index in
  length f' = length g /\ forall h l, (h < H)%nat -> (l < L)%nat -> nth (index h l) f' 0 = data' h l.
Proof.
  intros frames r D d L H data index g data' C S Er E Lg f'. 
  destruct (each_dof_in_one_column _ _ _ _ _ _ _ _ C S Er E) as [A [B [O I]]].
  split; [apply assign_length|]. intros h l Hh Hl. apply assign_value.
  - destruct (B h l Hh Hl). lia.
  - apply in_assignments. exists h, l. auto.
  - intros w W. apply in_assignments in W. destruct W as [h' [l' [Hh' [Hl' [E1 E2]]]]].
    destruct (I h l h' l') as [-> ->]; auto.
Qed.
(** ... so unchanged column data reproduces the field, whatever the target held before. *)
Theorem column_round_trip : forall frames r D d L H data index g,
  consistent D -> sorted_frame D d -> nth_error frames r = Some d ->
  nth_error (get_column_data frames) r = Some (Columns L (H, data, index)) -> length g = length (dF D) ->
  set_field_from_column_data H L g data index = dF D.
Proof.
  intros frames r D d L H data index g C S Er E Lg.
  destruct (each_dof_in_one_column _ _ _ _ _ _ _ _ C S Er E) as [A [B [O I]]].
  destruct (write_columns _ _ _ _ _ _ _ _ g data C S Er E Lg) as [W1 W2].
  apply nth_ext with (d := 0) (d' := 0); [lia|]. intros i Hi. rewrite W1, Lg in Hi.
  destruct (O i Hi) as [h [l [Hh [Hl <-]]]]. rewrite W2 by auto. apply B; auto.
Qed.

(** ** Columns are columns *)
Definition same_column (a b : row) : Prop := cX a = cX b /\ cY a = cY b.
Lemma same_dec : forall a b, {same_column a b} + {~ same_column a b}.
Proof. intros a b. unfold same_column. destruct (Req_EM_T (cX a) (cX b)); destruct (Req_EM_T (cY a) (cY b)); [left|right|right|right]; tauto. Qed.
Definition sameb (a b : row) : bool := if same_dec a b then true else false.
Lemma prefix : forall c d, StronglySorted row_le d -> Forall (row_le c) d ->
  d = filter (sameb c) d ++ filter (fun r => negb (sameb c r)) d.
Proof.
  intros c d S. induction S as [|a d S IH F]; intros G; auto. inversion G; subst. simpl. assert (Q : sameb c a = if same_dec c a then true else false) by reflexivity. destruct (same_dec c a) as [E|E]; rewrite Q; simpl.
  - f_equal. apply IH; auto.
  - assert (Z : filter (sameb c) d = []).
    { rewrite Forall_forall in F. clear IH S G H2. induction d as [|b d IHd]; auto. simpl.
      assert (row_le a b) by (apply F; left; auto). unfold sameb at 1. destruct (same_dec c b) as [Eb|Eb].
      - exfalso. unfold row_le, same_column in *. lra.
      - apply IHd. intros; apply F; right; auto. }
    rewrite Z. simpl. f_equal. transitivity (filter (sameb c) d ++ filter (fun r => negb (sameb c r)) d); [apply IH; auto|rewrite Z; reflexivity].
Qed.
(** every horizontal position that occurs has exactly L degrees of freedom *)
Definition even_columns (L : nat) (d : list row) : Prop := forall r, In r d -> length (filter (sameb r) d) = L.
Lemma sameb_spec : forall a b, sameb a b = true <-> same_column a b.
Proof. intros. unfold sameb. destruct (same_dec a b); split; auto; discriminate. Qed.
Lemma filter_filter_neg : forall c r d, sameb c r = false -> filter (sameb r) (filter (fun x => negb (sameb c x)) d) = filter (sameb r) d.
Proof.
  induction d as [|a d IH]; intros E; simpl; auto. destruct (sameb c a) eqn:Ca; simpl.
  - rewrite IH by auto. destruct (sameb r a) eqn:Ra; auto. exfalso. apply sameb_spec in Ca, Ra.
    assert (same_column c r) by (unfold same_column in *; destruct Ca, Ra; split; congruence). apply sameb_spec in H. congruence.
  - destruct (sameb r a); rewrite IH by auto; reflexivity.
Qed.
Lemma sorted_filter : forall (p : row -> bool) d, StronglySorted row_le d -> StronglySorted row_le (filter p d).
Proof.
  induction 1 as [|a d S IH F]; simpl; [constructor|]. destruct (p a); auto. constructor; auto.
  rewrite Forall_forall in *. intros y Hy. apply filter_In in Hy. apply F. tauto.
Qed.
Lemma sorted_head : forall c d, StronglySorted row_le (c :: d) -> Forall (row_le c) (c :: d).
Proof. intros c d S. inversion S; subst. constructor; auto. unfold row_le. lra. Qed.
(** rows p and q of the sorted frame are in the same column iff they are in the same chunk *)
Lemma chunks : forall L m d, (0 < L)%nat -> StronglySorted row_le d -> even_columns L d -> (length d <= m)%nat ->
  (exists H, length d = H * L)%nat /\
  forall p q, (p < length d)%nat -> (q < length d)%nat -> (same_column (nth p d row0) (nth q d row0) <-> (p / L = q / L)%nat).
Proof.
  intros L m. induction m as [|m IH]; intros d HL S E Lm.
  { destruct d; simpl in *; [|lia]. split; [exists 0%nat; lia|]. intros; lia. }
  destruct d as [|c d]. { split; [exists 0%nat; simpl; lia|simpl; intros; lia]. }
  pose proof (prefix c (c :: d) S (sorted_head c d S)) as Pf.
  set (a := filter (sameb c) (c :: d)) in *. set (b := filter (fun r => negb (sameb c r)) (c :: d)) in *.
  assert (La : length a = L) by (apply E; left; auto).
  assert (Sb : StronglySorted row_le b) by (apply sorted_filter; auto).
  assert (Eb : even_columns L b).
  { intros r Hr. assert (Hr2 := Hr). apply filter_In in Hr. destruct Hr as [Hr N]. unfold b. rewrite filter_filter_neg; [apply E; auto|]. apply negb_true_iff in N; auto. }
  assert (Lb : (length (c :: d) = L + length b)%nat) by (rewrite Pf, app_length; lia).
  assert (Lm2 : (length b <= m)%nat) by (simpl in *; lia).
  destruct (IH b HL Sb Eb Lm2) as [[H EH] G].
  split; [exists (1 + H)%nat; lia|].
  assert (Ina : forall p, (p < L)%nat -> same_column c (nth p (c :: d) row0)).
  { intros p Hp. rewrite Pf, app_nth1 by lia. apply sameb_spec. assert (I : In (nth p a row0) a) by (apply nth_In; lia). apply filter_In in I. tauto. }
  assert (Inb : forall p, (L <= p)%nat -> (p < length (c :: d))%nat -> ~ same_column c (nth p (c :: d) row0) /\ nth p (c :: d) row0 = nth (p - L) b row0).
  { intros p Hp Hp2. assert (Q : nth p (c :: d) row0 = nth (p - L) b row0) by (rewrite Pf at 1; rewrite app_nth2 by lia; f_equal; lia).
    split; auto. rewrite Q. intros X. assert (I : In (nth (p - L) b row0) b) by (apply nth_In; lia). apply filter_In in I. destruct I as [_ I]. apply negb_true_iff in I. apply sameb_spec in X. congruence. }
  assert (Dv : forall p, (L <= p)%nat -> (p / L = 1 + (p - L) / L)%nat).
  { intros p Hp. replace p with ((p - L) + 1 * L)%nat at 1 by lia. rewrite Nat.div_add by lia. lia. }
  intros p q Hp Hq. destruct (le_lt_dec L p) as [Bp|Bp], (le_lt_dec L q) as [Bq|Bq].
  - destruct (Inb p Bp Hp) as [_ ->], (Inb q Bq Hq) as [_ ->]. rewrite (G (p - L) (q - L))%nat by lia. rewrite (Dv p Bp), (Dv q Bq). lia.
  - destruct (Inb p Bp Hp) as [N _]. pose proof (Ina q Bq) as Y. rewrite (Dv p Bp), (Nat.div_small q L Bq). split; [|lia].
    intros X. exfalso. apply N. unfold same_column in *. repeat match goal with H : _ /\ _ |- _ => destruct H end. split; congruence.
  - destruct (Inb q Bq Hq) as [N _]. pose proof (Ina p Bp) as Y. rewrite (Dv q Bq), (Nat.div_small p L Bp). split; [|lia].
    intros X. exfalso. apply N. unfold same_column in *. repeat match goal with H : _ /\ _ |- _ => destruct H end. split; congruence.
  - rewrite !Nat.div_small by auto. split; auto. intros _. pose proof (Ina p Bp). pose proof (Ina q Bq). unfold same_column in *. repeat match goal with H : _ /\ _ |- _ => destruct H end. split; congruence.
Qed.
(** distinct columns are not within numpy.isclose of the first one *)
Definition first_separated (d : list row) : Prop := match d with [] => False | f :: _ => forall r, In r d -> near_first f r = true -> same_column f r end.
Lemma near_first_same : forall f r, same_column f r -> near_first f r = true.
Proof.
  intros f r [E1 E2]. unfold near_first, isclose. rewrite <- E1, <- E2, !Rminus_diag_eq, Rabs_R0 by auto.
  pose proof (Rabs_pos (cX f)). pose proof (Rabs_pos (cY f)).
  destruct (Rle_dec 0 (1 / 100000000 + 1 / 100000 * Rabs (cX f))); [|lra]. destruct (Rle_dec 0 (1 / 100000000 + 1 / 100000 * Rabs (cY f))); [reflexivity|lra].
Qed.
Lemma levels_of_columns : forall L d, even_columns L d -> first_separated d -> num_levels d = Some L.
Proof.
  intros L [|f d] E F; [contradiction|]. simpl in F. unfold num_levels. f_equal. rewrite <- (E f) by (left; auto).
  f_equal. apply filter_ext_in. intros r Hr. destruct (near_first f r) eqn:N.
  - symmetry. apply sameb_spec. auto.
  - symmetry. apply not_true_is_false. intros X. apply sameb_spec in X. apply near_first_same in X. congruence.
Qed.
Lemma sorted_nth : forall d p q, StronglySorted row_le d -> (p < q)%nat -> (q < length d)%nat -> row_le (nth p d row0) (nth q d row0).
Proof.
  intros d p q S. revert p q. induction S as [|a d S IH F]; intros p q Hpq Hq; simpl in *; [lia|].
  destruct q; [lia|]. destruct p; [|apply IH; lia]. rewrite Forall_forall in F. apply F, nth_In. lia.
Qed.
(** On ranks whose degrees of freedom form columns of equal length (with equal rounded
    coordinates within a column, and the first column distinguishable by numpy.isclose) the
    rows of the arrays are exactly the columns, ordered by height. *)
Theorem rows_are_columns : forall frames r D d L,
  consistent D -> sorted_frame D d -> nth_error frames r = Some d ->
  (forall r' d', nth_error frames r' = Some d' -> exists L', (0 < L')%nat /\ StronglySorted row_le d' /\ even_columns L' d' /\ first_separated d') ->
  (0 < L)%nat -> even_columns L d ->
  exists H data index, nth_error (get_column_data frames) r = Some (Columns L (H, data, index)) /\
    (forall h l h' l', (h < H)%nat -> (l < L)%nat -> (h' < H)%nat -> (l' < L)%nat ->
       let i := index h l in let i' := index h' l' in
       (h = h' <-> nth i (dX D) 0 = nth i' (dX D) 0 /\ nth i (dY D) 0 = nth i' (dY D) 0) /\
       (h = h' -> (l <= l')%nat -> nth i (dZ D) 0 <= nth i' (dZ D) 0)).
Proof.
  intros frames r D d L C S Er All HL E.
  destruct (All r d Er) as [L' [HL' [Sd [E' F]]]].
  assert (NL : num_levels d = Some L) by (apply levels_of_columns; auto).
  assert (Every : forall d', In d' frames -> exists n, num_levels d' = Some n /\ local_ok d' n = true).
  { intros d' I. apply In_nth_error in I. destruct I as [r' Er']. destruct (All r' d' Er') as [n [Hn [Sn [En Fn]]]]. exists n. split; [apply levels_of_columns; auto|].
    destruct (chunks n (length d') d' Hn Sn En (le_n _)) as [[H EH] _]. unfold local_ok. rewrite EH, Nat.mod_mul by lia. reflexivity. }
  exists (length d / L)%nat, (fun h l => fld (nth (l + h * L) d row0)), (fun h l => idx (nth (l + h * L) d row0)). split.
  - unfold get_column_data. cbv zeta. destruct (existsb _ _) eqn:X.
    { exfalso. apply existsb_exists in X. destruct X as [o [I O]]. apply in_map_iff in I. destruct I as [d' [<- I]]. destruct (Every d' I) as [n [En _]]. rewrite En in O. discriminate. }
    rewrite nth_error_map, Er. simpl. rewrite NL.
    assert (B : forallb (fun d => match num_levels d with Some n => local_ok d n | None => false end) frames = true).
    { apply forallb_forall. intros d' I. destruct (Every d' I) as [n [-> ->]]. reflexivity. }
    rewrite B. reflexivity.
  - destruct (chunks L (length d) d HL Sd E (le_n _)) as [[H EH] G].
    assert (M : Nat.modulo (length d) L = 0%nat) by (rewrite EH, Nat.mod_mul; lia).
    intros h l h' l' Hh Hl Hh' Hl'. cbv zeta.
    pose proof (pos_lt D d L C S HL M h l Hh Hl) as Q. pose proof (pos_lt D d L C S HL M h' l' Hh' Hl') as Q'.
    destruct (row_in D d L C S HL M _ (nth_In d row0 Q)) as [R1 _]. destruct (row_in D d L C S HL M _ (nth_In d row0 Q')) as [R2 _].
    set (a := nth (l + h * L) d row0) in *. set (b := nth (l' + h' * L) d row0) in *.
    assert (Sa : same_column a b <-> nth (idx a) (dX D) 0 = nth (idx b) (dX D) 0 /\ nth (idx a) (dY D) 0 = nth (idx b) (dY D) 0).
    { unfold same_column. rewrite R1 at 1 2. rewrite R2 at 1 2. simpl. tauto. }
    assert (Dh : forall x y, (y < L)%nat -> ((y + x * L) / L = x)%nat) by (intros; rewrite Nat.div_add, Nat.div_small by lia; lia).
    pose proof (G (l + h * L)%nat (l' + h' * L)%nat Q Q') as GG. rewrite !Dh in GG by auto. fold a b in GG.
    split; [rewrite <- Sa; symmetry; exact GG|].
    intros -> Hll. destruct (Nat.eq_dec l l') as [->|Nl]. { unfold a, b. apply Rle_refl. }
    assert (row_le a b) by (apply sorted_nth; auto; lia).
    assert (SS : same_column a b) by (apply GG; auto).
    assert (cZ a <= cZ b) by (unfold row_le, same_column in *; lra). rewrite R1, R2 in H1. exact H1.
Qed.

(** If some rank cannot divide its data evenly, every rank raises RuntimeError and none
    returns columns, provided every rank owns data. *)
Theorem uneven_raises_everywhere : forall frames, Forall (fun d => d <> []) frames ->
  (exists d n, In d frames /\ num_levels d = Some n /\ Nat.modulo (length d) n <> 0%nat) ->
  get_column_data frames = map (fun _ => Raises RuntimeError) frames.
Proof.
  intros frames NE [d [n [I [N M]]]]. unfold get_column_data. cbv zeta.
  assert (S : forall d, In d frames -> exists n, num_levels d = Some n).
  { intros d' I'. rewrite Forall_forall in NE. specialize (NE d' I'). destruct d'; [congruence|]. simpl. eauto. }
  destruct (existsb _ _) eqn:X.
  { exfalso. apply existsb_exists in X. destruct X as [o [I' O]]. apply in_map_iff in I'. destruct I' as [d' [<- I']]. destruct (S d' I') as [k Ek]. rewrite Ek in O. discriminate. }
  assert (B : forallb (fun d => match num_levels d with Some n => local_ok d n | None => false end) frames = false).
  { apply not_true_is_false. intros B. rewrite forallb_forall in B. specialize (B d I). rewrite N in B. apply Nat.eqb_eq in B. contradiction. }
  rewrite B. apply map_ext_in. intros d' I'. destruct (S d' I') as [k ->]. reflexivity.
Qed.
(** A rank without degrees of freedom raises on its own; all ranks with data then wait for
    ever in the reduction. *)
Theorem empty_rank_hangs_refuted : forall frames r d, In [] frames -> nth_error frames r = Some d -> d <> [] ->
  nth_error (get_column_data frames) r = Some Hangs.
Proof.
  intros frames r d I Er N. unfold get_column_data. cbv zeta.
  assert (X : existsb (fun n => match n with None => true | _ => false end) (map num_levels frames) = true).
  { apply existsb_exists. exists None. split; auto. apply in_map_iff. exists []. auto. }
  rewrite X. rewrite nth_error_map, nth_error_map, Er. destruct d; [congruence|]. reflexivity.
Qed.
(** Away from the origin numpy.isclose cannot tell columns apart: two columns of one point
    at 1e6 and 1e6 + 1 are returned as one column of two points. *)
Theorem far_columns_merged_refuted : exists D d, consistent D /\ sorted_frame D d /\ even_columns 1 d /\
  exists data index, get_column_data [d] = [Columns 2 (1%nat, data, index)] /\
  nth (index 0%nat 0%nat) (dX D) 0 <> nth (index 0%nat 1%nat) (dX D) 0.
Proof.
  set (a := {| fld := 0; cX := 1000000; cY := 0; cZ := 0; idx := 0 |}).
  set (b := {| fld := 0; cX := 1000001; cY := 0; cZ := 0; idx := 1 |}).
  exists {| dX := [1000000; 1000001]; dY := [0;0]; dZ := [0;0]; dF := [0;0] |}, [a; b].
  split; [repeat split|]. split; [split; [simpl; auto|]|].
  { repeat constructor. unfold row_le. simpl. lra. }
  assert (Rab : Rabs (1000001 - 1000000) = 1) by (rewrite Rabs_right; lra).
  assert (Ra : Rabs (1000000) = 1000000) by (rewrite Rabs_right; lra).
  split.
  { intros r [<-|[<-|[]]]; simpl; unfold sameb.
    - destruct (same_dec a a) as [|N]; [|exfalso; apply N; split; auto]. destruct (same_dec a b) as [[X _]|]; [simpl in X; lra|]. reflexivity.
    - destruct (same_dec b a) as [[X _]|]; [simpl in X; lra|]. destruct (same_dec b b) as [|N]; [|exfalso; apply N; split; auto]. reflexivity. }
  assert (N : num_levels [a; b] = Some 2%nat).
  { unfold num_levels. f_equal. simpl. rewrite near_first_same by (split; auto). unfold near_first, isclose, a, b. simpl.
    rewrite Rab, Ra. destruct (Rle_dec 1 (1 / 100000000 + 1 / 100000 * 1000000)); [|lra].
    rewrite Rminus_diag_eq, Rabs_R0 by auto. destruct (Rle_dec 0 (1 / 100000000 + 1 / 100000 * 0)); [reflexivity|lra]. }
  exists (fun h l => fld (nth (l + h * 2) [a; b] row0)), (fun h l => idx (nth (l + h * 2) [a; b] row0)).
  split; [|simpl; lra]. unfold get_column_data. cbv zeta. unfold map. unfold forallb. rewrite N. simpl. reflexivity.
Qed.
(** a mesh of two columns of two levels meets the hypotheses *)
Example two_columns : let D := {| dX := [1;0;1;0]; dY := [0;0;0;0]; dZ := [5;0;0;5]; dF := [10;11;12;13] |} in
  let row f x z i := {| fld := f; cX := x; cY := 0; cZ := z; idx := i |} in
  let d := [row 11 0 0 1%nat; row 13 0 5 3%nat; row 12 1 0 2%nat; row 10 1 5 0%nat] in
  consistent D /\ sorted_frame D d /\ even_columns 2 d /\ first_separated d.
Proof.
  intros D row d. split; [repeat split|]. split; [split|split].
  - unfold d, row, D, frame_of. simpl. apply Permutation_sym.
    eapply perm_trans; [apply perm_swap|]. apply perm_skip. 
    eapply perm_trans; [apply perm_skip, perm_swap|]. eapply perm_trans; [apply perm_swap|]. apply perm_skip. apply perm_swap.
  - repeat constructor; unfold row_le; simpl; lra.
  - intros r I. assert (X : r = nth 0 d row0 \/ r = nth 1 d row0 \/ r = nth 2 d row0 \/ r = nth 3 d row0) by (simpl in I; intuition).
    clear I. destruct X as [->|[->|[->| ->]]]; simpl; unfold sameb;
    repeat match goal with |- context [same_dec ?x ?y] => let N := fresh in destruct (same_dec x y) as [[? ?]|N]; [|try (exfalso; apply N; split; simpl; reflexivity)]; simpl in * end; try lra; reflexivity.
  - intros r I N. assert (X : r = nth 0 d row0 \/ r = nth 1 d row0 \/ r = nth 2 d row0 \/ r = nth 3 d row0) by (simpl in I; intuition).
    clear I. destruct X as [->|[->|[->| ->]]]; simpl in *; try (split; simpl; reflexivity); exfalso; unfold near_first, isclose in N; simpl in N;
    rewrite !Rminus_0_r, Rabs_R0, Rabs_R1 in N; destruct (Rle_dec 1 (1 / 100000000 + 1 / 100000 * 0)); try lra; discriminate.
Qed.

Print Assumptions each_dof_in_one_column.
Print Assumptions write_columns.
Print Assumptions column_round_trip.
Print Assumptions rows_are_columns.
Print Assumptions uneven_raises_everywhere.
Print Assumptions empty_rank_hangs_refuted.
Print Assumptions far_columns_merged_refuted.

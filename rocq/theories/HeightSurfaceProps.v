(** Property C148. *)
From Coq Require Import Reals Lra Lia Permutation Sorted.
From Verif Require Import Base Columns ColumnsProps HeightSurface HeightSurfaceSpec.
Open Scope R_scope.

Lemma row_min_le data n l : (l <= n)%nat -> row_min data n <= data l.
Proof. induction n as [|n IH]; intros H; cbn [row_min]; [replace l with 0%nat by lia; lra|]. destruct (Nat.eq_dec l (S n)) as [->|N]; [apply Rmin_r|]. eapply Rle_trans; [apply Rmin_l|apply IH; lia]. Qed.
Lemma row_min_in data n : exists l, (l <= n)%nat /\ row_min data n = data l.
Proof. induction n as [|n (l & Hl & E)]; [exists 0%nat; split; [lia|reflexivity]|]. cbn [row_min]. unfold Rmin. destruct (Rle_dec (row_min data n) (data (S n))); [exists l; split; [lia|exact E]|exists (S n); split; [lia|reflexivity]]. Qed.

(** columns of equal length, distinguishable by numpy.isclose from the first one, on every rank *)
Definition columns_recognised (frames : list (list row)) : Prop :=
  forall r d, nth_error frames r = Some d -> exists L, (0 < L)%nat /\ StronglySorted row_le d /\ even_columns L d /\ first_separated d.

(** C148.  On every rank, whatever the numbers of ranks, columns and levels, the field is the height above the lowest point of the same column. *)
Theorem height_above_surface_correct :
  forall frames r D d, consistent D -> sorted_frame D d -> nth_error frames r = Some d -> columns_recognised frames ->
  exists f, nth_error (set_height_above_surface frames) r = Some (Height f) /\ is_height_above_surface (length (dF D)) (dX D) (dY D) (dF D) f.
Proof.
  intros frames r D d C S Er All. destruct (All r d Er) as (L & HL & _ & EL & _).
  destruct (rows_are_columns frames r D d L C S Er All HL EL) as (H & data & index & G & RC).
  destruct (each_dof_in_one_column _ _ _ _ _ _ _ _ C S Er G) as (A & B & O & I).
  assert (Ld : length d = length (dF D)) by (destruct S as [P _]; rewrite (Permutation_length P); apply frame_length; exact C).
  destruct (write_columns _ _ _ _ _ _ _ _ (repeat 0 (length d)) (above_surface data L) C S Er G ltac:(rewrite repeat_length; exact Ld)) as [W1 W2].
  exists (set_field_from_column_data H L (repeat 0 (length d)) (above_surface data L) index). split.
  - unfold set_height_above_surface. rewrite nth_error_map.
    assert (K : forall (l1 : list (list row)) (l2 : list outcome) k a b, nth_error l1 k = Some a -> nth_error l2 k = Some b -> nth_error (combine l1 l2) k = Some (a, b)).
    { induction l1 as [|x l1 IH]; intros [|y l2] [|k] a b E1 E2; cbn in *; try discriminate; [injection E1 as ->; injection E2 as ->; reflexivity|apply IH; assumption]. }
    rewrite (K _ _ _ _ _ Er G). reflexivity.
  - split; [rewrite W1, repeat_length; exact Ld|]. intros i Hi. destruct (O i Hi) as (h & l & Hh & Hl & <-). exists (surface_height data L h). split.
    + split.
      * destruct (row_min_in (data h) (pred L)) as (l0 & H0 & E0). exists (index h l0). destruct (B h l0 Hh ltac:(lia)) as [B1 B2]. split; [exact B1|]. split; [apply (RC h l h l0 Hh Hl Hh ltac:(lia)); reflexivity|]. unfold value. rewrite <- B2. symmetry. exact E0.
      * intros j Hj Aj. destruct (O j Hj) as (h' & l' & Hh' & Hl' & <-). assert (E : h = h') by (apply (RC h l h' l' Hh Hl Hh' Hl'); exact Aj). subst h'. unfold value. rewrite <- (proj2 (B h l' Hh Hl')). unfold surface_height. apply row_min_le. lia.
    + unfold value. rewrite (W2 h l Hh Hl). unfold above_surface. rewrite (proj2 (B h l Hh Hl)). reflexivity.
Qed.
Print Assumptions height_above_surface_correct.

(** C148.  So it is nowhere negative, and zero at the lowest point of every column; differences within a column are differences of height. *)
Theorem height_above_surface_nonnegative :
  forall n x y z f, is_height_above_surface n x y z f -> forall i, (i < n)%nat ->
  0 <= value f i /\ (exists j, (j < n)%nat /\ above_each_other x y i j /\ value f j = 0) /\
  forall j, (j < n)%nat -> above_each_other x y i j -> value f i - value f j = value z i - value z j.
Proof.
  intros n x y z f (_ & Hf) i Hi.
  assert (same : forall j, (j < n)%nat -> above_each_other x y i j -> forall s, surface_below n x y z i s -> surface_below n x y z j s).
  { intros j Hj (A1 & A2) s ((k & Hk & (B1 & B2) & E) & M). split; [exists k; split; [exact Hk|]; split; [split; congruence|exact E]|]. intros k' Hk' (C1 & C2). apply M; [exact Hk'|]. split; congruence. }
  destruct (Hf i Hi) as (s & Hs & E). split; [|split].
  - assert (s <= value z i) by (apply (proj2 Hs i Hi); split; reflexivity). lra.
  - destruct Hs as ((j & Hj & Aj & Ej) & M). exists j. split; [exact Hj|]. split; [exact Aj|]. destruct (Hf j Hj) as (s' & Hs' & E'). rewrite (surface_unique n x y z j s' s Hs') in E'; [lra|]. apply (same j Hj Aj). split; [exists j; split; [exact Hj|]; split; [exact Aj|exact Ej]|exact M].
  - intros j Hj Aj. destruct (Hf j Hj) as (s' & Hs' & E'). rewrite (surface_unique n x y z j s' s Hs' (same j Hj Aj s Hs)) in E'. lra.
Qed.
Print Assumptions height_above_surface_nonnegative.

(** C148.  The field does not depend on how the columns are distributed over ranks: degrees of freedom with the same height and the same heights above and below get the same value. *)
Theorem height_above_surface_independent_of_ranks :
  forall n x y z f n' x' y' z' f', is_height_above_surface n x y z f -> is_height_above_surface n' x' y' z' f' ->
  forall i i', (i < n)%nat -> (i' < n')%nat -> value z i = value z' i' ->
  (forall v, (exists j, (j < n)%nat /\ above_each_other x y i j /\ value z j = v) <-> (exists j, (j < n')%nat /\ above_each_other x' y' i' j /\ value z' j = v)) ->
  value f i = value f' i'.
Proof.
  intros n x y z f n' x' y' z' f' (_ & Hf) (_ & Hf') i i' Hi Hi' Ez Heq.
  destruct (Hf i Hi) as (s & (Hs & M) & E). destruct (Hf' i' Hi') as (s' & (Hs' & M') & E').
  assert (s = s'); [|subst; lra]. apply Rle_antisym.
  - destruct (proj2 (Heq s') Hs') as (j & Hj & Aj & <-). apply M; assumption.
  - destruct (proj1 (Heq s) Hs) as (j & Hj & Aj & <-). apply M'; assumption.
Qed.
Print Assumptions height_above_surface_independent_of_ranks.

(** C148.  A mesh with columns of different lengths on some rank: the domain cannot be constructed on any rank. *)
Theorem uneven_columns_no_domain :
  forall frames, Forall (fun d => d <> []) frames -> (exists d n, In d frames /\ num_levels d = Some n /\ Nat.modulo (length d) n <> 0%nat) ->
  forall r, (r < length frames)%nat -> nth_error (set_height_above_surface frames) r = Some (HeightFails RuntimeError).
Proof.
  intros frames NE U r Hr. unfold set_height_above_surface. rewrite (uneven_raises_everywhere frames NE U). clear NE U. revert r Hr.
  induction frames as [|d frames IH]; intros r Hr; cbn in Hr; [lia|]. destruct r as [|r]; [reflexivity|]. cbn [map combine nth_error]. apply IH. lia.
Qed.
Print Assumptions uneven_columns_no_domain.

(** C148 fails far from the origin: a hill one metre from the first column, 1000 km from the origin.  The four degrees of freedom are taken for one column and the surface point of the hill is 100 m above the surface. *)
Definition hill : dofs := {| dX := [1000000; 1000000; 1000001; 1000001]; dY := [0; 0; 0; 0]; dZ := [0; 10; 100; 110]; dF := [0; 10; 100; 110] |}.
Theorem far_hill_above_surface_refuted :
  exists d, consistent hill /\ sorted_frame hill d /\ even_columns 2 d /\
  exists f, set_height_above_surface [d] = [Height f] /\ value f 2 = 100 /\ ~ is_height_above_surface 4 (dX hill) (dY hill) (dF hill) f.
Proof.
  set (row f x z i := {| fld := f; cX := x; cY := 0; cZ := z; idx := i |}).
  set (d := [row 0 1000000 0 0%nat; row 10 1000000 10 1%nat; row 100 1000001 100 2%nat; row 110 1000001 110 3%nat]). exists d.
  split; [repeat split|]. split; [split; [cbn; apply Permutation_refl|]|].
  { repeat constructor; unfold row_le; cbn; lra. }
  split.
  { intros r I. assert (X : r = nth 0 d row0 \/ r = nth 1 d row0 \/ r = nth 2 d row0 \/ r = nth 3 d row0) by (simpl in I; intuition).
    clear I. destruct X as [->|[->|[->| ->]]]; simpl; unfold sameb;
    repeat match goal with |- context [same_dec ?x ?y] => let N := fresh in destruct (same_dec x y) as [[? ?]|N]; [|try (exfalso; apply N; split; simpl; reflexivity)]; simpl in * end; try lra; reflexivity. }
  assert (N : num_levels d = Some 4%nat).
  { assert (Rab : Rabs (1000001 - 1000000) = 1) by (rewrite Rabs_right; lra). assert (Ra : Rabs 1000000 = 1000000) by (rewrite Rabs_right; lra).
    unfold num_levels, d. f_equal. unfold near_first, isclose, row. cbn [filter cX cY]. rewrite !Rab, !Ra, !Rminus_diag_eq, !Rabs_R0 by reflexivity.
    repeat match goal with |- context [Rle_dec ?a ?b] => destruct (Rle_dec a b); [|lra] end. reflexivity. }
  set (data := fun h l => fld (nth (l + h * 4) d row0)).
  assert (Q : get_column_data [d] = [Columns 4 (1%nat, data, fun h l => idx (nth (l + h * 4) d row0))]).
  { unfold get_column_data. cbv zeta. cbn [map]. rewrite N. cbn [existsb orb]. unfold forallb. rewrite N. reflexivity. }
  assert (M : surface_height data 4 0 = 0) by (unfold surface_height, data, d, row; cbn [pred row_min Nat.add Nat.mul nth fld]; rewrite (Rmin_left 0 10), (Rmin_left 0 100), (Rmin_left 0 110) by lra; reflexivity).
  exists [0 - 0; 10 - 0; 100 - 0; 110 - 0]. split; [|split].
  - unfold set_height_above_surface. rewrite Q. cbn [combine map]. f_equal. f_equal. unfold set_field_from_column_data, assignments. cbn [seq flat_map map app fold_left]. unfold above_surface. rewrite M. reflexivity.
  - unfold value. cbn. lra.
  - intros (_ & H). destruct (H 2%nat ltac:(lia)) as (s & (_ & Ms) & E). assert (V : value [0 - 0; 10 - 0; 100 - 0; 110 - 0] 2 = 100) by (unfold value; cbn; lra). rewrite V in E. unfold value in E. cbn in E. assert (s = 0) by lra.
    destruct (H 2%nat ltac:(lia)) as (s' & ((j & Hj & (A1 & A2) & Ej) & _) & E'). rewrite V in E'. unfold value in E', A1, Ej. cbn in E'. assert (Z0 : s' = 0) by lra. rewrite Z0 in Ej.
    destruct j as [|[|[|[|j]]]]; cbn in A1, Ej; try lra; exfalso; lia.
Qed.
Print Assumptions far_hill_above_surface_refuted.

(** two columns of two levels with different surfaces meet the hypotheses *)
Example two_columns_height : exists D d, consistent D /\ sorted_frame D d /\ columns_recognised [d] /\ dF D = [35; 0; 30; 5].
Proof.
  exists {| dX := [1;0;1;0]; dY := [0;0;0;0]; dZ := [35;0;30;5]; dF := [35;0;30;5] |}.
  set (row f x z i := {| fld := f; cX := x; cY := 0; cZ := z; idx := i |}).
  set (d := [row 0 0 0 1%nat; row 5 0 5 3%nat; row 30 1 30 2%nat; row 35 1 35 0%nat]). exists d.
  assert (So : StronglySorted row_le d) by (repeat constructor; unfold row_le; simpl; lra).
  split; [repeat split|]. split; [split; [|exact So]|split; [|reflexivity]].
  - unfold d, row, frame_of. simpl. apply Permutation_sym.
    eapply perm_trans; [apply perm_swap|]. apply perm_skip. eapply perm_trans; [apply perm_skip, perm_swap|]. eapply perm_trans; [apply perm_swap|]. apply perm_skip. apply perm_swap.
  - intros r d' E. destruct r as [|r]; [|destruct r; discriminate]. injection E as <-. exists 2%nat. split; [lia|]. split; [exact So|]. split.
    + intros r I. assert (X : r = nth 0 d row0 \/ r = nth 1 d row0 \/ r = nth 2 d row0 \/ r = nth 3 d row0) by (simpl in I; intuition).
      clear I. destruct X as [->|[->|[->| ->]]]; simpl; unfold sameb;
      repeat match goal with |- context [same_dec ?x ?y] => let N := fresh in destruct (same_dec x y) as [[? ?]|N]; [|try (exfalso; apply N; split; simpl; reflexivity)]; simpl in * end; try lra; reflexivity.
    + intros r I N. assert (X : r = nth 0 d row0 \/ r = nth 1 d row0 \/ r = nth 2 d row0 \/ r = nth 3 d row0) by (simpl in I; intuition).
      clear I. destruct X as [->|[->|[->| ->]]]; simpl in *; try (split; simpl; reflexivity); exfalso; unfold near_first, isclose in N; simpl in N;
      rewrite !Rminus_0_r, Rabs_R0, Rabs_R1 in N; destruct (Rle_dec 1 (1 / 100000000 + 1 / 100000 * 0)); try lra; discriminate.
Qed.

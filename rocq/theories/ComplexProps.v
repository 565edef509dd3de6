(** Theorems about the complex proxy: C61. *)
From Verif Require Import Base Vec Complex.
Open Scope R_scope.

(** the complex list built from real and imaginary parts, part by part *)
Fixpoint interleave {A} (re im : list A) : list A :=
  match re, im with r :: rs, i :: is => r :: i :: interleave rs is | _, _ => [] end.

Lemma every_second_re : forall A (re im : list A), length re = length im -> component_elements (interleave re im) Re = re.
Proof.
  intros A re. unfold component_elements; cbn [part_index skipn]. induction re as [|r re IH]; intros [|i im] E; simpl in *; try discriminate; auto.
  rewrite IH by lia. reflexivity.
Qed.
Lemma every_second_im : forall A (re im : list A), length re = length im -> component_elements (interleave re im) Im = im.
Proof.
  intros A re. unfold component_elements; cbn [part_index]. induction re as [|r re IH]; intros [|i im] E; simpl in *; try discriminate; auto.
  destruct re as [|r' re']; destruct im as [|i' im']; simpl in *; try discriminate; auto. f_equal. apply (IH (i' :: im')). simpl. lia.
Qed.
(** every list of even length is such an interleaving *)
Lemma interleave_parts : forall A (u : list A) n, length u = (2 * n)%nat -> exists re im, u = interleave re im /\ length re = n /\ length im = n.
Proof.
  intros A u n. revert u. induction n as [|n IH]; intros u E; [destruct u; [exists [], []; auto|simpl in E; lia]|].
  destruct u as [|r [|i u]]; simpl in E; try lia. destruct (IH u ltac:(lia)) as [re [im [-> [E1 E2]]]]. exists (r :: re), (i :: im). simpl. auto.
Qed.
Lemma zip_assign_all : forall A (dst src : list A), length dst = length src -> zip_assign dst src = src.
Proof. induction dst as [|d dst IH]; intros [|s src] E; simpl in *; try discriminate; auto. rewrite IH by lia. reflexivity. Qed.
Lemma set_re : forall A (re im v : list A), length re = length im -> length v = length re -> set_part (interleave re im) v Re = interleave v im.
Proof.
  intros A re. induction re as [|r re IH]; intros [|i im] [|v vs] E1 E2; simpl in *; try discriminate; auto. rewrite IH by lia. reflexivity.
Qed.
Lemma set_im : forall A (re im v : list A), length re = length im -> length v = length re -> set_part (interleave re im) v Im = interleave re v.
Proof.
  intros A re. induction re as [|r re IH]; intros [|i im] [|v vs] E1 E2; simpl in *; try discriminate; auto. rewrite IH by lia. reflexivity.
Qed.

(** C61: for every (nested) real space with n flattened components: what was set is read back, and
    the other part is not touched *)
Theorem parts_round_trip : forall A (u v vout : list A) n, length u = (2 * n)%nat -> length v = n -> length vout = n ->
  get_part (set_part u v Re) vout Re = v /\ get_part (set_part u v Im) vout Im = v /\
  get_part (set_part u v Re) vout Im = get_part u vout Im /\ get_part (set_part u v Im) vout Re = get_part u vout Re.
Proof.
  intros A u v vout n Eu Ev Eo. destruct (interleave_parts A u n Eu) as [re [im [-> [E1 E2]]]]. unfold get_part.
  rewrite set_re, set_im by congruence. rewrite !every_second_re, !every_second_im by congruence. rewrite !zip_assign_all by congruence. auto.
Qed.
(** setting both parts determines the function, in either order *)
Theorem parts_determine : forall A (u re im : list A) n, length u = (2 * n)%nat -> length re = n -> length im = n ->
  set_part (set_part u re Re) im Im = interleave re im /\ set_part (set_part u im Im) re Re = interleave re im.
Proof.
  intros A u re im n Eu E1 E2. destruct (interleave_parts A u n Eu) as [r0 [i0 [-> [F1 F2]]]].
  split; [rewrite set_re, set_im by congruence; reflexivity|rewrite set_im, set_re by congruence; reflexivity].
Qed.
(** the complex element has, for every nesting, each flattened component twice: its real parts and
    its imaginary parts are the components of the real element in order *)
Theorem complex_element_parts : forall E (t : element E),
  length (complex_element t) = (2 * length (flatten t))%nat /\
  component_elements (complex_element t) Re = flatten t /\ component_elements (complex_element t) Im = flatten t.
Proof.
  intros E t. unfold complex_element. set (l := flatten t).
  assert (Q : flat_map (fun ee : E * E => [fst ee; snd ee]) (combine l l) = interleave l l).
  { assert (G : forall a b : list E, flat_map (fun ee : E * E => [fst ee; snd ee]) (combine a b) = interleave a b) by (induction a as [|x a IH]; intros [|y b]; simpl; auto; rewrite IH; reflexivity). apply G. }
  rewrite Q. rewrite every_second_re, every_second_im by auto. split; auto.
  clear Q. clearbody l. induction l; simpl; lia.
Qed.
(** nesting makes no difference: a mixed element inside a mixed element can be replaced by its parts *)
Theorem complex_element_nesting : forall E (s1 s2 s3 : list (element E)),
  complex_element (Mixed (s1 ++ Mixed s2 :: s3)) = complex_element (Mixed (s1 ++ s2 ++ s3)).
Proof. intros E s1 s2 s3. unfold complex_element. cbn [flatten]. rewrite !flat_map_app. cbn [flat_map flatten]. reflexivity. Qed.
(** the boundary condition on component k is put on the real and the imaginary part of component k *)
Theorem bc_parts : forall A (re im : list A) k d, length re = length im -> (k < length re)%nat ->
  map (fun i => nth i (interleave re im) d) (bc_components (Some k)) = [nth k re d; nth k im d].
Proof.
  intros A re. induction re as [|r re IH]; intros [|i im] k d E Hk; simpl in E, Hk; try lia. destruct k as [|k]; [reflexivity|].
  specialize (IH im k d ltac:(lia) ltac:(lia)). unfold bc_components in *. cbn [map] in *.
  replace (2 * S k + 0)%nat with (S (S (2 * k + 0))) by lia. replace (2 * S k + 1)%nat with (S (S (2 * k + 1))) by lia. cbn [interleave nth]. exact IH.
Qed.

(** ** Forms represent complex multiplication.
    A complex function solves the real system iff it solves the complex one: z * (A(ur,v) + i A(ui,v))
    = (br(v) + i bi(v)) as complex numbers, for every real test function v.  A and f vanish on the zero
    test function (they are linear in it). *)
Section Forms.
Context {D : Type} (zero : D).
Definition zeros (n : nat) : list D := repeat zero n.
Theorem forms_are_complex_multiplication : forall n z1 z2 (A : list D -> list D -> R) (f : list D -> R) ur ui,
  length ur = n -> length ui = n -> (forall u, A u (zeros n) = 0) -> f (zeros n) = 0 ->
  ((forall v, length v = (2 * n)%nat -> twoform z1 A (interleave ur ui) v = oneform z2 f v) <->
   (forall v, length v = n -> cmul z1 (A ur v, A ui v) = cscal (f v) z2)).
Proof.
  intros n z1 z2 A f ur ui Er Ei A0 f0. assert (Lz : length (zeros n) = n) by apply repeat_length. split.
  - intros H v Ev.
    assert (Lr : length (interleave v (zeros n)) = (2 * n)%nat /\ length (interleave (zeros n) v) = (2 * n)%nat).
    { assert (G : forall (a b : list D), length a = length b -> length (interleave a b) = (2 * length a)%nat) by (induction a as [|x a IH]; intros [|y b] E; simpl in *; try lia; rewrite IH; lia).
      rewrite !G by congruence. lia. }
    pose proof (H _ (proj1 Lr)) as H1. pose proof (H _ (proj2 Lr)) as H2. unfold twoform, oneform in H1, H2.
    rewrite !every_second_re, !every_second_im in H1, H2 by congruence. rewrite !A0, f0 in H1, H2. unfold cmul, cscal. simpl in *. f_equal; lra.
  - intros H v Ev. destruct (interleave_parts D v n Ev) as [vr [vi [-> [E1 E2]]]]. unfold twoform, oneform.
    rewrite !every_second_re, !every_second_im by congruence. pose proof (H vr E1) as H1. pose proof (H vi E2) as H2.
    unfold cmul, cscal in H1, H2. simpl in H1, H2.
    assert (P1 : fst z1 * A ur vr - snd z1 * A ui vr = f vr * fst z2) by (apply (f_equal fst) in H1; exact H1).
    assert (P2 : fst z1 * A ui vi + snd z1 * A ur vi = f vi * snd z2) by (apply (f_equal snd) in H2; exact H2). lra.
Qed.
End Forms.
(** ** The vector implementation *)
Fixpoint celem_of (u : cdata) : celem := match u with DVec2 _ _ => CVector2 | DTensor xs => CTensor2 (length xs / 2) | DMixed subs => CMixed (map celem_of subs) end.
Section CdataInd.
Variable P : cdata -> Prop.
Hypothesis HV : forall r i, P (DVec2 r i).
Hypothesis HT : forall xs, P (DTensor xs).
Hypothesis HM : forall subs, Forall P subs -> P (DMixed subs).
Fixpoint cdata_ind2 (u : cdata) : P u :=
  match u with DVec2 r i => HV r i | DTensor xs => HT xs
  | DMixed subs => HM subs ((fix go (l : list cdata) : Forall P l := match l with [] => Forall_nil _ | x :: r => Forall_cons _ (cdata_ind2 x) (go r) end) subs) end.
End CdataInd.
(** number of scalar components; no_tensor: all components are 2-vectors *)
Fixpoint vsize (u : cdata) : nat := match u with DVec2 _ _ => 1 | DTensor _ => 0 | DMixed subs => fold_right (fun v n => (vsize v + n)%nat) 0%nat subs end.
Fixpoint no_tensor (u : cdata) : bool := match u with DVec2 _ _ => true | DTensor _ => false | DMixed subs => forallb no_tensor subs end.
Lemma skipn_add : forall A a b (l : list A), skipn b (skipn a l) = skipn (a + b) l.
Proof. intros A a. induction a; intros b l; [reflexivity|]. destruct l; cbn; [apply skipn_nil|]. apply IHa. Qed.
Definition other (p : part) : part := match p with Re => Im | Im => Re end.
Lemma v_set_spec : forall property p u, no_tensor u = true -> forall vs, (vsize u <= length vs)%nat ->
  let '(u', rest) := v_set_part u vs p in
  rest = skipn (vsize u) vs /\ v_subfunctions property u' p = VOk (firstn (vsize u) vs) /\ v_subfunctions property u' (other p) = v_subfunctions property u (other p).
Proof.
  intros property p u. induction u as [r i|xs|subs IH] using cdata_ind2; intros Hn vs Hl.
  - cbn in *. destruct vs as [|v vs]; [simpl in Hl; lia|]. destruct p; cbn; auto.
  - discriminate.
  - cbn [no_tensor vsize] in *. cbn [v_set_part].
    set (go := fix go (l : list cdata) (vs : list R) : list cdata * list R :=
        match l with [] => ([], vs) | x :: r => let '(x', vs1) := v_set_part x vs p in let '(r', vs2) := go r vs1 in (x' :: r', vs2) end).
    assert (Q : forall l, Forall (fun u => no_tensor u = true -> forall vs, (vsize u <= length vs)%nat ->
        let '(u', rest) := v_set_part u vs p in rest = skipn (vsize u) vs /\ v_subfunctions property u' p = VOk (firstn (vsize u) vs) /\ v_subfunctions property u' (other p) = v_subfunctions property u (other p)) l ->
      forallb no_tensor l = true -> forall vs, (fold_right (fun v n => (vsize v + n)%nat) 0%nat l <= length vs)%nat ->
      let '(l', rest) := go l vs in let n := fold_right (fun v n => (vsize v + n)%nat) 0%nat l in
      rest = skipn n vs /\ vbind (vmap (fun v => v_subfunctions property v p) l') (fun ls => VOk (concat ls)) = VOk (firstn n vs) /\
      vmap (fun v => v_subfunctions property v (other p)) l' = vmap (fun v => v_subfunctions property v (other p)) l).
    { clear. induction l as [|x l IHl]; intros HF Hb vs Hl; cbn [go fold_right]; [cbn; auto|].
      inversion HF as [|? ? Hx Hr]; subst. cbn [forallb] in Hb. apply andb_true_iff in Hb as [B1 B2]. cbn [fold_right] in Hl.
      specialize (Hx B1 vs ltac:(lia)). destruct (v_set_part x vs p) as [x' vs1]. destruct Hx as [-> [E1 E2]].
      specialize (IHl Hr B2 (skipn (vsize x) vs)). rewrite skipn_length in IHl. specialize (IHl ltac:(lia)). destruct (go l (skipn (vsize x) vs)) as [r' vs2].
      cbv zeta in IHl. destruct IHl as [-> [E3 E4]]. cbv zeta. split; [apply skipn_add|].
      cbn [vmap]. rewrite E1, E2, E4. split; [|reflexivity]. cbn [vbind].
      destruct (vmap (fun v => v_subfunctions property v p) r') as [ys|]; cbn [vbind concat] in *; [|discriminate]. inversion E3 as [E3']. rewrite E3'. f_equal.
      clear. generalize (fold_right (fun v n => (vsize v + n)%nat) 0%nat l). generalize (vsize x). intros a b. revert a. induction vs as [|v vs IH]; intros [|a]; cbn; auto. - rewrite !firstn_nil. reflexivity. - rewrite IH. reflexivity. }
    specialize (Q subs IH Hn vs Hl). destruct (go subs vs) as [subs' rest]. cbv zeta in Q. destruct Q as [Q1 [Q2 Q3]].
    split; [exact Q1|]. cbn [v_subfunctions]. split; [exact Q2|]. rewrite Q3. reflexivity.
Qed.
(** C61, vector implementation, for elements without vector or tensor components in any nesting: the
    values set are read back, and the other part is not touched *)
Theorem vector_impl_round_trip_partial : forall property u vs p, no_tensor u = true -> length vs = vsize u ->
  v_subfunctions property (fst (v_set_part u vs p)) p = VOk vs /\
  v_subfunctions property (fst (v_set_part u vs p)) (other p) = v_subfunctions property u (other p).
Proof.
  intros property u vs p Hn El. pose proof (v_set_spec property p u Hn vs ltac:(lia)) as H. destruct (v_set_part u vs p) as [u' rest]. destruct H as [_ [H1 H2]]. cbn [fst].
  rewrite <- El, firstn_all in H1. auto.
Qed.
(** ... but for a real element with a vector-valued component no version of num_sub_elements works:
    either the complex element cannot be built or its parts cannot be read *)
Theorem vector_impl_vectors_refuted : forall property n u p, 
  (v_element property (RVector n) = VTypeError) \/ (v_element property (RVector n) = VOk (celem_of u) -> v_subfunctions property u p = VTypeError).
Proof.
  intros [|] n u p; [right|left; reflexivity]. cbn [v_element]. intros E. inversion E as [E1]. destruct u as [r i|xs|subs]; cbn [celem_of] in E1; try discriminate. reflexivity.
Qed.
(** Non-trivial instance: a two-component space, z = 2 - 3i *)
Example parts_example : get_part (set_part [1; 2; 3; 4] [7; 8] Im) [0; 0] Re = [1; 3] /\ set_part [1; 2; 3; 4] [7; 8] Im = [1; 7; 3; 8].
Proof. split; reflexivity. Qed.
Example element_example : complex_element (Mixed [Leaf 1; Mixed [Leaf 2; Leaf 3]])%nat = [1; 1; 2; 2; 3; 3]%nat.
Proof. reflexivity. Qed.

Print Assumptions parts_round_trip.
Print Assumptions parts_determine.
Print Assumptions complex_element_parts.
Print Assumptions complex_element_nesting.
Print Assumptions bc_parts.
Print Assumptions forms_are_complex_multiplication.
Print Assumptions vector_impl_round_trip_partial.
Print Assumptions vector_impl_vectors_refuted.

(** C61.  Were num_sub_elements a method everywhere, a tensor-valued component would be read correctly: its first half is
    the real part and its second half the imaginary part. *)
Theorem vector_impl_tensor_parts : forall re im : list R, length re = length im ->
  v_subfunctions false (DTensor (re ++ im)%list) Re = VOk re /\ v_subfunctions false (DTensor (re ++ im)%list) Im = VOk im.
Proof.
  intros re im E. cbn [v_subfunctions]. rewrite app_length, <- E.
  assert (L2 : ((length re + length re) / 2)%nat = length re) by (symmetry; apply (Nat.div_unique _ 2 _ 0); lia).
  rewrite L2.
  cbn [part_index Nat.mul skipn]. split.
  - rewrite firstn_app, firstn_all, Nat.sub_diag. cbn [firstn]. rewrite app_nil_r. reflexivity.
  - rewrite Nat.add_0_r, skipn_app, skipn_all, Nat.sub_diag. cbn [skipn app]. rewrite E, firstn_all. reflexivity.
Qed.
Print Assumptions vector_impl_tensor_parts.

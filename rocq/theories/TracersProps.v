(** Theorems about active tracers and the mixed wrapper: C42, C43, C68. *)
From Coq Require Import Permutation FinFun.
From Verif Require Import Base Tracers.
Local Open Scope string_scope.
Local Open Scope list_scope.

(** ** C42.  [precedes d t l]: in the list l, a tracer named d occurs before t *)
Definition precedes (d : string) (t : tracer) (l : list tracer) : Prop :=
  exists l1 r l2 l3, l = l1 ++ r :: l2 ++ t :: l3 /\ t_name r = d.
(** the densities that are themselves active tracers are not conservatively transported *)
Definition no_chain (l : list tracer) : Prop :=
  forall t r d, In t l -> In r l -> t_density t = Some d -> t_name r = d -> t_density r = None.

Lemma set_at_length : forall {A} i (x : A) l, List.length (set_at i x l) = List.length l.
Proof. induction i as [|i IH]; intros x [|y r]; simpl; auto. Qed.
Lemma set_at_nth : forall {A} i (x : A) l k, i < List.length l -> nth_error (set_at i x l) k = if Nat.eqb k i then Some x else nth_error l k.
Proof.
  induction i as [|i IH]; intros x [|y r] k H; simpl in *; try lia; destruct k as [|k]; simpl; auto.
  apply IH. lia.
Qed.
Definition transp (i j k : nat) : nat := if Nat.eqb k i then j else if Nat.eqb k j then i else k.
Lemma swap_nth : forall {A} i j (l : list A) k, i < List.length l -> j < List.length l -> nth_error (swap i j l) k = nth_error l (transp i j k).
Proof.
  intros A i j l k Hi Hj. unfold swap, transp.
  destruct (nth_error l i) as [x|] eqn:Ei; [|apply nth_error_None in Ei; lia].
  destruct (nth_error l j) as [y|] eqn:Ej; [|apply nth_error_None in Ej; lia].
  rewrite set_at_nth by (rewrite set_at_length; auto). rewrite set_at_nth by auto.
  destruct (Nat.eqb k j) eqn:Kj; destruct (Nat.eqb k i) eqn:Ki; auto.
  apply Nat.eqb_eq in Kj. apply Nat.eqb_eq in Ki. subst. congruence.
Qed.
Lemma swap_length : forall {A} i j (l : list A), List.length (swap i j l) = List.length l.
Proof. intros. unfold swap. destruct (nth_error l i), (nth_error l j); auto. rewrite !set_at_length. auto. Qed.
Lemma swap_perm : forall {A} i j (l : list A), i < List.length l -> j < List.length l -> Permutation l (swap i j l).
Proof.
  intros A i j l Hi Hj. apply Permutation_nth_error. split. { symmetry. apply swap_length. }
  exists (transp i j). split; [|intros n; apply swap_nth; auto].
  intros a b. unfold transp. destruct (Nat.eqb_spec a i), (Nat.eqb_spec a j), (Nat.eqb_spec b i), (Nat.eqb_spec b j); lia.
Qed.
Lemma first_pos_go : forall n l i k,
  (fix go l i := match l with [] => None | t :: r => if String.eqb (t_name t) n then Some i else go r (S i) end) l i = Some k ->
  exists m t, k = i + m /\ nth_error l m = Some t /\ t_name t = n.
Proof.
  induction l as [|t r IH]; intros i k H; simpl in H; [discriminate|].
  destruct (String.eqb (t_name t) n) eqn:E.
  - inversion H; subst. exists 0, t. apply String.eqb_eq in E. repeat split; auto.
  - destruct (IH _ _ H) as [m [t' [H1 [H2 H3]]]]. exists (S m), t'. repeat split; auto; lia.
Qed.
Lemma first_pos_some : forall n l k, first_pos n l = Some k -> exists t, nth_error l k = Some t /\ t_name t = n.
Proof. intros n l k H. destruct (first_pos_go _ _ _ _ H) as [m [t [H1 [H2 H3]]]]. simpl in H1. subst. eauto. Qed.
Lemma first_pos_in : forall n l, In n (map t_name l) -> exists k, first_pos n l = Some k.
Proof.
  intros n l. unfold first_pos. generalize 0. induction l as [|t r IH]; intros i H; simpl in *; [tauto|].
  destruct (String.eqb (t_name t) n) eqn:E; eauto. destruct H as [H|H]; [apply String.eqb_neq in E; congruence|]. apply IH; auto.
Qed.
Lemma order_step_perm : forall l i, Permutation l (order_step l i).
Proof.
  intros l i. unfold order_step. destruct (nth_error l i) as [t|] eqn:E; auto. destruct (t_density t) as [d|]; auto.
  destruct (first_pos d l) as [j|] eqn:Ej; auto. destruct (Nat.ltb i j) eqn:L; auto.
  apply first_pos_some in Ej. destruct Ej as [r [Hr _]].
  apply swap_perm; apply nth_error_Some; congruence.
Qed.
Lemma fold_order_perm : forall is l, Permutation l (fold_left order_step is l).
Proof. induction is as [|i is IH]; intros l; simpl; auto. eapply perm_trans; [apply order_step_perm|apply IH]. Qed.

(** Ordering loses and invents no tracer *)
Theorem order_is_permutation : forall l, Permutation l (order_tracers l).
Proof. intros. apply fold_order_perm. Qed.

(* positions 0..i-1 are settled *)
Definition settled (i : nat) (l : list tracer) : Prop :=
  forall k t d r m, k < i -> nth_error l k = Some t -> t_density t = Some d -> nth_error l m = Some r -> t_name r = d -> m < k.
Lemma names_inj : forall l a b x y, NoDup (map t_name l) -> nth_error l a = Some x -> nth_error l b = Some y -> t_name x = t_name y -> a = b.
Proof.
  intros l a b x y ND Ha Hb E. rewrite NoDup_nth_error in ND. apply ND.
  - rewrite map_length. apply nth_error_Some. congruence.
  - rewrite (map_nth_error t_name _ _ Ha), (map_nth_error t_name _ _ Hb). congruence.
Qed.
Lemma no_chain_perm : forall l l', Permutation l l' -> no_chain l -> no_chain l'.
Proof. intros l l' P N t r d Ht Hr. apply N; apply (Permutation_in _ (Permutation_sym P)); auto. Qed.
Lemma settled_step : forall l i, NoDup (map t_name l) -> no_chain l -> settled i l -> settled (S i) (order_step l i).
Proof.
  intros l i ND NC S. unfold order_step.
  destruct (nth_error l i) as [t0|] eqn:Ei.
  2: { intros k t d r m Hk Hkt. destruct (Nat.eq_dec k i) as [->|]; [congruence|]. apply (S k t); auto; lia. }
  destruct (t_density t0) as [d0|] eqn:Ed.
  2: { intros k t d r m Hk Hkt Hd. destruct (Nat.eq_dec k i) as [->|]; [congruence|]. apply (S k t); auto; lia. }
  destruct (first_pos d0 l) as [j|] eqn:Ej.
  2: { intros k t d r m Hk Hkt Hd Hr Hn. destruct (Nat.eq_dec k i) as [->|].
       - assert (t = t0) by congruence. subst t. assert (d = d0) by congruence. subst d0.
         destruct (first_pos_in d l) as [q Hq]; [|congruence]. rewrite <- Hn. apply in_map. eapply nth_error_In; eauto.
       - apply (S k t d r); auto; lia. }
  destruct (first_pos_some _ _ _ Ej) as [r0 [Hr0 Hn0]].
  assert (NR : t_density r0 = None).
  { apply (NC t0 r0 d0); eauto using nth_error_In. }
  destruct (Nat.ltb i j) eqn:L.
  - apply Nat.ltb_lt in L.
    assert (Li : i < List.length l) by (apply nth_error_Some; congruence).
    assert (Lj : j < List.length l) by (apply nth_error_Some; congruence).
    intros k t d r m Hk Hkt Hd Hr Hn. rewrite swap_nth in Hkt, Hr by auto.
    destruct (Nat.eq_dec k i) as [->|Nk].
    + unfold transp in Hkt. rewrite Nat.eqb_refl in Hkt. congruence.
    + assert (K : k < i) by lia.
      assert (Tk : transp i j k = k).
      { unfold transp. destruct (Nat.eqb_spec k i), (Nat.eqb_spec k j); lia. }
      rewrite Tk in Hkt. pose proof (S k t d r (transp i j m) K Hkt Hd Hr Hn) as M.
      unfold transp in M. destruct (Nat.eqb_spec m i), (Nat.eqb_spec m j); lia.
  - apply Nat.ltb_ge in L. intros k t d r m Hk Hkt Hd Hr Hn. destruct (Nat.eq_dec k i) as [->|Nk].
    + assert (t = t0) by congruence. subst t. assert (d = d0) by congruence. subst d0.
      assert (m = j) by (eapply names_inj; eauto; congruence). subst m.
      assert (j <> i) by (intros ->; congruence). lia.
    + apply (S k t d r); auto; lia.
Qed.
Lemma fold_settled : forall n i l, NoDup (map t_name l) -> no_chain l -> settled i l -> settled (i + n) (fold_left order_step (seq i n) l).
Proof.
  induction n as [|n IH]; intros i l ND NC S; simpl.
  - replace (i + 0) with i by lia. auto.
  - replace (i + Datatypes.S n) with (Datatypes.S i + n) by lia. apply IH.
    + eapply Permutation_NoDup; [apply Permutation_map; apply order_step_perm|auto].
    + eapply no_chain_perm; [apply order_step_perm|auto].
    + apply settled_step; auto.
Qed.
Lemma settled_precedes : forall l t d, settled (List.length l) l -> In t l -> t_density t = Some d -> In d (map t_name l) -> precedes d t l.
Proof.
  intros l t d S Ht Hd Hin. apply In_nth_error in Ht. destruct Ht as [k Hk].
  apply in_map_iff in Hin. destruct Hin as [r [Hn Hr]]. apply In_nth_error in Hr. destruct Hr as [m Hm].
  assert (K : k < List.length l) by (apply nth_error_Some; congruence).
  pose proof (S k t d r m K Hk Hd Hm Hn) as M.
  destruct (nth_error_split _ _ Hm) as [l1 [l2 [E L1]]]. subst l.
  rewrite nth_error_app2 in Hk by lia. replace (k - List.length l1) with (Datatypes.S (k - List.length l1 - 1)) in Hk by lia.
  simpl in Hk. destruct (nth_error_split _ _ Hk) as [l3 [l4 [E L3]]]. subst l2.
  exists l1, r, l3, l4. auto.
Qed.

(** For every list of distinctly named tracers whose densities are not themselves
    conservatively transported, in whatever order the user gives them: after ordering,
    the density of every conservative tracer, if it is an active tracer, comes first. *)
Theorem density_precedes_tracer : forall l t d,
  NoDup (map t_name l) -> no_chain l ->
  In t l -> t_density t = Some d -> In d (map t_name l) ->
  precedes d t (order_tracers l).
Proof.
  intros l t d ND NC Ht Hd Hin.
  pose proof (order_is_permutation l) as P.
  apply settled_precedes; auto.
  - assert (S0 : settled 0 l) by (intros k t' d' r m H; lia).
    pose proof (fold_settled (List.length l - 1) 0 l ND NC S0) as S. fold (order_tracers l) in S. simpl in S.
    rewrite <- (Permutation_length P).
    intros k t' d' r m Hk Hkt Hdd Hr Hn.
    destruct (Nat.lt_ge_cases k (List.length l - 1)) as [Lk|Lk].
    + eapply S; eauto.
    + assert (m < List.length l). { rewrite (Permutation_length P). apply nth_error_Some. congruence. }
      assert (m <> k); [|lia]. intros ->.
      assert (r = t') by congruence. subst r.
      assert (t_density t' = None); [|congruence].
      apply (no_chain_perm _ _ P NC t' t' d'); eauto using nth_error_In.
  - eapply Permutation_in; eauto.
  - eapply Permutation_in; [apply Permutation_map; exact P|auto].
Qed.

(** With a chain of conservative tracers the claim fails. *)
Definition chainA := {| t_name := "A"; t_density := Some "B" |}.
Definition chainB := {| t_name := "B"; t_density := Some "C" |}.
Definition chainC := {| t_name := "C"; t_density := None |}.
Theorem density_chain_refuted :
  NoDup (map t_name [chainA; chainB; chainC]) /\
  order_tracers [chainA; chainB; chainC] = [chainB; chainA; chainC] /\
  ~ precedes "C" chainB (order_tracers [chainA; chainB; chainC]).
Proof.
  split; [|split].
  - simpl. repeat constructor; simpl; intuition discriminate.
  - reflexivity.
  - change (order_tracers [chainA; chainB; chainC]) with [chainB; chainA; chainC].
    intros [l1 [r [l2 [l3 [E N]]]]].
    destruct l1 as [|a l1]; simpl in E; injection E as E0 E.
    + subst. discriminate.
    + subst a. destruct l1 as [|a l1]; simpl in E; injection E as E0 E; [subst; discriminate|].
      subst a. destruct l1 as [|a l1]; simpl in E; injection E as E0 E; [destruct l2; discriminate|destruct l1; discriminate].
Qed.

(** *** Names *)
Lemma append_names_ok : forall l names n, append_names names l = Ok n -> n = names ++ map t_name l.
Proof.
  induction l as [|t r IH]; intros names n H; simpl in H. { inversion H. simpl. rewrite app_nil_r. auto. }
  destruct (existsb (String.eqb (t_name t)) names); [discriminate|]. apply IH in H. subst. rewrite <- app_assoc. auto.
Qed.
Lemma append_names_iff : forall l names, NoDup names -> (exists n, append_names names l = Ok n) <-> NoDup (names ++ map t_name l).
Proof.
  induction l as [|t r IH]; intros names ND; simpl.
  - rewrite app_nil_r. split; eauto.
  - destruct (existsb (String.eqb (t_name t)) names) eqn:E.
    + split; [intros [n H]; discriminate|]. intros N. exfalso. apply existsb_exists in E. destruct E as [x [Hx Ex]].
      apply String.eqb_eq in Ex. subst x.
      apply NoDup_remove_2 in N. apply N. apply in_or_app. auto.
    + assert (NI : ~ In (t_name t) names).
      { intros I. assert (existsb (String.eqb (t_name t)) names = true); [|congruence].
        apply existsb_exists. exists (t_name t). split; auto. apply String.eqb_refl. }
      assert (ND' : NoDup (names ++ [t_name t])).
      { eapply Permutation_NoDup; [apply Permutation_cons_append|constructor; auto]. }
      rewrite (IH _ ND'). rewrite <- app_assoc. simpl. tauto.
Qed.
(** The equation set accepts the tracers exactly when no name is repeated, among the
    tracers or with a field already there; and then the new field names are the old ones
    followed by all the tracer names.  Otherwise it raises ValueError. *)
Theorem tracers_added : forall names l, NoDup names ->
  (NoDup (names ++ map t_name l) ->
     exists l', add_tracers names l = Ok (names ++ map t_name l', l') /\ Permutation l l') /\
  (~ NoDup (names ++ map t_name l) -> add_tracers names l = Err ValueError).
Proof.
  intros names l ND. unfold add_tracers.
  assert (IFF : (exists n, append_names names (order_tracers l) = Ok n) <-> NoDup (names ++ map t_name l)).
  { rewrite (append_names_iff _ _ ND). pose proof (order_is_permutation l) as P.
    assert (Q : Permutation (names ++ map t_name l) (names ++ map t_name (order_tracers l))).
    { apply Permutation_app_head. apply Permutation_map. exact P. }
    split; intros H; [exact (Permutation_NoDup (Permutation_sym Q) H)|exact (Permutation_NoDup Q H)]. }
  split; intros H.
  - apply IFF in H. destruct H as [n Hn]. rewrite Hn. simpl. exists (order_tracers l).
    split; [|apply order_is_permutation]. apply append_names_ok in Hn. subst. reflexivity.
  - destruct (append_names names (order_tracers l)) as [n|e] eqn:E.
    + exfalso. apply H, IFF. eauto.
    + assert (E' : e = ValueError); [|subst; reflexivity]. clear -E. revert names E.
      induction (order_tracers l) as [|t r IH]; intros names E; simpl in E; [discriminate|].
      destruct (existsb _ names); [congruence|eauto].
Qed.
(** A conservative tracer whose density is not a field of the equation set is rejected. *)
Theorem unknown_density_raises : forall names l,
  densities_found names l = Ok tt <-> (forall t d, In t l -> t_density t = Some d -> In d names).
Proof.
  intros names l. unfold densities_found. destruct (forallb _ l) eqn:E.
  - split; auto. intros _ t d Ht Hd. rewrite forallb_forall in E. specialize (E t Ht). rewrite Hd in E.
    apply existsb_exists in E. destruct E as [x [Hx Ex]]. apply String.eqb_eq in Ex. subst; auto.
  - split; [discriminate|]. intros H. exfalso. assert (forallb (fun t => match t_density t with Some d => existsb (String.eqb d) names | None => true end) l = true); [|congruence].
    apply forallb_forall. intros t Ht. destruct (t_density t) as [d|] eqn:Hd; auto.
    apply existsb_exists. exists d. split; eauto. apply String.eqb_refl.
Qed.

(** ** C43.  The mixed wrapper's pass *)
Section PassProps.
Context {V : Type}.
Variable sub : string -> option (subwrapper V).
Variable field : string -> V.
Lemma pass_untouched : forall names s s' n, pass sub field names s = Ok s' -> ~ In n names -> s' n = s n.
Proof.
  induction names as [|m r IH]; intros s s' n H NI; simpl in H. { inversion H; auto. }
  destruct (pass_field sub field s m) as [s1|] eqn:E; [|discriminate]. simpl in H.
  rewrite (IH _ _ _ H) by (intros I; apply NI; right; auto).
  unfold pass_field in E. destruct (sub m) as [[f|rho f]|].
  - inversion E. unfold sset. destruct (String.eqb_spec n m) as [->|]; auto. exfalso. apply NI. left; auto.
  - destruct (sub rho); inversion E. unfold sset. destruct (String.eqb_spec n m) as [->|]; auto. exfalso. apply NI. left; auto.
  - inversion E; auto.
Qed.
Lemma pass_app : forall a b s, pass sub field (a ++ b) s = (do s' <- pass sub field a s; pass sub field b s').
Proof. induction a as [|n a IH]; intros b s; simpl; auto. destruct (pass_field sub field s n); simpl; auto. Qed.

(** If the density's field comes before the tracer's, the density pair used for the
    tracer is the pair computed for the density in this very pass, whatever the wrappers
    held before it. *)
Theorem density_is_current : forall l1 l2 l3 rho q f g s s',
  NoDup (l1 ++ rho :: l2 ++ q :: l3) ->
  sub rho = Some (Plain g) -> sub q = Some (Conservative rho f) ->
  pass sub field (l1 ++ rho :: l2 ++ q :: l3) s = Ok s' ->
  s' rho = g (field rho) /\ s' q = f (g (field rho)) (field q).
Proof.
  intros l1 l2 l3 rho q f g s s' ND Hr Hq H.
  rewrite pass_app in H. destruct (pass sub field l1 s) as [s1|]; [|discriminate]. simpl in H.
  unfold pass_field at 1 in H. rewrite Hr in H. simpl in H.
  rewrite pass_app in H.
  destruct (pass sub field l2 _) as [s2|] eqn:E2; [|discriminate]. simpl in H.
  unfold pass_field at 1 in H. rewrite Hq, Hr in H. simpl in H.
  assert (ND1 : NoDup (rho :: l2 ++ q :: l3)).
  { clear -ND. induction l1; simpl in ND; auto. inversion ND; auto. }
  inversion ND1 as [|? ? NI ND2]; subst.
  assert (R2 : s2 rho = g (field rho)).
  { rewrite (pass_untouched _ _ _ _ E2). { unfold sset. rewrite String.eqb_refl. auto. }
    intros I. apply NI. apply in_or_app; auto. }
  assert (NQ : ~ In q l3). { intros I. apply NoDup_remove_2 in ND2. apply ND2. apply in_or_app; auto. }
  assert (NR : ~ In rho l3). { intros I. apply NI. apply in_or_app. right; right; auto. }
  assert (RQ : rho <> q). { intros ->. apply NI. apply in_or_app. right; left; auto. }
  split.
  - rewrite (pass_untouched _ _ _ _ H NR). unfold sset. destruct (String.eqb_spec rho q); [contradiction|auto].
  - rewrite (pass_untouched _ _ _ _ H NQ). unfold sset. rewrite String.eqb_refl, R2. auto.
Qed.

(** The result of a pass never depends on what the wrappers held before it, when every
    conservative field's density has a wrapper and comes before it. *)
Definition ordered (names : list string) : Prop :=
  forall l q l' rho f, names = l ++ q :: l' -> sub q = Some (Conservative rho f) -> In rho l /\ sub rho <> None.
Lemma pass_history : forall done names s1 s2,
  (forall q l l' rho f, names = l ++ q :: l' -> sub q = Some (Conservative rho f) -> In rho (done ++ l) /\ sub rho <> None) ->
  (forall n, In n done -> sub n <> None -> s1 n = s2 n) ->
  exists t1 t2, pass sub field names s1 = Ok t1 /\ pass sub field names s2 = Ok t2 /\
    forall n, In n (done ++ names) -> sub n <> None -> t1 n = t2 n.
Proof.
  intros done names. revert done. induction names as [|n r IH]; intros done s1 s2 O S; simpl.
  - exists s1, s2. rewrite app_nil_r. auto.
  - assert (STEP : exists u1 u2, pass_field sub field s1 n = Ok u1 /\ pass_field sub field s2 n = Ok u2 /\
              (forall m, In m (done ++ [n]) -> sub m <> None -> u1 m = u2 m)).
    { unfold pass_field. destruct (sub n) as [[f|rho f]|] eqn:En.
      - eexists _, _. repeat split. intros m Hm Nm. unfold sset. destruct (String.eqb_spec m n); auto.
        apply S; auto. apply in_app_or in Hm. destruct Hm as [|[|[]]]; auto; congruence.
      - destruct (O n [] r rho f eq_refl En) as [I N]. rewrite app_nil_r in I.
        assert (SR : s1 rho = s2 rho) by (apply S; auto). destruct (sub rho) eqn:Er; [|congruence].
        eexists _, _. repeat split. intros m Hm Nm. unfold sset. destruct (String.eqb_spec m n); [congruence|].
        apply S; auto. apply in_app_or in Hm. destruct Hm as [|[|[]]]; auto; congruence.
      - exists s1, s2. repeat split. intros m Hm Nm. apply S; auto. apply in_app_or in Hm.
        destruct Hm as [|[<-|[]]]; auto; congruence. }
    destruct STEP as [u1 [u2 [E1 [E2 U]]]]. rewrite E1, E2. simpl.
    destruct (IH (done ++ [n]) u1 u2) as [t1 [t2 [T1 [T2 T]]]]; auto.
    { intros q l l' rho f E Hq. destruct (O q (n :: l) l' rho f) as [I N]; auto. { rewrite E; auto. }
      split; auto. rewrite <- app_assoc. simpl. auto. }
    exists t1, t2. repeat split; auto. intros m Hm. apply T. rewrite <- app_assoc. simpl. auto.
Qed.
Theorem pass_independent_of_history : forall names s1 s2, ordered names ->
  exists t1 t2, pass sub field names s1 = Ok t1 /\ pass sub field names s2 = Ok t2 /\
    forall n, In n names -> sub n <> None -> t1 n = t2 n.
Proof.
  intros names s1 s2 O. apply (pass_history []).
  - intros q l l' rho f E Hq. simpl. eapply O; eauto.
  - intros n [].
Qed.
End PassProps.

(** The two together: for tracers added by the user in any order (no chains), the pass over
    the equation set's fields, with a wrapper for every tracer, is independent of history
    and uses the current density for every conservative tracer. *)
Theorem added_tracers_use_current_density :
  forall {V} (base : list string) (l : list tracer) names l' (wp : string -> V -> V * V) (wc : string -> V * V -> V -> V * V) (field : string -> V) t d,
    NoDup base -> NoDup (map t_name l) -> no_chain l -> add_tracers base l = Ok (names, l') ->
    In t l -> t_density t = Some d -> In d (map t_name l) ->
    let sub n := match find (fun t => String.eqb (t_name t) n) l with
                 | Some t => Some (match t_density t with Some d => Conservative d (wc n) | None => Plain (wp n) end)
                 | None => None end in
    forall s s', pass sub field names s = Ok s' ->
      s' (t_name t) = wc (t_name t) (wp d (field d)) (field (t_name t)).
Proof.
  intros V base l names l' wp wc field t d NB ND NC HA Ht Hd Hin sub s s' HP.
  assert (FIND : forall r, In r l -> find (fun t => String.eqb (t_name t) (t_name r)) l = Some r).
  { intros r Hr. destruct (find (fun t => String.eqb (t_name t) (t_name r)) l) as [r'|] eqn:F.
    - apply find_some in F. destruct F as [I E]. apply String.eqb_eq in E. f_equal.
      apply In_nth_error in Hr. apply In_nth_error in I. destruct Hr as [a Ha]. destruct I as [b Hb].
      assert (b = a) by (eapply names_inj; eauto). subst. congruence.
    - exfalso. apply (find_none _ _ F) in Hr. rewrite String.eqb_refl in Hr. discriminate. }
  pose proof Hin as Hin'. apply in_map_iff in Hin'. destruct Hin' as [r [Hn Hr]].
  assert (NR : t_density r = None) by (apply (NC t r d); auto).
  assert (SR : sub d = Some (Plain (wp d))). { unfold sub. rewrite <- Hn, (FIND r Hr), NR. auto. }
  assert (ST : sub (t_name t) = Some (Conservative d (wc (t_name t)))). { unfold sub. rewrite (FIND t Ht), Hd. auto. }
  assert (DN : NoDup (base ++ map t_name l)).
  { destruct (ListDec.NoDup_dec string_dec (base ++ map t_name l)) as [|N]; auto.
    destruct (tracers_added base l NB) as [_ T]. rewrite (T N) in HA. discriminate. }
  unfold add_tracers in HA. destruct (append_names base (order_tracers l)) as [n|] eqn:EA; [|discriminate].
  simpl in HA. inversion HA; subst n l'. apply append_names_ok in EA.
  destruct (density_precedes_tracer l t d ND NC Ht Hd Hin) as [l1 [r' [l2 [l3 [E N']]]]].
  assert (EN : names = (base ++ map t_name l1) ++ d :: map t_name l2 ++ t_name t :: map t_name l3).
  { rewrite EA, E, map_app. simpl. rewrite map_app. simpl. rewrite N', <- app_assoc. auto. }
  rewrite EN in HP. eapply (density_is_current sub field _ _ _ _ _ _ _ s s'); eauto.
  rewrite <- EN, EA. eapply Permutation_NoDup; [|exact DN].
  apply Permutation_app_head, Permutation_map, order_is_permutation.
Qed.

(** In the wrong order the density of the previous application is used. *)
Theorem stale_density_refuted :
  exists (sub : string -> option (subwrapper nat)) (field : string -> nat) names s1 s2 t1 t2,
    NoDup names /\ pass sub field names s1 = Ok t1 /\ pass sub field names s2 = Ok t2 /\ t1 "q" <> t2 "q".
Proof.
  exists (fun n => if String.eqb n "rho" then Some (Plain (fun v => (v, v))) else if String.eqb n "q" then Some (Conservative "rho" (fun p v => (fst p + v, v))) else None),
    (fun _ => 1), ["q"; "rho"], (fun _ => (0, 0)), (fun _ => (5, 5)).
  eexists _, _. repeat split. { repeat constructor; simpl; intuition discriminate. } intros H. discriminate H.
Qed.
(** A conservative tracer whose density has no wrapper of its own makes the pass raise. *)
Theorem density_without_wrapper_raises : forall {V} (sub : string -> option (subwrapper V)) field l q r rho f s,
  sub q = Some (Conservative rho f) -> sub rho = None -> exists e, pass sub field (l ++ q :: r) s = Err e.
Proof.
  intros. rewrite pass_app. destruct (pass sub field l s) as [s1|e]; [|eexists; reflexivity]. simpl. unfold pass_field at 1. rewrite H, H0. simpl. eauto.
Qed.

(** ** C68.  Setting up a mixed wrapper *)
Lemma pos_of_ge : forall x l i k, pos_of x l i = Some k -> i <= k.
Proof. induction l as [|y r IH]; intros i k H; simpl in H; [discriminate|]. destruct (String.eqb x y); [inversion H; lia|apply IH in H; lia]. Qed.
Lemma pos_of_nth : forall x l i k, pos_of x l i = Some k -> nth_error l (k - i) = Some x.
Proof.
  induction l as [|y r IH]; intros i k H; simpl in H; [discriminate|]. destruct (String.eqb_spec x y) as [->|].
  - inversion H. rewrite Nat.sub_diag. auto.
  - pose proof (pos_of_ge _ _ _ _ H). apply IH in H. replace (k - i) with (S (k - S i)) by lia. auto.
Qed.
Lemma nth_set_at_ne : forall {A} i k (x d : A) l, i <> k -> nth k (set_at i x l) d = nth k l d.
Proof. induction i as [|i IH]; intros k x d [|y r] H; destruct k as [|k]; simpl; auto; try lia; try congruence. Qed.
Lemma setup_loop_got : forall names eq subs h got h' got',
  NoDup (map fst subs) -> setup_loop names eq eq subs h got = Ok (h', got') ->
  got' = got ++ map (fun p => (fst p, match pos_of (fst p) names 0 with Some i => nth i (h eq) EmptyString | None => EmptyString end)) subs.
Proof.
  induction subs as [|[n fs] r IH]; intros h got h' got' ND H; simpl in *. { inversion H. rewrite app_nil_r. auto. }
  inversion ND as [|? ? NI ND']; subst.
  destruct (pos_of n names 0) as [i|] eqn:E; [|discriminate].
  apply IH in H; auto. rewrite H, <- app_assoc. f_equal. simpl. f_equal.
  apply map_ext_in. intros [m fm] Hm. simpl. f_equal. destruct (pos_of m names 0) as [k|] eqn:Ek; auto.
  unfold hset. rewrite Nat.eqb_refl. apply nth_set_at_ne. intros ->.
  apply pos_of_nth in E. apply pos_of_nth in Ek. rewrite E in Ek. inversion Ek; subst. apply NI.
  apply in_map_iff. exists (m, fm). auto.
Qed.
(** In the first set-up, every subwrapper receives the field's own function space. *)
Theorem first_setup_original_spaces : forall names eq subs h h' got,
  NoDup (map fst subs) -> mixed_setup names eq subs h = Ok (h', got) ->
  got = map (fun p => (fst p, match pos_of (fst p) names 0 with Some i => nth i (h eq) EmptyString | None => EmptyString end)) subs.
Proof. intros. apply setup_loop_got in H0; auto. Qed.
Lemma setup_loop_other : forall names eq wr subs h got h' got' b, b <> wr -> setup_loop names eq wr subs h got = Ok (h', got') -> h' b = h b.
Proof.
  induction subs as [|[n fs] r IH]; intros h got h' got' b B H; simpl in *. { inversion H; auto. }
  destruct (pos_of n names 0); [|discriminate]. rewrite (IH _ _ _ _ _ B H). unfold hset. destruct (Nat.eqb_spec b wr); [contradiction|auto].
Qed.
(** Had the wrapper its own copy of the list, the equation's spaces would be unchanged. *)
Theorem copy_would_leave_equation : forall names eq wr subs h h' got,
  wr <> eq -> setup_loop names eq wr subs h [] = Ok (h', got) -> h' eq = h eq.
Proof. intros names eq wr subs h h' got N H. apply (setup_loop_other names eq wr subs h [] h' got); auto. Qed.
(** As written, the set-up rewrites equation.spaces, and a second one (a second scheme on
    the same equation, or the same scheme set up again) starts from the wrong space. *)
Theorem setup_changes_equation_refuted :
  exists names subs h h1 h2 got1 got2,
    mixed_setup names 0 subs h = Ok (h1, got1) /\ h1 0 <> h 0 /\
    mixed_setup names 0 subs h1 = Ok (h2, got2) /\ got2 <> got1.
Proof.
  exists ["rho"; "q"], [("q", fun s => if String.eqb s "theta" then "DG1"%string else "CG"%string)],
    (fun _ => ["DG"; "theta"]).
  eexists _, _, _, _. repeat split; discriminate.
Qed.

(** *** The hypotheses are met *)
Definition ex_tracers := [ {| t_name := "q"; t_density := Some "rho_d" |}; {| t_name := "c"; t_density := Some "rho_d" |};
  {| t_name := "p"; t_density := Some "rho" |}; {| t_name := "rho_d"; t_density := None |}; {| t_name := "T"; t_density := None |} ].
Example ex_hyps : NoDup (map t_name ex_tracers) /\ no_chain ex_tracers /\
  map t_name (order_tracers ex_tracers) = ["rho_d"; "c"; "p"; "q"; "T"] /\
  exists n, add_tracers ["u"; "rho"] ex_tracers = Ok n.
Proof.
  split; [|split; [|split]].
  - simpl. repeat constructor; simpl; intuition discriminate.
  - intros t r d Ht Hr. simpl in Ht, Hr.
    repeat (destruct Ht as [<-|Ht]; [|]); try contradiction; repeat (destruct Hr as [<-|Hr]; [|]); try contradiction; simpl; congruence.
  - reflexivity.
  - eexists. reflexivity.
Qed.

Print Assumptions density_precedes_tracer.
Print Assumptions tracers_added.
Print Assumptions pass_independent_of_history.
Print Assumptions added_tracers_use_current_density.
Print Assumptions setup_changes_equation_refuted.

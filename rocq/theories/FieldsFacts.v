From Verif Require Import Base Fields.
Local Open Scope string_scope.

(* ---------------- time levels ---------------- *)
Section LevelFacts.
  Variable V : Type.
  Notation level := (level V).

  Definition names_of (l : level) : list string := map fst l.

  Lemma assoc_in_names k (l : level) : In k (names_of l) -> exists v, assoc k l = Some v.
  Proof.
    induction l as [|[k' v'] tl IH]; simpl; [tauto|].
    intros [->|H]; [rewrite String.eqb_refl; eauto|].
    destruct (String.eqb k k'); eauto.
  Qed.

  Lemma assign_level_gen (src : level) : forall ns (dst : level),
    names_of dst = ns -> incl ns (names_of src) ->
    exists r, assign_level dst src = Some r /\
      names_of r = ns /\ forall k, In k ns -> assoc k r = assoc k src.
  Proof.
    induction ns as [|n ns IH]; intros dst Hd Hi; destruct dst as [|[k v] tl]; try discriminate.
    - exists []; simpl; repeat split; tauto.
    - injection Hd as -> Htl.
      destruct (assoc_in_names n src) as [w Hw]; [apply Hi; left; reflexivity|].
      destruct (IH tl Htl) as (r & Hr & Hnr & Har); [intros z Hz; apply Hi; right; exact Hz|].
      simpl; rewrite Hw, Hr. exists ((n, w) :: r); simpl; split; [reflexivity|].
      split; [unfold names_of in *; simpl; congruence|].
      intros k Hk. destruct (String.eqb k n) eqn:E.
      + apply String.eqb_eq in E; subst; symmetry; exact Hw.
      + apply Har. destruct Hk as [->|Hk]; [rewrite String.eqb_refl in E; discriminate|exact Hk].
  Qed.

  Lemma assoc_ext (l1 l2 : level) :
    NoDup (names_of l1) -> names_of l1 = names_of l2 ->
    (forall k, In k (names_of l1) -> assoc k l1 = assoc k l2) -> l1 = l2.
  Proof.
    revert l2; induction l1 as [|[k v] tl IH]; intros [|[k2 v2] tl2] Hn He Ha; try discriminate; [reflexivity|].
    injection He as <- Htl. simpl in Hn. inversion Hn as [|? ? Hnk Hntl]; subst.
    pose proof (Ha k (or_introl eq_refl)) as H0. simpl in H0; rewrite String.eqb_refl in H0.
    injection H0 as <-. f_equal. apply IH; [exact Hntl|exact Htl|].
    intros q Hq. specialize (Ha q (or_intror Hq)). simpl in Ha.
    destruct (String.eqb q k) eqn:E; [|exact Ha].
    apply String.eqb_eq in E; subst; contradiction.
  Qed.

  (** Copying between levels with the same (distinct) field names is exact. *)
  Lemma assign_level_same (dst src : level) :
    NoDup (names_of src) -> names_of dst = names_of src -> assign_level dst src = Some src.
  Proof.
    intros Hn He. destruct (assign_level_gen src (names_of src) dst He) as (r & Hr & Hnr & Har).
    { intros z; auto. }
    rewrite Hr; f_equal. apply assoc_ext; [rewrite Hnr; exact Hn|exact Hnr|].
    rewrite Hnr; exact Har.
  Qed.

  Definition wf_levels (ns : list string) (ls : list level) : Prop :=
    NoDup ns /\ Forall (fun l => names_of l = ns) ls.

  Lemma set_nth_app {A} (p : list A) (x a : A) q : set_nth (length p) a (p ++ x :: q)%list = (p ++ a :: q)%list.
  Proof. induction p as [|h p IH]; simpl; [reflexivity|rewrite IH; reflexivity]. Qed.

  Lemma nth_error_mid {A} (p : list A) x q : nth_error (p ++ x :: q)%list (length p) = Some x.
  Proof. rewrite nth_error_app2 by lia. rewrite Nat.sub_diag; reflexivity. Qed.

  Lemma shift_all_spec ns : forall rest done,
    wf_levels ns (done ++ rest) -> rest <> [] ->
    shift_all (seq (length done) (length rest - 1)) (done ++ rest)%list =
    Some (done ++ tl rest ++ [last rest []])%list.
  Proof.
    induction rest as [|a rest IH]; intros done [Hn Hw] Hne; [congruence|].
    destruct rest as [|b rest].
    - simpl. reflexivity.
    - cbn [length]. replace (S (S (length rest)) - 1)%nat with (S (length rest)) by lia.
      cbn [seq shift_all]. unfold shift_at.
      rewrite nth_error_mid.
      replace (length done + 1)%nat with (length (done ++ [a])%list) by (rewrite app_length; simpl; lia).
      replace (done ++ a :: b :: rest)%list with ((done ++ [a]) ++ b :: rest)%list at 1
        by (rewrite <- app_assoc; reflexivity).
      rewrite nth_error_mid.
      rewrite Forall_app in Hw; destruct Hw as [Hw1 Hw2].
      inversion Hw2 as [|? ? Ha Hw3]; subst. inversion Hw3 as [|? ? Hb Hw4]; subst.
      rewrite assign_level_same; [|rewrite Hb; exact Hn|congruence].
      rewrite set_nth_app.
      specialize (IH (done ++ [b])%list).
      rewrite <- app_assoc in IH; cbn [app] in IH.
      rewrite app_length in IH; cbn [length] in IH.
      replace (length done + 1)%nat with (S (length done)) in IH by lia.
      replace (S (length rest) - 1)%nat with (length rest) in IH by lia.
      rewrite IH; [f_equal; rewrite <- app_assoc; reflexivity| |discriminate].
      split; [exact Hn|]. rewrite Forall_app; split; [exact Hw1|].
      constructor; [exact Hb|]. constructor; [exact Hb|exact Hw4].
  Qed.

  Lemma last_app_single {A} (l : list A) x d : last (l ++ [x])%list d = x.
  Proof. apply last_last. Qed.

  Lemma update_spec ns ps x :
    wf_levels ns (ps ++ [x]) -> ps <> [] ->
    update (mk_tlf ps x) = Some (mk_tlf (tl ps ++ [x])%list x).
  Proof.
    intros [Hn Hw] Hne. rewrite Forall_app in Hw; destruct Hw as [Hw1 Hw2].
    inversion Hw2 as [|? ? Hx _]; subst.
    unfold update; cbn [previous np1].
    pose proof (shift_all_spec (names_of x) ps [] (conj Hn Hw1) Hne) as Hs.
    cbn [app length] in Hs. rewrite Hs; clear Hs.
    rewrite app_length; cbn [length].
    replace (length (tl ps) + 1 - 1)%nat with (length (tl ps)) by lia.
    rewrite nth_error_mid.
    rewrite assign_level_same; [|exact Hn|].
    - rewrite set_nth_app; reflexivity.
    - rewrite Forall_forall in Hw1. apply Hw1.
      destruct ps as [|p ps]; [congruence|].
      destruct (exists_last Hne) as (l' & a & ->). rewrite last_last.
      apply in_or_app; right; left; reflexivity.
  Qed.

  (** The last k elements of a list. *)
  Lemma skipn_tl {A} n (l : list A) : skipn n (tl l) = skipn (S n) l.
  Proof. destruct l; simpl; [destruct n; reflexivity|reflexivity]. Qed.

  Lemma steps_spec ns : forall news ps x,
    wf_levels ns (ps ++ [x]) -> ps <> [] -> Forall (fun l => names_of l = ns) news ->
    exists y, steps (mk_tlf ps x) news = Some y /\
      (previous y ++ [np1 y])%list = skipn (length news) (ps ++ [x] ++ news)%list.
  Proof.
    induction news as [|s news IH]; intros ps x Hw Hne Hnews.
    - exists (mk_tlf ps x); simpl; auto.
    - inversion Hnews as [|? ? Hs Hnews']; subst.
      unfold steps; cbn [fold_left one_step].
      rewrite (update_spec (names_of s) ps x Hw Hne). cbn [previous].
      destruct (IH (tl ps ++ [x])%list s) as (y & Hy & Hp).
      + destruct Hw as [Hn Hw]; split; [exact Hn|].
        rewrite Forall_app in *. destruct Hw as [Hw1 Hw2].
        split; [|constructor; auto].
        rewrite Forall_app; split; [|exact Hw2].
        destruct ps; simpl; [constructor|inversion Hw1; assumption].
      + intros Hc; destruct (tl ps); discriminate.
      + exact Hnews'.
      + exists y; split; [exact Hy|]. rewrite Hp. cbn [length].
        rewrite <- app_assoc; cbn [app].
        destruct ps as [|p ps]; [congruence|]. reflexivity.
  Qed.
End LevelFacts.

(* ---------------- registry ---------------- *)
Lemma assoc_app {V} k (l1 l2 : list (string * V)) :
  assoc k (l1 ++ l2)%list = match assoc k l1 with Some v => Some v | None => assoc k l2 end.
Proof. induction l1 as [|[k' v] tl IH]; simpl; [reflexivity|]. destruct (String.eqb k k'); auto. Qed.

Lemma finish_attrs s q id : r_attrs (fst (finish s q id)) = r_attrs s.
Proof. unfold finish; destruct (permitted _); reflexivity. Qed.

Lemma call_keeps s q n a : assoc n (r_attrs s) = Some a -> assoc n (r_attrs (call_state s q)) = Some a.
Proof.
  intros H. unfold call_state, call.
  destruct (assoc (q_name q) (r_attrs s)) as [a'|] eqn:E; [exact H|].
  destruct (q_field q) as [f|], (q_space q) as [sp|]; try exact H.
  - rewrite finish_attrs; unfold attach; cbn [r_attrs]; rewrite assoc_app, H; reflexivity.
  - destruct sp; [rewrite finish_attrs|]; unfold attach; cbn [fst r_attrs]; rewrite assoc_app, H; reflexivity.
Qed.

Lemma calls_keep qs : forall s n a,
  assoc n (r_attrs s) = Some a -> assoc n (r_attrs (runs call_state s qs)) = Some a.
Proof.
  unfold runs; induction qs as [|q qs IH]; intros s n a H; cbn [fold_left]; [exact H|].
  apply IH, call_keeps, H.
Qed.

Lemma call_existing s q a : assoc (q_name q) (r_attrs s) = Some a -> call s q = (s, Ok a).
Proof. intros H; unfold call; rewrite H; reflexivity. Qed.

Lemma call_returns_binding s q s' a :
  call s q = (s', Ok a) -> assoc (q_name q) (r_attrs s') = Some a.
Proof.
  unfold call. destruct (assoc (q_name q) (r_attrs s)) as [a'|] eqn:E.
  - intros H; injection H as <- <-; exact E.
  - destruct (q_field q) as [f|], (q_space q) as [sp|]; try discriminate.
    + unfold finish; destruct (permitted _); intros H; [|discriminate].
      injection H as <- <-; unfold attach; cbn [r_attrs]; rewrite assoc_app, E; simpl.
      rewrite String.eqb_refl; reflexivity.
    + destruct sp; [|discriminate].
      unfold finish; destruct (permitted _); intros H; [|discriminate].
      injection H as <- <-; unfold attach; cbn [r_attrs]; rewrite assoc_app, E; simpl.
      rewrite String.eqb_refl; reflexivity.
Qed.

(** Once a call has returned a value for a name, every later call with that name
    returns the same value and changes nothing. *)
Lemma lookup_stable s q s' a qs q2 :
  call s q = (s', Ok a) -> q_name q2 = q_name q ->
  call (runs call_state s' qs) q2 = (runs call_state s' qs, Ok a).
Proof.
  intros H1 Hn. apply call_existing. rewrite Hn.
  apply calls_keep, (call_returns_binding _ _ _ _ H1).
Qed.

Lemma unknown_without_space s q :
  has_attr s (q_name q) = false ->
  (q_field q = None /\ q_space q = None) \/ (q_field q <> None /\ q_space q <> None) ->
  call s q = (s, Err ValueError).
Proof.
  unfold has_attr, call. destruct (assoc (q_name q) (r_attrs s)); [discriminate|].
  intros _ [[-> ->]|[H1 H2]]; [reflexivity|].
  destruct (q_field q), (q_space q); congruence.
Qed.

Definition valid_request (q : request) : Prop :=
  ((q_field q <> None /\ q_space q = None) \/ (q_field q = None /\ q_space q = Some SingleSpace)) /\
  match q_type q with None => True | Some ty => permitted ty = true end.

Lemma permitted_default q : permitted (default_type q) = true.
Proof. unfold default_type; destruct (q_pick_up q), (q_dump q); reflexivity. Qed.

Lemma call_new s q :
  has_attr s (q_name q) = false -> valid_request q ->
  exists s' id, call s q = (s', Ok (AField id)) /\
    (match q_field q with Some f => id = f | None => id = r_next s end) /\
    r_fields s' = (r_fields s ++ [id])%list /\
    r_names s' = (r_names s ++ [q_name q])%list /\
    r_types s' = (r_types s ++ [match q_type q with None => default_type q | Some ty => ty end])%list /\
    r_to_dump s' = (r_to_dump s ++ if q_dump q then [q_name q] else [])%list /\
    r_to_pick_up s' = (r_to_pick_up s ++ if q_pick_up q then [q_name q] else [])%list.
Proof.
  intros Hna [Hv Hty]. unfold has_attr in Hna. unfold call.
  destruct (assoc (q_name q) (r_attrs s)) eqn:E; [discriminate|].
  assert (Hp : permitted (match q_type q with None => default_type q | Some ty => ty end) = true).
  { destruct (q_type q); [exact Hty|apply permitted_default]. }
  assert (Hd : forall l : list string, (if q_dump q then (l ++ [q_name q])%list else l) = (l ++ if q_dump q then [q_name q] else [])%list)
    by (intros; destruct (q_dump q); [reflexivity|rewrite app_nil_r; reflexivity]).
  assert (Hpk : forall l : list string, (if q_pick_up q then (l ++ [q_name q])%list else l) = (l ++ if q_pick_up q then [q_name q] else [])%list)
    by (intros; destruct (q_pick_up q); [reflexivity|rewrite app_nil_r; reflexivity]).
  destruct Hv as [[Hf Hs]|[Hf Hs]]; rewrite Hs.
  - destruct (q_field q) as [f|]; [|congruence].
    unfold finish; rewrite Hp. eexists; exists f; split; [reflexivity|]. cbn.
    rewrite Hd, Hpk; auto 10.
  - rewrite Hf. unfold finish; rewrite Hp. eexists; eexists; split; [reflexivity|]. cbn.
    rewrite Hd, Hpk; auto 10.
Qed.

(** Registry invariant: registered names are distinct, each has a type, and all
    are attributes. *)
Definition reg_inv (s : registry) : Prop :=
  NoDup (r_names s) /\ length (r_types s) = length (r_names s) /\
  (forall n, In n (r_names s) -> exists id, assoc n (r_attrs s) = Some (AField id)).

Lemma reg_inv_init d : reg_inv (reg_init d).
Proof. split; [constructor|]; split; [reflexivity|]; simpl; tauto. Qed.

Lemma NoDup_snoc {A} (l : list A) x : NoDup l -> ~ In x l -> NoDup (l ++ [x]).
Proof.
  intros H1 H2. apply NoDup_rev in H1. rewrite <- (rev_involutive (l ++ [x])).
  apply NoDup_rev. rewrite rev_app_distr; simpl. constructor; [rewrite <- in_rev; exact H2|exact H1].
Qed.

Lemma finish_inv s q id :
  reg_inv s -> ~ In (q_name q) (r_names s) -> assoc (q_name q) (r_attrs s) = Some (AField id) ->
  reg_inv (fst (finish s q id)).
Proof.
  intros (H1 & H2 & H3) Hni Ha. unfold finish.
  destruct (permitted _); cbn; (split; [|split]); cbn.
  - apply NoDup_snoc; assumption.
  - rewrite !app_length; simpl; lia.
  - intros n Hn. apply in_app_or in Hn as [Hn|[<-|[]]]; eauto.
  - exact H1.
  - exact H2.
  - exact H3.
Qed.

Lemma attach_inv s n id : reg_inv s -> assoc n (r_attrs s) = None ->
  reg_inv (attach s n id) /\ ~ In n (r_names s) /\ assoc n (r_attrs (attach s n id)) = Some (AField id).
Proof.
  intros (H1 & H2 & H3) Ha. repeat split; cbn; auto.
  - intros m Hm. destruct (H3 m Hm) as (i & Hi). exists i. rewrite assoc_app, Hi; reflexivity.
  - intros Hin. destruct (H3 n Hin) as (i & Hi); congruence.
  - rewrite assoc_app, Ha; simpl; rewrite String.eqb_refl; reflexivity.
Qed.

Lemma call_inv s q : reg_inv s -> reg_inv (call_state s q).
Proof.
  intros H. unfold call_state, call.
  destruct (assoc (q_name q) (r_attrs s)) eqn:E; [exact H|].
  destruct (q_field q) as [f|], (q_space q) as [sp|]; try exact H.
  - destruct (attach_inv s (q_name q) f H E) as (A & B & C). apply finish_inv; assumption.
  - set (s0 := mk_reg _ _ _ _ _ _ _). assert (H0 : reg_inv s0) by exact H.
    destruct (attach_inv s0 (q_name q) (r_next s) H0 E) as (A & B & C).
    destruct sp; [apply finish_inv; assumption|exact A].
Qed.

Lemma calls_inv qs : forall s, reg_inv s -> reg_inv (runs call_state s qs).
Proof.
  unfold runs; induction qs as [|q qs IH]; intros s H; [exact H|]. cbn [fold_left].
  apply IH, call_inv, H.
Qed.

Lemma index_of_in n l : In n l -> exists i, index_of n l = Some i /\ i < length l /\ nth_error l i = Some n.
Proof.
  induction l as [|h tl IH]; simpl; [tauto|]. intros H.
  destruct (String.eqb n h) eqn:E.
  - apply String.eqb_eq in E; subst. exists 0; repeat split; lia || reflexivity.
  - destruct H as [->|H]; [rewrite String.eqb_refl in E; discriminate|].
    destruct (IH H) as (i & Hi & Hl & Hn). rewrite Hi; exists (S i); simpl; repeat split; auto; lia.
Qed.

Lemma field_type_total s n : reg_inv s -> In n (r_names s) -> exists ty, field_type s n = Ok ty.
Proof.
  intros (H1 & H2 & H3) Hn. unfold field_type, has_attr.
  destruct (H3 n Hn) as (id & Ha). rewrite Ha.
  destruct (index_of_in n (r_names s) Hn) as (i & Hi & Hl & _). rewrite Hi.
  destruct (nth_error (r_types s) i) eqn:E; [eauto|].
  apply nth_error_None in E; lia.
Qed.

Lemma index_of_app_fresh n l : ~ In n l -> index_of n (l ++ [n]) = Some (length l).
Proof.
  induction l as [|h tl IH]; simpl; [rewrite String.eqb_refl; reflexivity|].
  intros H. destruct (String.eqb n h) eqn:E; [apply String.eqb_eq in E; subst; tauto|].
  rewrite IH by tauto; reflexivity.
Qed.

Lemma new_field_type s q :
  reg_inv s -> has_attr s (q_name q) = false -> valid_request q ->
  field_type (call_state s q) (q_name q) =
    Ok (match q_type q with None => default_type q | Some ty => ty end).
Proof.
  intros Hi Hna Hv. destruct (call_new s q Hna Hv) as (s' & id & Hc & _ & _ & Hn & Ht & _).
  unfold call_state; rewrite Hc; cbn [fst]. unfold field_type, has_attr.
  rewrite (call_returns_binding _ _ _ _ Hc), Hn, Ht.
  destruct Hi as (H1 & H2 & H3).
  rewrite index_of_app_fresh.
  - rewrite nth_error_app2 by lia. rewrite H2, Nat.sub_diag; reflexivity.
  - intros Hin. destruct (H3 _ Hin) as (i & E). unfold has_attr in Hna; rewrite E in Hna; discriminate.
Qed.

Lemma str_in_fields_false s x : str_in_fields s x = false.
Proof. unfold str_in_fields; induction (r_fields s); simpl; auto. Qed.

(** Which levels are saved for pick-up: all previous levels but the oldest. *)
Lemma pickup_levels_spec k : 2 <= k ->
  map snd (pickup_levels k) = rev (tl (previous_names k) ++ ["n"])%list.
Proof.
  intros Hk. unfold pickup_levels, level_names, previous_names.
  replace (Nat.leb k 1) with false by (symmetry; apply Nat.leb_gt; lia).
  rewrite app_length, map_length, rev_length, seq_length; cbn [length].
  replace (k - 1 + 2) with (S (S (k - 1))) by lia.
  replace (Nat.ltb 2 (S (S (k - 1)))) with true by (symmetry; apply Nat.ltb_lt; lia).
  replace (S (S (k - 1)) - 2) with (k - 1) by lia.
  rewrite map_map; cbn [snd]. rewrite rev_app_distr; cbn [rev app].
  destruct k as [|[|k]]; [lia|lia|]. replace (S (S k) - 1) with (S k) by lia.
  assert (E : rev (seq 1 (S k)) = S k :: rev (seq 1 k)).
  { rewrite seq_S, rev_app_distr; reflexivity. }
  rewrite E; cbn [map tl]. rewrite map_rev, rev_involutive.
  cbn [seq map]. f_equal. rewrite <- seq_shift, !map_map. apply map_ext; intros j; reflexivity.
Qed.

Lemma reference_profile_cases s n :
  set_reference_profile s n PExpression = (s, Err ValueError) /\
  (forall id, assoc (n ++ "_bar") (r_attrs s) = Some (AField id) ->
     set_reference_profile s n (PFunction SingleSpace) = (s, Ok (AField id))) /\
  (has_attr s (n ++ "_bar") = false ->
     exists s' id, set_reference_profile s n (PFunction SingleSpace) = (s', Ok (AField id)) /\
       In (n ++ "_bar") (r_to_pick_up s') /\ r_to_dump s' = r_to_dump s).
Proof.
  unfold set_reference_profile; rewrite str_in_fields_false.
  split; [reflexivity|]. split.
  - intros id H. apply call_existing; exact H.
  - intros H.
    destruct (call_new s (mk_req (n ++ "_bar") None (Some SingleSpace) false true (Some Reference)) H)
      as (s' & id & Hc & _ & _ & _ & _ & Hd & Hp).
    { split; [right; auto|reflexivity]. }
    exists s', id. split; [exact Hc|]. cbn in Hd, Hp. rewrite app_nil_r in Hd.
    split; [rewrite Hp; apply in_or_app; right; left; reflexivity|exact Hd].
Qed.

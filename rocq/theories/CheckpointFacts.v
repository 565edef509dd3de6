From Verif Require Import Base Checkpoint.
From Coq Require Import ZifyBool ZifyNat.
Ltac Zify.zify_post_hook ::= Z.div_mod_to_equations.

(* ---------------- restart ---------------- *)
Section RestartFacts.
  Variables (V T : Type) (advance : T -> T) (scheme : T -> nat -> list V -> nat -> V * nat)
            (multilevel : bool).
  Notation stp := (sim_step advance scheme).
  Notation sav := (save multilevel).
  Notation lod := (load multilevel).

  (** Schemes without a start-up counter do not have one to change. *)
  Hypothesis single_level_no_counter :
    multilevel = false -> forall t n p c, snd (scheme t n p c) = c.

  Definition obs (s : sim V T) : V * T * nat * nat := (new s, time s, step s, startup s).

  (** Agreement on everything but the oldest previous level. *)
  Definition agree (s r : sim V T) : Prop :=
    obs s = obs r /\ tl (prev s) = tl (prev r) /\ length (prev s) = length (prev r).

  Lemma agree_step s r : agree s r -> stp s = stp r.
  Proof.
    intros (Ho & Ht & _). unfold obs in Ho. injection Ho as H1 H2 H3 H4.
    unfold sim_step. rewrite Ht, H1, H2, H3, H4. reflexivity.
  Qed.

  Lemma length_step s : prev s <> [] -> length (prev (stp s)) = length (prev s).
  Proof.
    intros H. unfold sim_step. destruct (scheme _ _ _ _). cbn [prev].
    rewrite app_length; cbn. destruct (prev s); [congruence|]. cbn; lia.
  Qed.

  Lemma length_niter n : forall s, prev s <> [] ->
    length (prev (niter n stp s)) = length (prev s) /\ prev (niter n stp s) <> [].
  Proof.
    induction n as [|n IH]; intros s H; [simpl; auto|].
    cbn [niter].
    assert (H1 : length (prev (stp s)) = length (prev s)) by (apply length_step; exact H).
    assert (H2 : prev (stp s) <> []).
    { intros E; rewrite E in H1; destruct (prev s); [congruence|discriminate]. }
    destruct (IH _ H2) as [H3 H4]. split; [congruence|exact H4].
  Qed.

  Lemma startup_single n : forall s, multilevel = false -> startup (niter n stp s) = startup s.
  Proof.
    induction n as [|n IH]; intros s Hm; [reflexivity|]. cbn [niter]. rewrite IH by exact Hm.
    unfold sim_step. pose proof (single_level_no_counter Hm (time s) (step s) (tl (prev s) ++ [new s]) (startup s)) as E.
    destruct (scheme _ _ _ _); exact E.
  Qed.

  Lemma load_save_agree s fresh :
    length (prev fresh) = length (prev s) -> prev s <> [] ->
    (multilevel = false -> startup fresh = startup s) ->
    agree (lod (sav s) fresh) s.
  Proof.
    intros Hl Hne Hc. unfold agree, load, save, obs; cbn.
    destruct (prev fresh) as [|a fr]; [destruct (prev s); [congruence|discriminate]|].
    destruct (prev s) as [|b pr]; [congruence|]. cbn.
    split; [|split; [reflexivity|reflexivity]].
    destruct multilevel; [reflexivity|]. rewrite Hc; reflexivity.
  Qed.

  Lemma agree_niter M : forall s r, agree s r -> agree (niter M stp s) (niter M stp r).
  Proof.
    destruct M as [|M]; intros s r H; [exact H|]. cbn [niter].
    rewrite (agree_step _ _ H). split; [|split]; reflexivity.
  Qed.

  Lemma agree_niter_S M s r : agree s r -> niter (S M) stp s = niter (S M) stp r.
  Proof. intros H; cbn [niter]. rewrite (agree_step _ _ H); reflexivity. Qed.

  Lemma agree_trans a b c : agree a b -> agree b c -> agree a c.
  Proof. intros (A & B & C) (D & E & F); split; [|split]; congruence. Qed.

  Lemma restart_exact s0 fresh N M :
    prev s0 <> [] -> length (prev fresh) = length (prev s0) -> startup fresh = startup s0 ->
    let sN := niter N stp s0 in
    let r := lod (sav sN) fresh in
    obs (niter M stp r) = obs (niter (N + M) stp s0) /\
    (0 < M -> niter M stp r = niter (N + M) stp s0).
  Proof.
    intros Hne Hl Hs sN r.
    destruct (length_niter N s0 Hne) as [HlN HneN]. fold sN in HlN, HneN.
    assert (A : agree r sN).
    { apply load_save_agree; [congruence|exact HneN|].
      intros Hm; rewrite Hs; symmetry; apply startup_single; exact Hm. }
    rewrite niter_add. split.
    - exact (proj1 (agree_niter M r sN A)).
    - destruct M as [|M]; [lia|]. intros _; apply agree_niter_S; exact A.
  Qed.

  Lemma restart_from_initial s0 fresh M :
    prev s0 <> [] -> length (prev fresh) = length (prev s0) -> startup fresh = startup s0 -> step s0 = 1 ->
    obs (niter M stp (lod (save_initial s0) fresh)) = obs (niter M stp s0).
  Proof.
    intros Hne Hl Hs H1.
    apply agree_niter. unfold agree, load, save_initial, obs; cbn.
    destruct (prev fresh) as [|a fr]; [destruct (prev s0); [congruence|discriminate]|].
    destruct (prev s0) as [|b pr]; [congruence|]. cbn. rewrite Hs, H1. auto.
  Qed.

  (** Any number of interruptions: after each segment the model is saved and
      picked up in a fresh process. *)
  Fixpoint interrupted (fresh s : sim V T) (segments : list nat) : sim V T :=
    match segments with
    | [] => s
    | n :: tl => interrupted fresh (lod (sav (niter n stp s)) fresh) tl
    end.

  Lemma interrupted_agree fresh : forall segs s s0,
    prev s <> [] -> length (prev fresh) = length (prev s) ->
    (multilevel = false -> startup fresh = startup s) ->
    agree s s0 ->
    agree (interrupted fresh s segs) (niter (list_sum segs) stp s0).
  Proof.
    induction segs as [|n segs IH]; intros s s0 Hne Hl Hc Ha; [exact Ha|].
    cbn [interrupted]. change (list_sum (n :: segs)) with (n + list_sum segs). rewrite niter_add.
    destruct (length_niter n s Hne) as [Hln Hnen].
    assert (A : agree (lod (sav (niter n stp s)) fresh) (niter n stp s)).
    { apply load_save_agree; [congruence|exact Hnen|].
      intros Hm; rewrite (Hc Hm); symmetry; apply startup_single; exact Hm. }
    apply IH.
    - destruct A as (_ & _ & A). intros E; rewrite E in A. destruct (prev (niter n stp s)); [congruence|discriminate].
    - destruct A as (_ & _ & A). congruence.
    - intros Hm. unfold load, save; cbn. rewrite Hm; reflexivity.
    - eapply agree_trans; [exact A|]. apply agree_niter; exact Ha.
  Qed.

  Lemma interrupted_exact fresh s0 segs M :
    prev s0 <> [] -> length (prev fresh) = length (prev s0) -> startup fresh = startup s0 ->
    obs (niter M stp (interrupted fresh s0 segs)) = obs (niter (list_sum segs + M) stp s0).
  Proof.
    intros Hne Hl Hs. rewrite niter_add. apply agree_niter.
    apply interrupted_agree; auto. split; [|split]; reflexivity.
  Qed.
End RestartFacts.

(* ---------------- schedule ---------------- *)
Lemma dumps_in f : forall js k c e j,
  c = mk_counters k k k k ->
  In (e, j) (dumps f c js) <->
  exists i, nth_error js i = Some j /\
    (k + i) mod (match e with EDiag => f_diag f | EPoint => f_pd f | EChk => f_chk f | EField => f_dump f end) = 0.
Proof.
  induction js as [|j0 js IH]; intros k c e j Hc.
  - simpl. split; [tauto|]. intros (i & Hi & _). destruct i; discriminate.
  - cbn [dumps]. unfold dump_events. subst c; cbn [n_diag n_pd n_chk n_dump].
    rewrite in_app_iff. rewrite (IH (S k) _ e j eq_refl).
    split.
    + intros [H|(i & Hi & Hm)].
      * exists 0. rewrite !in_app_iff in H. rewrite Nat.add_0_r. cbn [nth_error].
        destruct H as [H|[H|[H|H]]];
          match type of H with In _ (if Nat.eqb ?a 0 then _ else _) => destruct (Nat.eqb_spec a 0) as [E|E] end;
          simpl in H; try tauto; destruct H as [H|[]]; injection H as <- <-; auto.
      * exists (S i). cbn [nth_error]. split; [exact Hi|]. replace (k + S i) with (S k + i) by lia. exact Hm.
    + intros (i & Hi & Hm). destruct i as [|i]; cbn [nth_error] in Hi.
      * left. injection Hi as ->. rewrite Nat.add_0_r in Hm. apply Nat.eqb_eq in Hm.
        rewrite !in_app_iff. destruct e; rewrite Hm; simpl; tauto.
      * right. exists i. split; [exact Hi|]. replace (S k + i) with (k + S i) by lia. exact Hm.
Qed.

Definition freq_of (f : freqs) (e : out_event) : nat :=
  match e with EDiag => f_diag f | EPoint => f_pd f | EChk => f_chk f | EField => f_dump f end.

Lemma nth_error_seq len : forall start i j, nth_error (seq start len) i = Some j <-> i < len /\ j = start + i.
Proof.
  induction len as [|n IH]; intros start i j; simpl.
  - split; [destruct i; discriminate|lia].
  - destruct i as [|i]; simpl.
    + split; [intros H; injection H as <-; lia|intros [_ ->]; f_equal; lia].
    + rewrite IH. split; intros [H1 H2]; split; lia.
Qed.

Lemma fresh_run_in f n e j :
  In (e, j) (fresh_run f n) <-> j <= n /\ j mod freq_of f e = 0.
Proof.
  unfold fresh_run. rewrite (dumps_in f _ 0 _ e j eq_refl). unfold freq_of. split.
  - intros (i & Hi & Hm). apply nth_error_seq in Hi as [H1 ->]. split; [lia|]. destruct e; exact Hm.
  - intros [H1 H2]. exists j. rewrite nth_error_seq. split; [lia|]. destruct e; exact H2.
Qed.

Lemma picked_up_run_in f p n e j : p <= n ->
  In (e, j) (picked_up_run f p n) <-> p < j <= n /\ (j - p) mod freq_of f e = 0.
Proof.
  intros Hp. unfold picked_up_run. rewrite (dumps_in f _ 1 _ e j eq_refl). unfold freq_of. split.
  - intros (i & Hi & Hm). apply nth_error_seq in Hi as [H1 ->]. split; [lia|].
    replace (S p + i - p) with (1 + i) by lia. exact Hm.
  - intros [H1 H2]. exists (j - p - 1). rewrite nth_error_seq. split; [lia|].
    replace (1 + (j - p - 1)) with (j - p) by lia. exact H2.
Qed.

Lemma shift_mod_iff f p :
  0 < f ->
  ((forall i, 0 < i -> (i mod f = 0 <-> (p + i) mod f = 0)) <-> p mod f = 0).
Proof.
  intros Hf. split.
  - intros H. specialize (H f Hf). rewrite Nat.mod_same in H by lia.
    assert (E : (p + f) mod f = 0) by (apply H; reflexivity).
    replace (p + f) with (p + 1 * f) in E by lia. rewrite Nat.mod_add in E by lia. exact E.
  - intros H i Hi. apply Nat.mod_divides in H as (c & ->); [|lia].
    rewrite Nat.add_comm, (Nat.mul_comm f c), Nat.mod_add by lia. tauto.
Qed.

(** The interrupted schedule equals the uninterrupted one for event kind e iff
    the frequency divides the pick-up step. *)
Lemma schedule_aligned_iff f e p :
  0 < freq_of f e ->
  ((forall n j, p <= n -> p < j ->
     (In (e, j) (picked_up_run f p n) <-> In (e, j) (fresh_run f n))) <-> p mod freq_of f e = 0).
Proof.
  intros Hf. rewrite <- (shift_mod_iff (freq_of f e) p Hf). split.
  - intros H i Hi. specialize (H (p + i) (p + i) ltac:(lia) ltac:(lia)).
    rewrite picked_up_run_in, fresh_run_in in H by lia.
    replace (p + i - p) with i in H by lia. intuition lia.
  - intros H n j Hn Hj. rewrite picked_up_run_in, fresh_run_in by exact Hn.
    specialize (H (j - p) ltac:(lia)). replace (p + (j - p)) with j in H by lia. intuition lia.
Qed.

(* ---------------- files ---------------- *)
Lemma exec_app d a b : exec d (a ++ b) = exec (exec d a) b.
Proof. unfold exec; apply fold_left_app. Qed.

Definition points_of (evs : list (out_event * nat)) : list nat :=
  map snd (filter (fun e => match fst e with EPoint => true | _ => false end) evs).
Definition fields_of (evs : list (out_event * nat)) : list nat :=
  map snd (filter (fun e => match fst e with EField => true | _ => false end) evs).
Definition diags_of (evs : list (out_event * nat)) : list nat :=
  map snd (filter (fun e => match fst e with EDiag => true | _ => false end) evs).

Lemma write_at_app a j b : write_at (length a) j (a ++ b) = a ++ j :: tl b.
Proof. induction a as [|h a IH]; simpl; [destruct b; reflexivity|rewrite IH; reflexivity]. Qed.

Lemma skipn_tl {A} n (l : list A) : skipn n (tl l) = skipn (S n) l.
Proof. destruct l; simpl; [destruct n; reflexivity|reflexivity]. Qed.

(** Effect of a complete sequence of writes on each file, for arbitrary starting
    record indices within the files. *)
Lemma exec_micros : forall evs d a b fa fb,
  d_point d = a ++ b -> d_field d = fa ++ fb ->
  let d' := exec d (micros (length a) (length fa) evs) in
  d_diag d' = d_diag d ++ diags_of evs /\
  d_point d' = a ++ points_of evs ++ skipn (length (points_of evs)) b /\
  d_field d' = fa ++ fields_of evs ++ skipn (length (fields_of evs)) fb.
Proof.
  induction evs as [|[e j] evs IH]; intros d a b fa fb Hp Hf.
  - simpl. rewrite app_nil_r; auto.
  - destruct e; cbn [micros].
    + change (exec d (MDiag j :: ?x)) with (exec (do_micro d (MDiag j)) x).
      destruct (IH (do_micro d (MDiag j)) a b fa fb Hp Hf) as (H1 & H2 & H3).
      cbv zeta in *. rewrite H2, H3. split; [|split; reflexivity].
      rewrite H1; cbn. rewrite <- app_assoc; reflexivity.
    + change (exec d (MPoint (length a) j :: ?x)) with (exec (do_micro d (MPoint (length a) j)) x).
      replace (S (length a)) with (length (a ++ [j])) by (rewrite app_length; simpl; lia).
      destruct (IH (do_micro d (MPoint (length a) j)) (a ++ [j]) (tl b) fa fb) as (H1 & H2 & H3).
      { cbn. rewrite Hp, write_at_app, <- app_assoc; reflexivity. }
      { exact Hf. }
      cbv zeta in *. rewrite H1, H2, H3. cbn. rewrite <- app_assoc, skipn_tl; auto.
    + change (exec d (MTrunc :: MComplete j :: ?x)) with (exec (do_micro (do_micro d MTrunc) (MComplete j)) x).
      destruct (IH (do_micro (do_micro d MTrunc) (MComplete j)) a b fa fb Hp Hf) as (H1 & H2 & H3).
      cbv zeta in *. rewrite H1, H2, H3. auto.
    + change (exec d (MField (length fa) j :: ?x)) with (exec (do_micro d (MField (length fa) j)) x).
      replace (S (length fa)) with (length (fa ++ [j])) by (rewrite app_length; simpl; lia).
      destruct (IH (do_micro d (MField (length fa) j)) a b (fa ++ [j]) (tl fb)) as (H1 & H2 & H3).
      { exact Hp. }
      { cbn. rewrite Hf, write_at_app, <- app_assoc; reflexivity. }
      cbv zeta in *. rewrite H1, H2, H3. cbn. rewrite <- app_assoc, skipn_tl; auto.
Qed.

(** Resuming without a crash: diagnostics and field output are appended, point
    data overwrites from the beginning. *)
Lemma resume_files f d p n :
  d_chk d = Complete p ->
  let evs := picked_up_run f p n in
  exists d', resume_killed f d n (length (micros 0 (length (d_field d)) evs)) = Some d' /\
    d_diag d' = d_diag d ++ diags_of evs /\
    d_field d' = d_field d ++ fields_of evs /\
    d_point d' = points_of evs ++ skipn (length (points_of evs)) (d_point d).
Proof.
  intros Hc evs. unfold resume_killed. rewrite Hc. eexists; split; [reflexivity|].
  fold evs. rewrite firstn_all.
  destruct (exec_micros evs d [] (d_point d) (d_field d) [] eq_refl (eq_sym (app_nil_r _))) as (H1 & H2 & H3).
  cbn [length] in *. cbv zeta in *. rewrite H1, H2, H3.
  split; [reflexivity|]. split; [|reflexivity].
  rewrite skipn_nil, app_nil_r; reflexivity.
Qed.

(* strictly increasing *)
Fixpoint increasing (l : list nat) : Prop :=
  match l with
  | [] => True
  | x :: tl => Forall (fun y => x < y) tl /\ increasing tl
  end.

Lemma increasing_app a b :
  increasing a -> increasing b -> (forall x y, In x a -> In y b -> x < y) -> increasing (a ++ b).
Proof.
  induction a as [|x a IH]; simpl; intros Ha Hb H; [exact Hb|].
  destruct Ha as [H1 H2]. split.
  - rewrite Forall_app; split; [exact H1|]. apply Forall_forall; intros y Hy; apply H; auto.
  - apply IH; auto.
Qed.

Lemma dumps_increasing f e : forall js k c, c = mk_counters k k k k -> increasing js ->
  increasing (map snd (filter (fun x => match e, fst x with EDiag, EDiag | EPoint, EPoint | EChk, EChk | EField, EField => true | _, _ => false end) (dumps f c js))).
Proof.
  induction js as [|j js IH]; intros k c Hc Hi; simpl; [exact I|].
  destruct Hi as [H1 H2]. unfold dump_events.
  rewrite filter_app, map_app. subst c.
  apply increasing_app.
  - cbn [n_diag n_pd n_chk n_dump].
    destruct (Nat.eqb _ 0), (Nat.eqb _ 0), (Nat.eqb _ 0), (Nat.eqb _ 0); destruct e; simpl; auto.
  - apply (IH (S k)); [reflexivity|exact H2].
  - intros x y Hx Hy.
    assert (x = j).
    { cbn [n_diag n_pd n_chk n_dump] in Hx. apply in_map_iff in Hx as (q & <- & Hq).
      apply filter_In in Hq as [Hq _]. rewrite !in_app_iff in Hq.
      destruct Hq as [H|[H|[H|H]]];
        match type of H with In _ (if ?b then _ else _) => destruct b end; simpl in H;
        try tauto; destruct H as [<-|[]]; reflexivity. }
    subst x. apply in_map_iff in Hy as ([e' y'] & <- & Hq). apply filter_In in Hq as [Hq _].
    cbn [n_diag n_pd n_chk n_dump] in Hq.
    apply (dumps_in f js (S k)) in Hq; [|reflexivity]. destruct Hq as (i & Hi & _).
    apply nth_error_In in Hi. rewrite Forall_forall in H1. apply H1; exact Hi.
Qed.

Lemma increasing_seq n : forall s, increasing (seq s n).
Proof.
  induction n as [|n IH]; intros s; simpl; [exact I|]. split; [|apply IH].
  apply Forall_forall. intros y Hy. apply in_seq in Hy; lia.
Qed.

Lemma picked_up_diags_increasing f p n : increasing (diags_of (picked_up_run f p n)).
Proof.
  exact (dumps_increasing f EDiag (seq (S p) (n - p)) 1 _ eq_refl (increasing_seq _ _)).
Qed.
Lemma fresh_diags_increasing f n : increasing (diags_of (fresh_run f n)).
Proof.
  exact (dumps_increasing f EDiag (seq 0 (S n)) 0 _ eq_refl (increasing_seq _ _)).
Qed.
Lemma picked_up_fields_increasing f p n : increasing (fields_of (picked_up_run f p n)).
Proof.
  exact (dumps_increasing f EField (seq (S p) (n - p)) 1 _ eq_refl (increasing_seq _ _)).
Qed.

Lemma diags_of_in evs j : In j (diags_of evs) <-> In (EDiag, j) evs.
Proof.
  unfold diags_of; rewrite in_map_iff; split.
  - intros ([e y] & <- & H). apply filter_In in H as [H He]. destruct e; try discriminate; exact H.
  - intros H. exists (EDiag, j); split; [reflexivity|]. apply filter_In; auto.
Qed.
Lemma fields_of_in evs j : In j (fields_of evs) <-> In (EField, j) evs.
Proof.
  unfold fields_of; rewrite in_map_iff; split.
  - intros ([e y] & <- & H). apply filter_In in H as [H He]. destruct e; try discriminate; exact H.
  - intros H. exists (EField, j); split; [reflexivity|]. apply filter_In; auto.
Qed.

(** If nothing later than the checkpoint has been written, the time axes stay
    strictly increasing after a resumed run. *)
Lemma resume_increasing f d p n d' :
  d_chk d = Complete p -> p <= n ->
  increasing (d_diag d) -> increasing (d_field d) ->
  (forall j, In j (d_diag d) -> j <= p) -> (forall j, In j (d_field d) -> j <= p) ->
  resume_killed f d n (length (micros 0 (length (d_field d)) (picked_up_run f p n))) = Some d' ->
  increasing (d_diag d') /\ increasing (d_field d').
Proof.
  intros Hc Hpn I1 I2 H1 H2 Hr.
  destruct (resume_files f d p n Hc) as (d2 & Hd2 & Ed & Ef & _).
  rewrite Hd2 in Hr; injection Hr as <-. rewrite Ed, Ef. split.
  - apply increasing_app; [exact I1|apply picked_up_diags_increasing|].
    intros x y Hx Hy. apply diags_of_in, picked_up_run_in in Hy; [|exact Hpn].
    specialize (H1 x Hx); lia.
  - apply increasing_app; [exact I2|apply picked_up_fields_increasing|].
    intros x y Hx Hy. apply fields_of_in, picked_up_run_in in Hy; [|exact Hpn].
    specialize (H2 x Hx); lia.
Qed.

(* ---------------- results directory guard ---------------- *)
Lemma fold_max_zero l : (forall x, In x l -> x = 0) -> fold_right Nat.max 0 l = 0.
Proof. induction l as [|a l IH]; intros H; simpl; [reflexivity|]. rewrite (H a), IH; simpl; auto. intros x Hx; apply H; right; exact Hx. Qed.

Lemma guard_code o ex mk size : 0 < size ->
  allreduce_max (map (rank_code o ex mk) (seq 0 size)) = rank_code o ex mk 0.
Proof.
  intros Hs. destruct size as [|n]; [lia|]. cbn [seq map allreduce_max fold_right].
  rewrite fold_max_zero; [lia|].
  intros x Hx. apply in_map_iff in Hx as (r & <- & Hr). apply in_seq in Hr.
  unfold rank_code. destruct r; [lia|reflexivity].
Qed.

Lemma guard_uniform o ex mk size : 0 < size ->
  guard o ex mk size =
  map (fun _ =>
    if needs_dir o then
      if ex then
        if negb (g_running_tests o || g_pick_up o) && negb (g_overwrite o) then Err GustoIOError else Ok tt
      else if mk then Ok tt else Err OSError
    else Ok tt) (seq 0 size).
Proof.
  intros Hs. unfold guard. destruct (needs_dir o); [|reflexivity].
  cbv zeta. rewrite guard_code by exact Hs. apply map_ext; intros r.
  unfold rank_code; cbn [Nat.eqb].
  destruct ex, mk, (g_running_tests o || g_pick_up o), (g_overwrite o); reflexivity.
Qed.

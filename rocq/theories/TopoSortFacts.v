From Verif Require Import Base TopoSort.
From Coq Require Import Permutation Relations.
Local Open Scope string_scope.

Lemma mem_In x l : mem x l = true <-> In x l.
Proof.
  unfold mem; rewrite existsb_exists; split.
  - intros (y & Hy & E); apply String.eqb_eq in E; subst; exact Hy.
  - intros H; exists x; split; [exact H|apply String.eqb_refl].
Qed.

Lemma mem_false x l : mem x l = false <-> ~ In x l.
Proof. rewrite <- mem_In. destruct (mem x l); split; congruence || tauto. Qed.

Lemma fupd_same {A} (m : string -> A) k v : fupd m k v k = v.
Proof. unfold fupd; rewrite String.eqb_refl; reflexivity. Qed.
Lemma fupd_other {A} (m : string -> A) k v j : j <> k -> fupd m k v j = m j.
Proof. intros H; unfold fupd. destruct (String.eqb j k) eqn:E; [apply String.eqb_eq in E; congruence|reflexivity]. Qed.

(** Removing the elements of [s] from [l]. *)
Definition minus (l s : list string) : list string := filter (fun d => negb (mem d s)) l.

Lemma minus_In d l s : In d (minus l s) <-> In d l /\ ~ In d s.
Proof. unfold minus; rewrite filter_In, negb_true_iff, mem_false; tauto. Qed.

Lemma py_remove_filter x l : NoDup l -> In x l ->
  py_remove x l = Some (filter (fun d => negb (String.eqb x d)) l).
Proof.
  induction l as [|h tl IH]; simpl; [tauto|]. intros Hn Hi. inversion Hn as [|? ? Hh Htl]; subst.
  destruct (String.eqb x h) eqn:E; simpl.
  - apply String.eqb_eq in E; subst. f_equal. symmetry.
    rewrite (proj2 (forallb_filter_id _ tl)) || idtac.
    clear -Hh. induction tl as [|a tl IH]; simpl; [reflexivity|].
    destruct (String.eqb h a) eqn:E; [apply String.eqb_eq in E; subst; simpl in Hh; tauto|].
    simpl; f_equal; apply IH; simpl in Hh; tauto.
  - destruct Hi as [->|Hi]; [rewrite String.eqb_refl in E; discriminate|].
    rewrite IH by assumption; reflexivity.
Qed.

Lemma py_remove_head x l : py_remove x (x :: l) = Some l.
Proof. simpl; rewrite String.eqb_refl; reflexivity. Qed.

Lemma minus_snoc l s n : minus l (s ++ [n])%list = filter (fun d => negb (String.eqb n d)) (minus l s).
Proof.
  unfold minus. induction l as [|h tl IH]; simpl; [reflexivity|].
  unfold mem at 1. rewrite existsb_app. simpl. rewrite orb_false_r.
  fold (mem h s). rewrite negb_orb.
  destruct (mem h s); simpl; [exact IH|].
  rewrite (String.eqb_sym h n). destruct (String.eqb n h); simpl; [exact IH|f_equal; exact IH].
Qed.

Lemma NoDup_minus l s : NoDup l -> NoDup (minus l s).
Proof. intros; apply NoDup_filter; assumption. Qed.

Section Facts.
  Variable F : Type.
  Variable name : F -> string.
  Variable fd : list (F * list string).
  Notation ks := (keys name fd).
  Hypothesis names_distinct : NoDup ks.
  Hypothesis deps_distinct : Forall (fun p => NoDup (snd p)) fd.
  Hypothesis deps_known : Forall (fun p => incl (snd p) ks) fd.

  (** deps of a name *)
  Definition deps_of (n : string) : list string := init_in F name fd n.

  (** users of a name, in list order *)
  Definition users (n : string) : list string :=
    map (fun p => name (fst p)) (filter (fun p => mem n (snd p)) fd).

  Lemma init_in_gen l : forall m n,
    fold_left (fun m p => fupd m (name (fst p)) (snd p)) l m n =
    match fold_left (fun acc (p : F * list string) => if String.eqb n (name (fst p)) then Some (snd p) else acc) l None with
    | Some d => d | None => m n end.
  Proof.
    induction l as [|p l IH] using rev_ind; intros m n; simpl; [reflexivity|].
    rewrite !fold_left_app; simpl. unfold fupd at 1.
    destruct (String.eqb n (name (fst p))); [reflexivity|apply IH].
  Qed.

  Lemma fold_last_none l n : ~ In n (map (fun p : F * list string => name (fst p)) l) ->
    forall {B} (g : F * list string -> B) a,
    fold_left (fun acc p => if String.eqb n (name (fst p)) then Some (g p) else acc) l a = a.
  Proof.
    induction l as [|p l IH]; intros Hn B g a; simpl; [reflexivity|].
    simpl in Hn. destruct (String.eqb n (name (fst p))) eqn:E.
    - apply String.eqb_eq in E; subst; tauto.
    - apply IH; tauto.
  Qed.

  Lemma fold_last_some l n p {B} (g : F * list string -> B) a :
    NoDup (map (fun p : F * list string => name (fst p)) l) -> In p l -> n = name (fst p) ->
    fold_left (fun acc p => if String.eqb n (name (fst p)) then Some (g p) else acc) l a = Some (g p).
  Proof.
    revert a; induction l as [|q l IH]; intros a Hn Hp En; simpl in *; [tauto|].
    inversion Hn as [|? ? Hq Hl]; subst. destruct Hp as [->|Hp].
    - rewrite String.eqb_refl. apply fold_last_none; exact Hq.
    - apply IH; auto.
  Qed.

  Lemma deps_of_in p : In p fd -> deps_of (name (fst p)) = snd p.
  Proof.
    intros Hp. unfold deps_of, init_in. rewrite init_in_gen.
    rewrite (fold_last_some fd (name (fst p)) p snd None names_distinct Hp eq_refl). reflexivity.
  Qed.

  Lemma deps_of_notin n : ~ In n ks -> deps_of n = [].
  Proof.
    intros H. unfold deps_of, init_in. rewrite init_in_gen.
    rewrite (fold_last_none fd n H snd None); reflexivity.
  Qed.

  Lemma in_keys n : In n ks -> exists p, In p fd /\ name (fst p) = n.
  Proof. unfold keys; rewrite in_map_iff; intros (p & E & Hp); eauto. Qed.

  Lemma deps_of_NoDup n : NoDup (deps_of n).
  Proof.
    destruct (in_dec string_dec n ks) as [Hi|Hi].
    - destruct (in_keys n Hi) as (p & Hp & <-). rewrite deps_of_in by exact Hp.
      rewrite Forall_forall in deps_distinct; apply deps_distinct; exact Hp.
    - rewrite deps_of_notin by exact Hi; constructor.
  Qed.

  Lemma deps_of_incl n : incl (deps_of n) ks.
  Proof.
    destruct (in_dec string_dec n ks) as [Hi|Hi].
    - destruct (in_keys n Hi) as (p & Hp & <-). rewrite deps_of_in by exact Hp.
      rewrite Forall_forall in deps_known; apply deps_known; exact Hp.
    - rewrite deps_of_notin by exact Hi; intros z [].
  Qed.

  Lemma users_In m n : In m (users n) <-> In m ks /\ In n (deps_of m).
  Proof.
    unfold users; rewrite in_map_iff; split.
    - intros (p & <- & Hp). apply filter_In in Hp as [Hp Hm].
      apply mem_In in Hm. split; [unfold keys; apply in_map_iff; eauto|].
      rewrite deps_of_in by exact Hp; exact Hm.
    - intros [Hm Hn]. destruct (in_keys m Hm) as (p & Hp & <-).
      exists p; split; [reflexivity|]. apply filter_In; split; [exact Hp|].
      apply mem_In. rewrite deps_of_in in Hn by exact Hp; exact Hn.
  Qed.

  Lemma users_NoDup n : NoDup (users n).
  Proof.
    unfold users. revert names_distinct. unfold keys. clear.
    induction fd as [|p l IH]; simpl; intros H; [constructor|].
    inversion H as [|? ? H1 H2]; subst.
    destruct (mem n (snd p)); simpl; [|apply IH; exact H2].
    constructor; [|apply IH; exact H2].
    intros Hin; apply H1. apply in_map_iff in Hin as (q & E & Hq).
    apply filter_In in Hq as [Hq _]. apply in_map_iff; eauto.
  Qed.

  (* ---- the building phase ---- *)
  Lemma add_outs_spec f deps : forall out,
    NoDup deps -> incl deps ks ->
    exists out', add_outs ks f deps out = Some out' /\
      forall n, out' n = (out n ++ if mem n deps then [f] else [])%list.
  Proof.
    induction deps as [|d tl IH]; intros out Hn Hi; simpl.
    - exists out; split; [reflexivity|intros; rewrite app_nil_r; reflexivity].
    - inversion Hn as [|? ? Hd Htl]; subst.
      rewrite (proj2 (mem_In d ks)) by (apply Hi; left; reflexivity).
      destruct (IH (fupd out d (out d ++ [f])%list) Htl) as (out' & Ho & Hs).
      { intros z Hz; apply Hi; right; exact Hz. }
      exists out'; split; [exact Ho|]. intros n. rewrite Hs. unfold fupd.
      destruct (String.eqb n d) eqn:E; simpl.
      + apply String.eqb_eq in E; subst.
        rewrite (proj2 (mem_false d tl) Hd), app_nil_r; reflexivity.
      + reflexivity.
  Qed.

  Lemma build_spec : forall l roots out,
    Forall (fun p => NoDup (snd p)) l -> Forall (fun p : F * list string => incl (snd p) ks) l ->
    exists out', build F name ks l roots out =
        Some ((roots ++ map (fun p => name (fst p)) (filter (fun p => negb (nonempty (snd p))) l))%list, out') /\
      forall n, out' n = (out n ++ map (fun p => name (fst p)) (filter (fun p => mem n (snd p)) l))%list.
  Proof.
    induction l as [|[f deps] l IH]; intros roots out H1 H2; simpl.
    - exists out; rewrite app_nil_r; split; [reflexivity|]. intros; rewrite app_nil_r; reflexivity.
    - inversion H1 as [|? ? Hd H1']; subst; inversion H2 as [|? ? Hi H2']; subst.
      destruct (add_outs_spec (name f) deps out Hd Hi) as (o1 & Ho1 & Hs1). rewrite Ho1.
      destruct (IH (match deps with [] => (roots ++ [name f])%list | _ => roots end) o1 H1' H2') as (o2 & Ho2 & Hs2).
      exists o2. rewrite Ho2. split.
      + destruct deps; simpl; [rewrite <- app_assoc; reflexivity|reflexivity].
      + intros n. rewrite Hs2, Hs1. simpl. destruct (mem n deps); simpl; rewrite <- app_assoc; reflexivity.
  Qed.

  (* ---- the main loop ---- *)
  Definition Inv (s : st) : Prop :=
    NoDup (s_sched s ++ s_roots s) /\
    incl (s_sched s ++ s_roots s) ks /\
    (forall m, s_in s m = minus (deps_of m) (s_sched s)) /\
    (forall n, In n ks -> ~ In n (s_sched s) -> s_out s n = users n) /\
    (forall m, In m ks -> (In m (s_sched s ++ s_roots s) <-> s_in s m = [])) /\
    (forall a m b, s_sched s = (a ++ m :: b)%list -> incl (deps_of m) a).

  Lemma relax_spec n sched : forall ms s,
    NoDup ms -> (forall m, In m ms -> NoDup (s_in s m) /\ In n (s_in s m)) ->
    s_out s n = ms ->
    s_sched s = sched ->
    exists s', relax n ms s = Some s' /\
      s_sched s' = sched /\
      (forall m, s_in s' m = if mem m ms then filter (fun d => negb (String.eqb n d)) (s_in s m) else s_in s m) /\
      (forall k, k <> n -> s_out s' k = s_out s k) /\
      s_roots s' = (s_roots s ++ filter (fun m => negb (nonempty (filter (fun d => negb (String.eqb n d)) (s_in s m)))) ms)%list.
  Proof.
    induction ms as [|m ms IH]; intros s Hnd Hin Hout Hsch; simpl.
    - exists s. repeat split; auto. rewrite app_nil_r; reflexivity.
    - inversion Hnd as [|? ? Hm Hms]; subst.
      destruct (Hin m (or_introl eq_refl)) as [Hndm Hnm].
      rewrite (py_remove_filter n (s_in s m) Hndm Hnm).
      rewrite Hout, py_remove_head.
      set (im := filter (fun d => negb (String.eqb n d)) (s_in s m)).
      set (s1 := mk_st (s_sched s) (match im with [] => (s_roots s ++ [m])%list | _ => s_roots s end)
                       (fupd (s_in s) m im) (fupd (s_out s) n ms)).
      destruct (IH s1) as (s' & Hr & Hs1 & Hs2 & Hs3 & Hs4).
      + exact Hms.
      + intros q Hq. unfold s1; cbn [s_in]. rewrite fupd_other; [apply Hin; right; exact Hq|].
        intros ->; contradiction.
      + unfold s1; cbn [s_out]; apply fupd_same.
      + reflexivity.
      + exists s'; split; [exact Hr|]. split; [exact Hs1|]. split; [|split].
        * intros q. rewrite Hs2. unfold s1; cbn [s_in].
          destruct (String.eqb q m) eqn:E; simpl.
          -- apply String.eqb_eq in E; subst. rewrite (proj2 (mem_false m ms) Hm), fupd_same; reflexivity.
          -- rewrite fupd_other; [reflexivity|]. intros ->; rewrite String.eqb_refl in E; discriminate.
        * intros k Hk. rewrite Hs3 by exact Hk. unfold s1; cbn [s_out]; apply fupd_other; exact Hk.
        * rewrite Hs4. unfold s1 at 1; cbn [s_roots].
          assert (E : filter (fun m0 => negb (nonempty (filter (fun d => negb (String.eqb n d)) (s_in s1 m0)))) ms
                    = filter (fun m0 => negb (nonempty (filter (fun d => negb (String.eqb n d)) (s_in s m0)))) ms).
          { apply filter_ext_in. intros q Hq. unfold s1; cbn [s_in].
            rewrite fupd_other; [reflexivity|intros ->; contradiction]. }
          rewrite E. fold im. destruct im; simpl; [rewrite <- app_assoc; reflexivity|reflexivity].
  Qed.

  Lemma nonempty_false l : nonempty l = false <-> l = [].
  Proof. destruct l; simpl; split; congruence. Qed.

  Lemma py_pop_spec l : py_pop l = match l with [] => None | _ => Some (last l "", removelast l) end.
  Proof.
    destruct l as [|a l] using rev_ind; [reflexivity|].
    unfold py_pop. rewrite rev_app_distr; simpl. rewrite rev_involutive.
    destruct (l ++ [a])%list eqn:E; [destruct l; discriminate|].
    rewrite <- E, last_last, removelast_last; reflexivity.
  Qed.

  Lemma step_inv s n roots :
    Inv s -> s_roots s = (roots ++ [n])%list ->
    exists s', relax n (s_out s n) (mk_st (s_sched s ++ [n])%list roots (s_in s) (s_out s)) = Some s' /\
      Inv s' /\ s_sched s' = (s_sched s ++ [n])%list.
  Proof.
    intros (I1 & I2 & I3 & I4 & I5 & I6) Hr.
    assert (Hnk : In n ks). { apply I2; apply in_or_app; right; rewrite Hr; apply in_or_app; right; left; reflexivity. }
    assert (Hns : ~ In n (s_sched s)).
    { rewrite Hr in I1. rewrite app_assoc in I1. apply NoDup_remove_2 in I1.
      rewrite app_nil_r in I1. intros H; apply I1, in_or_app; left; exact H. }
    assert (Hn0 : s_in s n = []).
    { apply I5; [exact Hnk|]. apply in_or_app; right; rewrite Hr; apply in_or_app; right; left; reflexivity. }
    rewrite (I4 n Hnk Hns).
    destruct (relax_spec n (s_sched s ++ [n])%list (users n)
                (mk_st (s_sched s ++ [n])%list roots (s_in s) (s_out s)))
      as (s' & Hx & Hsc & Hin & Hout & Hroots); cbn [s_in s_out s_sched s_roots] in *.
    - apply users_NoDup.
    - intros m Hm. rewrite I3. split; [apply NoDup_minus, deps_of_NoDup|].
      apply minus_In. apply users_In in Hm as [_ Hm]. split; assumption.
    - apply I4; assumption.
    - reflexivity.
    - exists s'; split; [exact Hx|]. split; [|exact Hsc].
      assert (Hin' : forall m, s_in s' m = minus (deps_of m) (s_sched s ++ [n])%list).
      { intros m. rewrite Hin, minus_snoc, <- I3.
        destruct (mem m (users n)) eqn:E; [reflexivity|].
        symmetry. apply mem_false in E.
        assert (Hnn : ~ In n (s_in s m)).
        { rewrite I3, minus_In. intros [H1 _]. apply E, users_In.
          split; [|exact H1]. destruct (in_dec string_dec m ks) as [Hk|Hk]; [exact Hk|].
          rewrite deps_of_notin in H1 by exact Hk; contradiction. }
        clear -Hnn. induction (s_in s m) as [|h l IH]; simpl; [reflexivity|].
        simpl in Hnn. destruct (String.eqb n h) eqn:E; [apply String.eqb_eq in E; subst; tauto|].
        simpl; f_equal; apply IH; tauto. }
      assert (Hr' : forall m, In m (s_roots s') <-> In m roots \/ (In m (users n) /\ s_in s' m = [])).
      { intros m. rewrite Hroots, in_app_iff, filter_In, negb_true_iff, nonempty_false, Hin.
        split; (intros [H|H]; [left; exact H|right]).
        - destruct H as [H1 H2]. rewrite (proj2 (mem_In m (users n)) H1). auto.
        - destruct H as [H1 H2]. rewrite (proj2 (mem_In m (users n)) H1) in H2. auto. }
      assert (Hold : forall m, In m (users n) -> ~ In m (s_sched s ++ s_roots s)).
      { intros m Hm Hc. apply users_In in Hm as [Hk Hd].
        apply I5 in Hc; [|exact Hk]. assert (In n (s_in s m)) by (rewrite I3; apply minus_In; auto).
        rewrite Hc in H; contradiction. }
      unfold Inv; rewrite Hsc. split; [|split; [|split; [|split; [|split]]]].
      + rewrite Hroots.
        assert (P : Permutation ((s_sched s ++ [n]) ++ roots) (s_sched s ++ s_roots s)).
        { rewrite Hr, <- app_assoc. apply Permutation_app_head. apply Permutation_app_comm. }
        rewrite app_assoc.
        assert (N1 : NoDup ((s_sched s ++ [n]) ++ roots)) by (eapply Permutation_NoDup; [symmetry; exact P|exact I1]).
        set (new := filter _ (users n)).
        assert (N2 : NoDup new) by (apply NoDup_filter, users_NoDup).
        assert (Hdis : forall z, In z new -> ~ In z ((s_sched s ++ [n]) ++ roots)%list).
        { intros z Hz Hc. unfold new in Hz; apply filter_In in Hz as [Hz _].
          apply (Hold z Hz). eapply Permutation_in; [exact P|exact Hc]. }
        clear -N1 N2 Hdis. revert N1 Hdis. generalize ((s_sched s ++ [n]) ++ roots)%list as L; intros L N1 Hdis.
        induction L as [|a L IH]; simpl; [exact N2|].
        inversion N1 as [|? ? Ha HL]; subst. constructor.
        * rewrite in_app_iff. intros [H|H]; [contradiction|]. apply (Hdis a H); left; reflexivity.
        * apply IH; [exact HL|]. intros z Hz Hc; apply (Hdis z Hz); right; exact Hc.
      + intros z Hz. rewrite !in_app_iff in Hz. destruct Hz as [[Hz|[->|[]]]|Hz].
        * apply I2, in_or_app; left; exact Hz.
        * exact Hnk.
        * apply Hr' in Hz as [Hz|[Hz _]].
          -- apply I2, in_or_app; right; rewrite Hr; apply in_or_app; left; exact Hz.
          -- apply users_In in Hz; tauto.
      + exact Hin'.
      + intros k Hk Hnk'. assert (Hne : k <> n) by (intros ->; apply Hnk', in_or_app; right; left; reflexivity).
        rewrite Hout by exact Hne. apply I4; [exact Hk|]. intros H; apply Hnk', in_or_app; left; exact H.
      + intros m Hm. rewrite in_app_iff, Hr', Hin'. rewrite minus_snoc, <- I3. split.
        * intros [H|[H|[_ H]]].
          -- apply in_app_iff in H as [H|[<-|[]]].
             ++ assert (E : s_in s m = []) by (apply I5; [exact Hm|apply in_or_app; left; exact H]).
                rewrite E; reflexivity.
             ++ rewrite Hn0; reflexivity.
          -- assert (E : s_in s m = []).
             { apply I5; [exact Hm|apply in_or_app; right; rewrite Hr; apply in_or_app; left; exact H]. }
             rewrite E; reflexivity.
          -- exact H.
        * intros H. destruct (in_dec string_dec m (users n)) as [Hu|Hu].
          -- right; right. split; [exact Hu|exact H].
          -- assert (E : s_in s m = []).
             { specialize (Hin m); rewrite (proj2 (mem_false m (users n)) Hu) in Hin.
               rewrite <- Hin, Hin', minus_snoc, <- I3; exact H. }
             apply I5 in E; [|exact Hm]. rewrite in_app_iff, Hr, in_app_iff in E. simpl in E.
             rewrite in_app_iff; simpl; tauto.
      + intros a m b E. destruct b as [|z b] using rev_ind.
        * apply app_inj_tail in E as [<- <-].
          intros d Hd. rewrite I3 in Hn0.
          destruct (in_dec string_dec d (s_sched s)) as [H|H]; [exact H|].
          exfalso. assert (Hc : In d (minus (deps_of n) (s_sched s))) by (apply minus_In; auto).
          rewrite Hn0 in Hc; contradiction.
        * clear IHb. replace (a ++ m :: b ++ [z])%list with ((a ++ m :: b) ++ [z])%list in E
            by (rewrite <- app_assoc; reflexivity).
          apply app_inj_tail in E as [E _]. apply (I6 a m b E).
  Qed.

  Lemma sort_loop_spec : forall fuel s,
    Inv s -> length ks <= fuel + length (s_sched s) ->
    exists s', sort_loop fuel s = Done s' /\ Inv s' /\ s_roots s' = [].
  Proof.
    induction fuel as [|f IH]; intros s HI Hf; cbn [sort_loop]; rewrite py_pop_spec;
      (destruct (s_roots s) as [|r rs] eqn:Er; [exists s; now auto|]).
    - exfalso. destruct HI as (I1 & I2 & _).
      pose proof (NoDup_incl_length I1 I2) as Hl. rewrite app_length, Er in Hl; simpl in Hl, Hf. lia.
    - assert (Hne : r :: rs <> []) by discriminate.
      assert (Hroots : s_roots s = (removelast (r :: rs) ++ [last (r :: rs) ""])%list)
        by (rewrite Er; apply app_removelast_last; exact Hne).
      destruct (step_inv s _ _ HI Hroots) as (s' & Hx & HI' & Hsc). rewrite Hx.
      apply IH; [exact HI'|]. rewrite Hsc, app_length; simpl; lia.
  Qed.

  Lemma minus_nil l : minus l [] = l.
  Proof. unfold minus; induction l as [|h t IH]; simpl; [reflexivity|f_equal; exact IH]. Qed.

  Lemma init_inv out :
    (forall n, out n = users n) ->
    Inv (mk_st [] (map (fun p => name (fst p)) (filter (fun p => negb (nonempty (snd p))) fd)) (init_in F name fd) out).
  Proof.
    intros Ho. unfold Inv; cbn [s_sched s_roots s_in s_out app].
    split; [|split; [|split; [|split; [|split]]]].
    - clear -names_distinct. revert names_distinct; unfold keys.
      induction fd as [|p l IH]; simpl; intros H; [constructor|].
      inversion H as [|? ? H1 H2]; subst. destruct (nonempty (snd p)); simpl; [apply IH; exact H2|].
      constructor; [|apply IH; exact H2]. intros Hin; apply H1.
      apply in_map_iff in Hin as (q & E & Hq). apply filter_In in Hq as [Hq _]. apply in_map_iff; eauto.
    - intros z Hz. apply in_map_iff in Hz as (p & <- & Hp). apply filter_In in Hp as [Hp _].
      unfold keys; apply in_map_iff; eauto.
    - intros m. rewrite minus_nil; reflexivity.
    - intros n _ _; apply Ho.
    - intros m Hm. destruct (in_keys m Hm) as (p & Hp & <-). fold (deps_of (name (fst p))).
      rewrite deps_of_in by exact Hp. split.
      + intros H. apply in_map_iff in H as (q & E & Hq). apply filter_In in Hq as [Hq Hz].
        apply negb_true_iff, nonempty_false in Hz.
        rewrite <- (deps_of_in p Hp), <- E, (deps_of_in q Hq). exact Hz.
      + intros H. apply in_map_iff. exists p; split; [reflexivity|].
        apply filter_In; split; [exact Hp|]. rewrite H; reflexivity.
    - intros a m b E; destruct a; discriminate.
  Qed.

  (* ---- looking the fields up again ---- *)
  Lemma name2field_in p : In p fd -> name2field F name fd (name (fst p)) = Some (fst p).
  Proof.
    intros Hp. unfold name2field.
    exact (fold_last_some fd (name (fst p)) p fst None names_distinct Hp eq_refl).
  Qed.

  Lemma lookup_all_spec l : incl l ks ->
    exists fs, lookup_all F name fd l = Ok fs /\ map name fs = l /\ incl fs (map fst fd).
  Proof.
    induction l as [|n l IH]; intros Hi; simpl.
    - exists []; repeat split; auto. intros z [].
    - destruct (in_keys n) as (p & Hp & En); [apply Hi; left; reflexivity|].
      rewrite <- En, name2field_in by exact Hp.
      destruct IH as (fs & Hfs & Hm & Hin); [intros z Hz; apply Hi; right; exact Hz|].
      rewrite Hfs. exists (fst p :: fs); repeat split; [simpl; congruence|].
      intros z [<-|Hz]; [apply in_map; exact Hp|apply Hin; exact Hz].
  Qed.

  (** The dependency relation between names. *)
  Definition depends (f d : string) : Prop := In f ks /\ In d (deps_of f).

  (** f comes after all its dependencies in the order l. *)
  Definition respects (l : list F) : Prop :=
    forall a f b, l = (a ++ f :: b)%list -> incl (deps_of (name f)) (map name a).

  Lemma dup_dec (l : list string) : NoDup l \/ exists a x b c, l = (a ++ x :: b ++ x :: c)%list.
  Proof.
    induction l as [|h l IH]; [left; constructor|].
    destruct (in_dec string_dec h l) as [Hi|Hi].
    - right. apply in_split in Hi as (b & c & ->). exists [], h, b, c; reflexivity.
    - destruct IH as [H|(a & x & b & c & ->)]; [left; constructor; assumption|].
      right; exists (h :: a), x, b, c; reflexivity.
  Qed.

  Lemma stuck_cycle (U : list string) :
    U <> [] -> (forall x, In x U -> exists y, In y U /\ depends x y) ->
    exists x, clos_trans string depends x x.
  Proof.
    intros Hne Hs.
    (* build walks of any length *)
    assert (W : forall n, exists w, length w = S n /\ incl w U /\
      (forall a x y b, w = (a ++ x :: y :: b)%list -> depends y x)).
    { induction n as [|n (w & Hl & Hi & Hw)].
      - destruct U as [|u U']; [congruence|]. exists [u]; split; [reflexivity|].
        split; [intros z [<-|[]]; left; reflexivity|].
        intros a x y b E. destruct a as [|? [|? ?]]; discriminate.
      - destruct w as [|h w]; [discriminate|].
        destruct (Hs h) as (y & Hy & Hd); [apply Hi; left; reflexivity|].
        exists (y :: h :: w). split; [simpl in *; lia|]. split.
        + intros z [<-|Hz]; [exact Hy|apply Hi; exact Hz].
        + intros a p q b E. destruct a as [|a0 a].
          * injection E as <- <- _. exact Hd.
          * injection E as _ E. apply (Hw a p q b E). }
    destruct (W (length U)) as (w & Hl & Hi & Hw).
    destruct (dup_dec w) as [Hnd|(a & x & b & c & ->)].
    - pose proof (NoDup_incl_length Hnd Hi). lia.
    - exists x.
      (* from the second x to the first x, backwards along b *)
      assert (G : forall b' a' x1 x2 c', (forall p u v q, (a' ++ x1 :: b' ++ x2 :: c')%list = (p ++ u :: v :: q)%list -> depends v u) ->
                clos_trans string depends x2 x1).
      { induction b' as [|h b' IH]; intros a' x1 x2 c' Hp.
        - apply t_step. apply (Hp a' x1 x2 c'). reflexivity.
        - apply t_trans with h.
          + apply (IH (a' ++ [x1])%list h x2 c'). intros p u v q E. apply (Hp p u v q).
            rewrite <- E, <- app_assoc; reflexivity.
          + apply t_step. apply (Hp a' x1 h (b' ++ x2 :: c')%list). reflexivity. }
      apply (G b a x x c). intros p u v q E. apply (Hw p u v q E).
  Qed.

  (** No order respecting the dependencies exists if there is a cycle. *)
  Lemma respects_acyclic l : respects l -> Permutation l (map fst fd) ->
    ~ exists x, clos_trans string depends x x.
  Proof.
    intros Hr HP (x & Hx).
    assert (Hkn : forall n, In n ks <-> In n (map name l)).
    { intros n. unfold keys. rewrite <- map_map. split; intros H;
      (eapply Permutation_in; [|exact H]); apply Permutation_map; [symmetry|]; exact HP. }
    (* position of a name *)
    set (pos := fix pos (k : string) (l : list F) : nat :=
       match l with [] => 0 | f :: tl => if String.eqb k (name f) then 0 else S (pos k tl) end).
    assert (Hpos : forall a k (b : list F) f, ~ In k (map name a) -> k = name f -> pos k (a ++ f :: b)%list = length a).
    { induction a as [|h a IH]; intros k b f Hn ->; simpl; [rewrite String.eqb_refl; reflexivity|].
      simpl in Hn. destruct (String.eqb (name f) (name h)) eqn:E; [apply String.eqb_eq in E; symmetry in E; tauto|].
      f_equal; apply IH; [tauto|reflexivity]. }
    assert (Hposlt : forall a k (b : list F), In k (map name a) -> pos k (a ++ b)%list < length a).
    { induction a as [|h a IH]; intros k b Hn; simpl in *; [tauto|].
      destruct (String.eqb k (name h)) eqn:E; [lia|].
      destruct Hn as [Hn|Hn]; [subst; rewrite String.eqb_refl in E; discriminate|].
      specialize (IH k b Hn); lia. }
    assert (Hfirst : forall k, In k (map name l) -> exists a f b, l = (a ++ f :: b)%list /\ name f = k /\ ~ In k (map name a)).
    { clear -l. induction l as [|h l IH]; cbn [map In]; [tauto|]. intros k H.
      destruct (string_dec (name h) k) as [E|E].
      - exists [], h, l; simpl; auto.
      - destruct H as [H|H]; [congruence|]. destruct (IH k H) as (a & f & b & -> & Hf & Hn).
        exists (h :: a), f, b; simpl; repeat split; auto. intros [H1|H1]; [congruence|contradiction]. }
    assert (Hlt : forall u v, clos_trans string depends u v -> pos v l < pos u l).
    { induction 1 as [u v [Hu Hd]|u w v _ IH1 _ IH2]; [|lia].
      destruct (Hfirst u (proj1 (Hkn u) Hu)) as (a & f & b & -> & <- & Hna).
      rewrite (Hpos a (name f) b f Hna eq_refl).
      apply Hposlt. apply (Hr a f b eq_refl). exact Hd. }
    specialize (Hlt x x Hx); lia.
  Qed.

  Theorem topo_sort_spec :
    (exists l, topo_sort name fd = Ok l /\ Permutation l (map fst fd) /\ respects l /\
               ~ (exists x, clos_trans string depends x x)) \/
    (topo_sort name fd = Err RuntimeError /\ exists x, clos_trans string depends x x).
  Proof.
    unfold topo_sort.
    destruct (build_spec fd [] (fun _ => []) deps_distinct deps_known) as (out & Hb & Ho).
    rewrite Hb. simpl (_ ++ _)%list.
    destruct (sort_loop_spec (length ks)
       (mk_st [] (map (fun p => name (fst p)) (filter (fun p => negb (nonempty (snd p))) fd)) (init_in F name fd) out))
      as (s & Hs & HI & Hr).
    { apply init_inv. intros n; rewrite Ho; reflexivity. }
    { simpl; lia. }
    rewrite Hs. destruct HI as (I1 & I2 & I3 & I4 & I5 & I6).
    rewrite Hr, app_nil_r in *.
    destruct (existsb (fun k => nonempty (s_in s k)) ks) eqn:E.
    - right; split; [reflexivity|].
      apply (stuck_cycle (filter (fun k => nonempty (s_in s k)) ks)).
      + apply existsb_exists in E as (k & Hk & Hn).
        intros Hc. assert (Hin : In k (filter (fun k => nonempty (s_in s k)) ks)) by (apply filter_In; auto).
        rewrite Hc in Hin; contradiction.
      + intros x Hx. apply filter_In in Hx as [Hx Hn].
        destruct (s_in s x) as [|d ds] eqn:Ed; [discriminate|].
        assert (Hd : In d (s_in s x)) by (rewrite Ed; left; reflexivity).
        rewrite I3 in Hd. apply minus_In in Hd as [Hd Hns].
        assert (Hdk : In d ks) by (apply (deps_of_incl x); exact Hd).
        exists d. split; [|split; assumption].
        apply filter_In; split; [exact Hdk|].
        destruct (nonempty (s_in s d)) eqn:En; [reflexivity|].
        apply nonempty_false in En. apply (I5 d Hdk) in En. contradiction.
    - left. destruct (lookup_all_spec (s_sched s) I2) as (fs & Hfs & Hm & Hincl).
      exists fs. split; [exact Hfs|].
      assert (Hall : forall k, In k ks -> In k (s_sched s)).
      { intros k Hk. apply I5; [exact Hk|]. apply nonempty_false.
        destruct (nonempty (s_in s k)) eqn:En; [|reflexivity].
        assert (existsb (fun k => nonempty (s_in s k)) ks = true) by (apply existsb_exists; eauto).
        congruence. }
      assert (HP : Permutation fs (map fst fd)).
      { apply NoDup_Permutation.
        - apply (NoDup_map_inv name). rewrite Hm; exact I1.
        - apply (NoDup_map_inv name). rewrite map_map; exact names_distinct.
        - intros f; split; [apply Hincl|].
          intros Hf. apply in_map_iff in Hf as (p & <- & Hp).
          assert (Hk : In (name (fst p)) (map name fs)).
          { rewrite Hm; apply Hall; unfold keys; apply in_map_iff; eauto. }
          apply in_map_iff in Hk as (g & Eg & Hg).
          pose proof (Hincl g Hg) as Hg'. apply in_map_iff in Hg' as (p' & <- & Hp').
          assert (E1 : name2field F name fd (name (fst p')) = Some (fst p')) by (apply name2field_in; exact Hp').
          rewrite Eg, (name2field_in p Hp) in E1. injection E1 as E1. rewrite E1; exact Hg. }
      assert (HR : respects fs).
      { intros a f b Ef. rewrite Ef, map_app in Hm; cbn [map] in Hm.
        apply (I6 (map name a) (name f) (map name b)). symmetry; exact Hm. }
      split; [exact HP|]. split; [exact HR|]. apply (respects_acyclic fs HR HP).
  Qed.
End Facts.

(** Independent formulation: what it means that diagnostic named [f] requires [d]. *)
Definition requires {F} (name : F -> string) (fd : list (F * list string)) (f d : string) : Prop :=
  exists p, In p fd /\ name (fst p) = f /\ In d (snd p).

Definition circular {F} (name : F -> string) (fd : list (F * list string)) : Prop :=
  exists x, clos_trans string (requires name fd) x x.

Lemma clos_trans_iff {A} (R1 R2 : A -> A -> Prop) :
  (forall x y, R1 x y <-> R2 x y) -> forall x y, clos_trans A R1 x y <-> clos_trans A R2 x y.
Proof.
  intros H x y; split; induction 1 as [x y Hxy|x z y _ IH1 _ IH2];
    try (apply t_step; apply H; exact Hxy); eapply t_trans; eassumption.
Qed.

Lemma requires_depends {F} (name : F -> string) fd :
  NoDup (keys name fd) -> forall f d, requires name fd f d <-> depends F name fd f d.
Proof.
  intros Hn f d; split.
  - intros (p & Hp & <- & Hd). split; [unfold keys; apply in_map_iff; eauto|].
    rewrite (deps_of_in F name fd Hn p Hp); exact Hd.
  - intros [Hf Hd]. destruct (in_keys F name fd f Hf) as (p & Hp & <-).
    exists p; repeat split; auto. rewrite (deps_of_in F name fd Hn p Hp) in Hd; exact Hd.
Qed.

Lemma topo_sort_correct {F} (name : F -> string) (fd : list (F * list string)) :
  NoDup (map (fun p => name (fst p)) fd) ->
  Forall (fun p => NoDup (snd p)) fd ->
  Forall (fun p => incl (snd p) (map (fun p => name (fst p)) fd)) fd ->
  (exists l, topo_sort name fd = Ok l /\ Permutation l (map fst fd) /\
     (forall a f b, l = (a ++ f :: b)%list -> forall d, requires name fd (name f) d -> In d (map name a)) /\
     ~ circular name fd) \/
  (topo_sort name fd = Err RuntimeError /\ circular name fd).
Proof.
  intros H1 H2 H3.
  pose proof (requires_depends name fd H1) as Hrd.
  assert (Hc : circular name fd <-> exists x, clos_trans string (depends F name fd) x x).
  { unfold circular; split; intros (x & Hx); exists x; revert Hx;
      [apply (proj1 (clos_trans_iff _ _ Hrd x x))|apply (proj2 (clos_trans_iff _ _ Hrd x x))]. }
  destruct (topo_sort_spec F name fd H1 H2 H3) as [(l & Hl & HP & HR & Ha)|[He Hcy]].
  - left. exists l. split; [exact Hl|]. split; [exact HP|]. split; [|rewrite Hc; exact Ha].
    intros a f b E d Hd. apply Hrd in Hd as [_ Hd]. apply (HR a f b E); exact Hd.
  - right. split; [exact He|apply Hc; exact Hcy].
Qed.

Lemma add_outs_missing ks f deps : forall out,
  ~ incl deps ks -> add_outs ks f deps out = None.
Proof.
  induction deps as [|d tl IH]; intros out H; simpl; [exfalso; apply H; intros z []|].
  destruct (mem d ks) eqn:E; [|reflexivity]. apply IH. intros Hi; apply H.
  intros z [<-|Hz]; [apply mem_In; exact E|apply Hi; exact Hz].
Qed.

Lemma incl_dec_str (a b : list string) : {incl a b} + {~ incl a b}.
Proof.
  induction a as [|h a IH]; [left; intros z []|].
  destruct IH as [IH|IH]; [|right; intros H; apply IH; intros z Hz; apply H; right; exact Hz].
  destruct (in_dec string_dec h b) as [H|H]; [left|right].
  - intros z [<-|Hz]; auto.
  - intros Hi; apply H, Hi; left; reflexivity.
Qed.

Lemma topo_sort_missing {F} (name : F -> string) (fd : list (F * list string)) :
  Exists (fun p => ~ incl (snd p) (map (fun p => name (fst p)) fd)) fd ->
  topo_sort name fd = Err KeyError.
Proof.
  intros H. unfold topo_sort.
  assert (E : forall l roots out, Exists (fun p => ~ incl (snd p) (keys name fd)) l ->
            build F name (keys name fd) l roots out = None).
  { induction l as [|[f deps] l IH]; intros roots out He; [inversion He|].
    cbn [build]. destruct (incl_dec_str deps (keys name fd)) as [Hi|Hi].
    - inversion He as [? ? Hx|? ? Hx]; subst; [contradiction|].
      destruct (add_outs _ _ deps out); [apply IH; exact Hx|reflexivity].
    - rewrite add_outs_missing by exact Hi; reflexivity. }
  rewrite (E fd [] _ H); reflexivity.
Qed.

Lemma dedup_In x l : In x (dedup l) <-> In x l.
Proof.
  induction l as [|h tl IH]; simpl; [tauto|].
  destruct (mem h tl) eqn:E; simpl; rewrite IH; [|tauto].
  apply mem_In in E. split; [auto|intros [->|H]; auto].
Qed.
Lemma dedup_NoDup l : NoDup (dedup l).
Proof.
  induction l as [|h tl IH]; simpl; [constructor|].
  destruct (mem h tl) eqn:E; [exact IH|]. constructor; [|exact IH].
  rewrite dedup_In. apply mem_false; exact E.
Qed.

(** The composition used by setup_diagnostics. *)
Lemma setup_diagnostics_order {F} (name : F -> string) (required : F -> list string)
    (nondiag : list string) (ds : list F) :
  NoDup (map name ds) ->
  (forall d r, In d ds -> In r (required d) -> In r nondiag \/ In r (map name ds)) ->
  let R := fun f d => exists x, In x ds /\ name x = f /\ In d (required x) /\ ~ In d nondiag in
  (exists l, topo_sort name (field_deps required nondiag ds) = Ok l /\ Permutation l ds /\
     (forall a f b, l = (a ++ f :: b)%list -> forall d, In d (required f) -> In d nondiag \/ In d (map name a))) \/
  (topo_sort name (field_deps required nondiag ds) = Err RuntimeError /\
     exists x, clos_trans string R x x).
Proof.
  intros Hn Hk R. set (fd := field_deps required nondiag ds).
  assert (Ek : map (fun p => name (fst p)) fd = map name ds).
  { unfold fd, field_deps; rewrite map_map; reflexivity. }
  assert (Ef : map fst fd = ds).
  { unfold fd, field_deps; rewrite map_map. apply map_id. }
  assert (Hreq : forall f d, requires name fd f d <-> R f d).
  { intros f d; unfold requires, R, fd, field_deps; split.
    - intros (p & Hp & <- & Hd). apply in_map_iff in Hp as (x & <- & Hx). simpl in *.
      rewrite dedup_In in Hd. apply filter_In in Hd as [Hd Hm].
      apply negb_true_iff, mem_false in Hm. eauto 6.
    - intros (x & Hx & <- & Hd & Hm).
      exists (x, dedup (filter (fun r => negb (mem r nondiag)) (required x))).
      split; [apply in_map_iff; eauto|]. split; [reflexivity|]. simpl.
      rewrite dedup_In. apply filter_In. split; [exact Hd|]. apply negb_true_iff, mem_false; exact Hm. }
  destruct (topo_sort_correct name fd) as [(l & Hl & HP & HR & _)|[He (x & Hx)]].
  - rewrite Ek; exact Hn.
  - apply Forall_forall. intros p Hp. unfold fd, field_deps in Hp.
    apply in_map_iff in Hp as (x & <- & _). apply dedup_NoDup.
  - rewrite Ek. apply Forall_forall. intros p Hp. unfold fd, field_deps in Hp.
    apply in_map_iff in Hp as (x & <- & Hx). simpl. intros d Hd.
    rewrite dedup_In in Hd. apply filter_In in Hd as [Hd Hm]. apply negb_true_iff, mem_false in Hm.
    destruct (Hk x d Hx Hd); [contradiction|assumption].
  - left. exists l. rewrite Ef in HP. split; [exact Hl|]. split; [exact HP|].
    intros a f b E d Hd. destruct (in_dec string_dec d nondiag) as [Hi|Hi]; [left; exact Hi|right].
    apply (HR a f b E). apply Hreq. exists f. split; [|auto].
    eapply Permutation_in; [exact HP|]. rewrite E; apply in_or_app; right; left; reflexivity.
  - right. split; [exact He|]. exists x. apply (proj1 (clos_trans_iff _ _ Hreq x x)); exact Hx.
Qed.

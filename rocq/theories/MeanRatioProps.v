(** C39, continued: the mean-mixing-ratio augmentation on the whole state. *)
From Coq Require Import String Lra.
From Verif Require Import Base Kernels KernelsProps EquationSets EquationSetsProps MeanRatio.
Open Scope R_scope.
Open Scope list_scope.

(** specification: the component of the density of the tracer of a name *)
Definition density_of (fields : list string) (tracers : list active_tracer) (n : string) (j : nat) : Prop :=
  exists t dn, In t tracers /\ a_name t = n /\ a_density t = Some dn /\ index_of dn fields = Some j.
Lemma densities_one fields tracers n js : NoDup (map a_name tracers) -> densities_of fields tracers n = Ok js ->
  match js with [] => ~ In n (map a_name tracers) | [j] => density_of fields tracers n j | _ => False end.
Proof.
  revert js; induction tracers as [|t r IH]; intros js HN H; cbn [densities_of] in H; [injection H as <-; intros []|]. cbn [map] in HN. apply NoDup_cons_iff in HN. destruct HN as [Ht HN].
  destruct (String.eqb_spec (a_name t) n) as [E|E].
  - destruct (a_density t) as [dn|] eqn:Ed; [|discriminate]. destruct (index_of dn fields) as [j|] eqn:Ej; [|discriminate]. destruct (densities_of fields r n) as [js'|] eqn:Er; [|discriminate]. cbn [bind] in H. injection H as <-.
    specialize (IH js' HN eq_refl). destruct js' as [|j' [|j'' js']].
    + exists t, dn. repeat split; [left; reflexivity|exact E|exact Ed|exact Ej].
    + destruct IH as (t' & _ & H1 & H2 & _). apply Ht. rewrite E, <- H2. apply in_map. exact H1.
    + destruct IH.
  - specialize (IH js HN H). destruct js as [|j [|j' js]]; [|destruct IH as (t' & dn & H1 & H2); exists t', dn; split; [right; exact H1|exact H2]|exact IH].
    intros [E'|H']; [congruence|apply IH; exact H'].
Qed.
(** The constructor: for names of active tracers, the i-th density index is that of the density of the i-th mixing ratio *)
Theorem mmr_indices : forall fields tracers names mX rho, NoDup (map a_name tracers) -> incl names (map a_name tracers) -> mmr_init fields tracers names = Ok (mX, rho) ->
  Forall2 (fun n i => index_of n fields = Some i) names mX /\ Forall2 (density_of fields tracers) names rho.
Proof.
  intros fields tracers names. induction names as [|n r IH]; intros mX rho HN Hi H; cbn [mmr_init] in H; [injection H as <- <-; split; constructor|].
  destruct (index_of n fields) as [i|] eqn:Ei; [|discriminate]. destruct (densities_of fields tracers n) as [js|] eqn:Ej; [|discriminate]. cbn [bind] in H.
  destruct (mmr_init fields tracers r) as [[mX' rho']|] eqn:Er; [|discriminate]. cbn [bind fst snd] in H. injection H as <- <-.
  destruct (IH mX' rho' HN (fun x Hx => Hi x (or_intror Hx)) eq_refl) as [H1 H2]. pose proof (densities_one fields tracers n js HN Ej) as Hj. destruct js as [|j [|j' js]].
  - exfalso. apply Hj, Hi. left. reflexivity.
  - split; constructor; assumption.
  - destruct Hj.
Qed.
(** It refuses mixing ratios that are not fields, and active tracers without a density name *)
Theorem mmr_refuses : forall fields tracers names, 
  (exists n, In n names /\ ~ In n fields) \/ (exists n t, In n names /\ In t tracers /\ a_name t = n /\ a_density t = None) -> mmr_init fields tracers names = Err ValueError.
Proof.
  assert (HD : forall fields n t tracers, In t tracers -> a_name t = n -> a_density t = None -> densities_of fields tracers n = Err ValueError).
  { intros fields n t tracers. induction tracers as [|a r IH]; intros Hi E Ed; [destruct Hi|]. cbn [densities_of]. destruct (String.eqb_spec (a_name a) n) as [Ea|Ea].
    - destruct Hi as [->|Hi]; [rewrite Ed; reflexivity|]. destruct (a_density a); [|reflexivity]. destruct (index_of _ fields); [|reflexivity]. rewrite (IH Hi E Ed). reflexivity.
    - destruct Hi as [->|Hi]; [congruence|apply IH; assumption]. }
  assert (HV : forall fields n tracers e, densities_of fields tracers n = Err e -> e = ValueError).
  { intros fields n. induction tracers as [|a r IH]; intros e H; cbn [densities_of] in H; [discriminate|]. destruct (String.eqb (a_name a) n); [|apply IH; exact H].
    destruct (a_density a); [|congruence]. destruct (index_of _ fields); [|congruence]. destruct (densities_of fields r n) as [js|e'] eqn:Er; cbn [bind] in H; [discriminate|]. injection H as <-. apply IH. reflexivity. }
  intros fields tracers names. induction names as [|m r IH]; intros H; [destruct H as [(n & [] & _)|(n & t & [] & _)]|]. cbn [mmr_init].
  destruct (index_of m fields) as [i|] eqn:Ei; [|reflexivity]. destruct (densities_of fields tracers m) as [js|e] eqn:Ej; cbn [bind]; [|f_equal; eapply HV; exact Ej].
  rewrite IH; [reflexivity|]. destruct H as [(n & [->|Hn] & Hf)|(n & t & [->|Hn] & Ht & En & Ed)].
  - exfalso. apply Hf, index_of_In. exists i. exact Ei.
  - left. exists n. split; assumption.
  - rewrite (HD fields n t tracers Ht En Ed) in Ej. discriminate.
  - right. exists n, t. repeat split; assumption.
Qed.
Section State.
Variable wts : list R -> list R.
Hypothesis wts_length : forall v, Datatypes.length (wts v) = Datatypes.length v.
Lemma gather_ok X : forall mX rho, Datatypes.length mX = Datatypes.length rho -> gather wts mX rho X = Ok (map (fun p => (wts (X (snd p)), X (fst p))) (combine mX rho)).
Proof. induction mX as [|m mX IH]; intros [|r rho] H; cbn in *; try discriminate; [reflexivity|]. rewrite IH by congruence. reflexivity. Qed.
Lemma scatter_other mX vals X k : ~ In k mX -> scatter mX vals X k = X k.
Proof.
  unfold scatter. revert vals X. induction mX as [|m mX IH]; intros vals X H; [reflexivity|]. destruct vals as [|v vals]; [reflexivity|]. cbn [combine fold_left fst snd]. rewrite IH by (intros Hk; apply H; right; exact Hk).
  destruct (Nat.eqb_spec k m) as [->|]; [exfalso; apply H; left; reflexivity|reflexivity].
Qed.
Lemma scatter_at mX : forall vals X i m v, NoDup mX -> nth_error mX i = Some m -> nth_error vals i = Some v -> scatter mX vals X m = v.
Proof.
  induction mX as [|a mX IH]; intros vals X i m v HN Hm Hv; [destruct i; discriminate|]. apply NoDup_cons_iff in HN. destruct HN as [Ha HN]. destruct vals as [|b vals]; [destruct i; discriminate|]. destruct i as [|i]; cbn in Hm, Hv.
  - injection Hm as ->. injection Hv as ->. change (scatter (m :: mX) (v :: vals) X m) with (scatter mX vals (fun k => if Nat.eqb k m then v else X k) m). rewrite scatter_other by exact Ha. rewrite Nat.eqb_refl. reflexivity.
  - change (scatter (a :: mX) (b :: vals) X m) with (scatter mX vals (fun k => if Nat.eqb k a then b else X k) m). eapply IH; eassumption.
Qed.
Lemma limit_length l : Datatypes.length (mmr_limit l) = Datatypes.length l.
Proof. unfold mmr_limit, mean_limiter. rewrite !map_length. reflexivity. Qed.
(** limit() in every cell: the listed mixing ratios become non-negative and keep their mass with their own density (unless the mean is negative), everything else,
    the densities among it, is unchanged *)
Theorem mmr_limits_state : forall fields tracers names mX rho X, NoDup fields -> NoDup (map a_name tracers) -> incl names (map a_name tracers) -> NoDup names ->
  mmr_init fields tracers names = Ok (mX, rho) ->
  exists X', mmr_limit_state wts mX rho X = Ok X' /\
    (forall k, ~ (exists n, In n names /\ index_of n fields = Some k) -> X' k = X k) /\
    (forall n i, In n names -> index_of n fields = Some i -> Forall (fun v => 0 <= v) (X' i) /\
       forall j, density_of fields tracers n j -> Datatypes.length (X j) = Datatypes.length (X i) -> Kernels.total (wts (X j)) <> 0 -> 0 <= cell_mean (wts (X j)) (X i) ->
         Kernels.dot (wts (X j)) (X' i) = Kernels.dot (wts (X j)) (X i)).
Proof.
  intros fields tracers names mX rho X HF HN Hi Hn H. destruct (mmr_indices _ _ _ _ _ HN Hi H) as [H1 H2].
  assert (HL : Datatypes.length mX = Datatypes.length rho) by (clear - H1 H2; revert rho H2; induction H1 as [|n i ns is E HH IH]; intros rho H2; inversion H2; subst; cbn; [reflexivity|f_equal; apply IH; assumption]).
  unfold mmr_limit_state. rewrite gather_ok by exact HL. cbn [bind]. eexists. split; [reflexivity|]. set (l := map _ (combine mX rho)).
  assert (HmX : forall i, In i mX <-> exists n, In n names /\ index_of n fields = Some i).
  { clear - H1. induction H1 as [|n i ns is E HH IH]; [split; [intros []|intros (n & [] & _)]|]. intros k. cbn [In]. rewrite IH. split.
    - intros [->|(m & Hm & Em)]; [exists n; split; [left; reflexivity|exact E]|exists m; split; [right; exact Hm|exact Em]].
    - intros (m & [->|Hm] & Em); [left; congruence|right; exists m; split; assumption]. }
  split; [intros k Hk; apply scatter_other; intros Hin; apply Hk, HmX; exact Hin|].
  assert (HNm : NoDup mX).
  { clear - H1 Hn HmX. clear HmX. induction H1 as [|n i ns is E HH IH]; [constructor|]. apply NoDup_cons_iff in Hn. destruct Hn as [Hn0 Hn]. constructor; [|apply IH; exact Hn].
    intros Hin. apply Hn0. clear - E HH Hin. induction HH as [|m j ms js Em HH IH]; [destruct Hin|]. destruct Hin as [->|Hin]; [left|right; apply IH; exact Hin].
    apply index_of_nth in E. apply index_of_nth in Em. congruence. }
  intros n i Hnn Ei. destruct (In_nth_error names n Hnn) as [p Hp].
  assert (Hmp : nth_error mX p = Some i).
  { clear - H1 Hp Ei. revert p Hp. induction H1 as [|m k ms ks Em HH IH]; intros p Hp; [destruct p; discriminate|]. destruct p as [|p]; cbn in *; [injection Hp as ->; congruence|apply IH; exact Hp]. }
  assert (Hrp : exists r, nth_error rho p = Some r /\ density_of fields tracers n r).
  { clear - H2 Hp. revert p Hp. induction H2 as [|m k ms ks Em HH IH]; intros p Hp; [destruct p; discriminate|]. destruct p as [|p]; cbn in *; [injection Hp as ->; eexists; split; [reflexivity|exact Em]|apply IH; exact Hp]. }
  destruct Hrp as (r & Hr & Hdr).
  assert (Hl : nth_error l p = Some (wts (X r), X i)).
  { unfold l. rewrite nth_error_map. assert (Hc : nth_error (combine mX rho) p = Some (i, r)); [|rewrite Hc; reflexivity]. clear - Hmp Hr. revert rho p Hmp Hr. induction mX as [|a mX IH]; intros rho p Hm Hr; [destruct p; discriminate|].
    destruct rho as [|b rho]; [destruct p; discriminate|]. destruct p as [|p]; cbn in *; [congruence|apply IH; assumption]. }
  assert (Hlim : exists v, nth_error (mmr_limit l) p = Some v) by (destruct (nth_error (mmr_limit l) p) as [v|] eqn:E; [exists v; reflexivity|apply nth_error_None in E; rewrite limit_length in E; assert (p < Datatypes.length l)%nat by (apply nth_error_Some; congruence); lia]).
  destruct Hlim as [v Hv]. rewrite (scatter_at mX (mmr_limit l) X p i v HNm Hmp Hv). split.
  - pose proof (mmr_limit_nonneg l) as HG. rewrite Forall_forall in HG. apply HG. eapply nth_error_In. exact Hv.
  - intros j Hj Hlen Ht Hmean. assert (j = r).
    { destruct Hj as (t & dn & A1 & A2 & A3 & A4), Hdr as (t' & dn' & B1 & B2 & B3 & B4). assert (t = t').
      { clear - HN A1 A2 B1 B2. induction tracers as [|a ts IH]; [destruct A1|]. cbn in HN. apply NoDup_cons_iff in HN. destruct HN as [Ha HN].
        destruct A1 as [->|A1], B1 as [->|B1]; [reflexivity| | |apply IH; assumption]; exfalso; apply Ha; [rewrite A2, <- B2|rewrite B2, <- A2]; apply in_map; assumption. }
      subst t'. congruence. }
    subst r. eapply mmr_limit_mass; [exact Hl|exact Hv|rewrite wts_length; exact Hlen|exact Ht|exact Hmean].
Qed.
End State.

(** The weight is the same for all mixing ratios of a cell: what a combination of mixing ratios of one density adds up to at every node (a conserved total of species, say) is kept,
    if no mean is negative *)
Fixpoint combination (a : list R) (vs : list (list R)) (k : nat) : R :=
  match a, vs with x :: a, v :: vs => x * nth k v 0 + combination a vs k | _, _ => 0 end.
Lemma dot_total w c : forall v, Datatypes.length w = Datatypes.length v -> (forall k, (k < Datatypes.length v)%nat -> nth k v 0 = c) -> Kernels.dot w v = c * Kernels.total w.
Proof.
  induction w as [|a w IH]; intros [|b v] Hl H; cbn in *; try discriminate; [ring|]. rewrite (IH v); [|congruence|intros k Hk; apply (H (S k)); lia]. rewrite (H 0%nat) by lia. ring.
Qed.
Theorem mmr_keeps_relations : forall (w : list R) (vs : list (list R)) (a : list R) (c : R), Kernels.total w <> 0 -> Datatypes.length a = Datatypes.length vs ->
  Forall (fun v => Datatypes.length v = Datatypes.length w /\ 0 <= cell_mean w v) vs ->
  (forall k, (k < Datatypes.length w)%nat -> combination a vs k = c) ->
  forall k, (k < Datatypes.length w)%nat -> combination a (mmr_limit (map (fun v => (w, v)) vs)) k = c.
Proof.
  intros w vs a c Hw Ha HF Hc k Hk. unfold mmr_limit. rewrite map_map. cbn [fst snd].
  set (fs := map (fun v => (v, if Rlt_dec (cell_mean w v) 0 then 0 else cell_mean w v)) vs).
  change (combination a (mean_limiter fs) k = c). unfold mean_limiter. set (lam := cell_weight fs).
  (* the means obey the same relation *)
  assert (HM : fold_right (fun p acc => fst p * cell_mean w (snd p) + acc) 0 (combine a vs) = c).
  { assert (E : fold_right (fun p acc => fst p * cell_mean w (snd p) + acc) 0 (combine a vs) = Kernels.dot w (map (combination a vs) (seq 0 (Datatypes.length w))) / Kernels.total w).
    { clear - HF Hw Ha. revert vs Ha HF. induction a as [|x a IH]; intros [|v vs] Ha HF; cbn in Ha; try discriminate.
      - cbn [combine fold_right]. rewrite (dot_total w 0); [field; exact Hw|rewrite map_length, seq_length; reflexivity|].
        intros k Hk. rewrite map_length, seq_length in Hk. rewrite (nth_indep _ 0 (combination [] [] 0)) by (rewrite map_length, seq_length; exact Hk). rewrite map_nth. reflexivity.
      - inversion HF as [|? ? [Hv _] HF']; subst. cbn [combine fold_right fst snd]. rewrite (IH vs) by (congruence || exact HF'). unfold cell_mean.
        assert (D : forall (w v : list R) (g : nat -> R) i, Datatypes.length v = Datatypes.length w -> 
          Kernels.dot w (map (fun k => x * nth (k - i) v 0 + g k) (seq i (Datatypes.length w))) = x * Kernels.dot w v + Kernels.dot w (map g (seq i (Datatypes.length w)))).
        { clear. intros w. induction w as [|b w IHw]; intros [|y v] g i Hl; cbn in Hl; try discriminate; [cbn; ring|].
          cbn [Datatypes.length seq map Kernels.dot]. rewrite Nat.sub_diag. cbn [nth].
          rewrite (map_ext_in _ (fun k => x * nth (k - S i) v 0 + g k)); [rewrite IHw by congruence; ring|].
          intros k Hk. apply in_seq in Hk. replace (k - i)%nat with (S (k - S i)) by lia. reflexivity. }
        specialize (D w v (combination a vs) 0%nat Hv). rewrite (map_ext (combination (x :: a) (v :: vs)) (fun k => x * nth (k - 0) v 0 + combination a vs k)) by (intros; cbn [combination]; rewrite Nat.sub_0_r; reflexivity).
        rewrite D. field. exact Hw. }
    rewrite E. rewrite (dot_total w c); [field; exact Hw|rewrite map_length, seq_length; reflexivity|]. intros j Hj. rewrite map_length, seq_length in Hj.
    rewrite (nth_indep _ 0 (combination a vs 0)) by (rewrite map_length, seq_length; exact Hj). rewrite map_nth, seq_nth by exact Hj. apply Hc. exact Hj. }
  assert (E : combination a (map (fun f : list R * R => map (blend lam (snd f)) (fst f)) fs) k = (1 - lam) * combination a vs k + lam * fold_right (fun p acc => fst p * cell_mean w (snd p) + acc) 0 (combine a vs)).
  { unfold fs. clear HM. clearbody lam. clear Hc. revert vs Ha HF fs. induction a as [|x a IH]; intros [|v vs] Ha HF fs; cbn in Ha; try discriminate; [cbn; ring|].
    inversion HF as [|? ? [Hv Hm] HF']; subst. cbn [map combination combine fold_right fst snd]. rewrite (IH vs) by (congruence || exact HF').
    destruct (Rlt_dec (cell_mean w v) 0); [lra|]. rewrite (nth_indep _ 0 (blend lam (cell_mean w v) 0)) by (rewrite map_length; lia). rewrite map_nth. unfold blend. ring. }
  rewrite E, HM, (Hc k Hk). ring.
Qed.
(** Refuted: "a mixing ratio that is not conservatively transported is an error" (l.315-317).  One that is not an active tracer is accepted, and the first limit() fails;
    one with a density name is accepted even if its transport equation is advective *)
Theorem mmr_accepts_refuted :
  mmr_init ["theta"; "rho"; "q"]%string [{| a_name := "q"; a_space := "DG"; a_eqn := AdvectiveEq; a_density := Some "rho"%string |}] ["theta"; "q"]%string = Ok ([0; 2]%nat, [1%nat]) /\
  forall wts X, mmr_limit_state wts [0; 2]%nat [1%nat] X = Err IndexError.
Proof. split; reflexivity. Qed.
Example mmr_example : mmr_init ["rho"; "q"; "s"]%string [{| a_name := "q"; a_space := "DG"; a_eqn := TracerConservative; a_density := Some "rho"%string |}; {| a_name := "s"; a_space := "DG"; a_eqn := TracerConservative; a_density := Some "rho"%string |}] ["s"; "q"]%string = Ok ([2; 1]%nat, [0; 0]%nat).
Proof. reflexivity. Qed.

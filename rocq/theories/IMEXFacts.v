From Verif Require Import Base Vec RK RKSpec RKFacts IMEXSpec IMEX.
Open Scope R_scope.

Lemma rfold_app {S} (R : S -> nat -> S -> Prop) l1 l2 a c :
  rfold R (l1 ++ l2) a c <-> exists b, rfold R l1 a b /\ rfold R l2 b c.
Proof.
  revert a. induction l1 as [|i l1 IH]; intros a; cbn.
  - split; [intros H; exists a; auto|intros (b & -> & H); exact H].
  - split.
    + intros (m & H1 & H2). apply IH in H2 as (b & H3 & H4). exists b. split; [exists m; auto|exact H4].
    + intros (b & (m & H1 & H2) & H3). exists m. split; [exact H1|]. apply IH. exists b. auto.
Qed.
Lemma rfold_snoc {S} (R : S -> nat -> S -> Prop) l i a c :
  rfold R (l ++ [i]) a c <-> exists b, rfold R l a b /\ R b i c.
Proof.
  rewrite rfold_app. split.
  - intros (b & H & m & H1 & H2). cbn in H2. subst c. exists b; auto.
  - intros (b & H & H1). exists b. split; [exact H|]. exists c. cbn. auto.
Qed.

Lemma finite_choice {X} (P : nat -> X -> Prop) n (d : X) :
  (forall i, (i < n)%nat -> exists x, P i x) -> exists f : nat -> X, forall i, (i < n)%nat -> P i (f i).
Proof.
  induction n as [|n IH]; intros H.
  - exists (fun _ => d). intros; lia.
  - destruct IH as [f Hf]; [intros; apply H; lia|]. destruct (H n ltac:(lia)) as [x Hx].
    exists (upd f n x). intros i Hi. destruct (Nat.eq_dec i n) as [->|Hne].
    + rewrite upd_eq. exact Hx.
    + rewrite upd_neq by exact Hne. apply Hf; lia.
Qed.

Lemma vsub_zero_iff {I} (x y : vec I) : x -v y = vzero <-> x = y.
Proof.
  split; intros H.
  - apply functional_extensionality; intros i. apply (f_equal (fun f => f i)) in H. vunfold. lra.
  - subst. vring.
Qed.

Ltac viff := match goal with |- ?u = _ <-> ?w = _ =>
  let E := fresh in assert (E : u = w) by (clear; vring); rewrite E; clear E; apply iff_refl end.
Definition vopp {I} (x : vec I) : vec I := (-1) *v x.

(* ---- IMEX ---- *)
Section IMEXFacts.
  Context {I : Type}.
  Variables (A D : nat -> nat -> R) (s : nat) (dt : R) (Ni Ne Ns ev L : vec I -> vec I).
  Hypothesis Hs : (0 < s)%nat.
  Notation Fi := (fun v => vopp (Ni v)).
  Notation Fe := (fun v => vopp (Ne v +v Ns (ev v))).

  Definition stage_val (Y : nat -> vec I) (y z : vec I) (i : nat) : vec I :=
    y +v dt *v (vsum i (fun j => A i j *v Fi (Y j)) +v A i i *v Fi z +v vsum i (fun j => D i j *v Fe (Y j))).
  Definition final_val (Y : nat -> vec I) (y : vec I) : vec I :=
    y +v dt *v (vsum s (fun j => A s j *v Fi (Y j)) +v vsum s (fun j => D s j *v Fe (Y j))).

  Lemma sum_part (st : imex_state) n row : (forall i, (i < n)%nat -> source st i = ev (xs st i)) ->
    vsum n (fun i => (A row i * dt) *v Ni (xs st i) +v (D row i * dt) *v Ne (xs st i) +v (D row i * dt) *v Ns (source st i))
    = vopp (dt *v (vsum n (fun j => A row j *v Fi (xs st j)) +v vsum n (fun j => D row j *v Fe (xs st j)))).
  Proof.
    intros H. induction n as [|n IH]; [cbn; unfold vopp; vring|]. cbn [vsum]. rewrite IH by (intros; apply H; lia).
    rewrite (H n) by lia. unfold vopp.
    generalize (Ni (xs st n)) (Ne (xs st n)) (Ns (ev (xs st n))). intros a b c. vring.
  Qed.

  Lemma res_iff st x1 stage z : (forall i, (i < stage)%nat -> source st i = ev (xs st i)) ->
    (imex_res A D dt Ni Ne Ns st x1 stage z = vzero <-> z = stage_val (xs st) x1 z stage).
  Proof.
    intros H. rewrite <- (vsub_zero_iff z). unfold imex_res. rewrite sum_part by exact H.
    unfold stage_val, vopp.
    generalize (vsum stage (fun j => A stage j *v ((-1) *v Ni (xs st j))))
      (vsum stage (fun j => D stage j *v ((-1) *v (Ne (xs st j) +v Ns (ev (xs st j)))))) (Ni z).
    intros a b c. viff.
  Qed.
  Lemma final_iff st x1 z : (forall i, (i < s)%nat -> source st i = ev (xs st i)) ->
    (imex_final_res A D s dt Ni Ne Ns st x1 z = vzero <-> z = final_val (xs st) x1).
  Proof.
    intros H. rewrite <- (vsub_zero_iff z). unfold imex_final_res. rewrite sum_part by exact H.
    unfold final_val, vopp.
    generalize (vsum s (fun j => A s j *v ((-1) *v Ni (xs st j))))
      (vsum s (fun j => D s j *v ((-1) *v (Ne (xs st j) +v Ns (ev (xs st j)))))).
    intros a b. viff.
  Qed.

  Lemma stage_val_ext Y Y' y z i : (forall j, (j < i)%nat -> Y j = Y' j) -> stage_val Y y z i = stage_val Y' y z i.
  Proof.
    intros H. unfold stage_val. f_equal. f_equal. f_equal; [f_equal|]; apply vsum_ext; intros j Hj;
      rewrite H by exact Hj; reflexivity.
  Qed.
  Lemma final_val_ext Y Y' y : (forall j, (j < s)%nat -> Y j = Y' j) -> final_val Y y = final_val Y' y.
  Proof.
    intros H. unfold final_val. f_equal. f_equal. f_equal; apply vsum_ext; intros j Hj;
      rewrite H by exact Hj; reflexivity.
  Qed.

  Definition inv (f n : nat) (y : vec I) (st : imex_state) : Prop :=
    (forall i, (i < f)%nat -> xs st i = y) /\
    (forall i, (f <= i < n)%nat -> exists z, z = stage_val (xs st) y z i /\ xs st i = L z) /\
    (forall i, (i + 1 < n)%nat -> source st i = ev (xs st i)).

  Lemma sources_after st n : (n < s)%nat ->
    (forall i, (i + 1 < n)%nat -> source st i = ev (xs st i)) ->
    forall i, (i < n)%nat -> upd (source st) (prev_index s n) (ev (xs st (prev_index s n))) i = ev (xs st i).
  Proof.
    intros Hn H i Hi. destruct n as [|n]; [lia|]. cbn [prev_index].
    destruct (Nat.eq_dec i n) as [->|Hne]; [apply upd_eq|]. rewrite upd_neq by exact Hne. apply H; lia.
  Qed.

  Lemma stage_inv f n y st st' : (f <= n < s)%nat -> inv f n y st ->
    imex_stage A D s dt Ni Ne Ns ev L y st n st' -> inv f (S n) y st'.
  Proof.
    intros Hn (H1 & H2 & H3) (z & Hz & ->).
    pose proof (sources_after st n ltac:(lia) H3) as HS.
    apply res_iff in Hz; cbn [xs source] in *; [|exact HS].
    repeat split; cbn [xs source].
    - intros i Hi. rewrite upd_neq by lia. apply H1; exact Hi.
    - intros i Hi. destruct (Nat.eq_dec i n) as [->|Hne].
      + exists z. split; [|apply upd_eq]. rewrite Hz at 1. apply stage_val_ext.
        intros j Hj. rewrite upd_neq by lia. reflexivity.
      + destruct (H2 i ltac:(lia)) as (w & Hw & E). exists w. split.
        * rewrite Hw at 1. apply stage_val_ext. intros j Hj. rewrite upd_neq by lia. reflexivity.
        * rewrite upd_neq by exact Hne. exact E.
    - intros i Hi. rewrite (upd_neq _ n i) by lia. apply HS; lia.
  Qed.

  Lemma run_inv f y st0 : (f <= s)%nat -> forall n st1, (f + n <= s)%nat -> inv f f y st0 ->
    rfold (imex_stage A D s dt Ni Ne Ns ev L y) (seq f n) st0 st1 -> inv f (f + n) y st1.
  Proof.
    intros Hf. induction n as [|n IH]; intros st1 Hn H0 Hr.
    - cbn in Hr. subst st1. rewrite Nat.add_0_r. exact H0.
    - rewrite seq_S in Hr. apply rfold_snoc in Hr as (b & Hb & Hst).
      replace (f + S n)%nat with (S (f + n)) by lia.
      eapply stage_inv; [|apply IH; [lia|exact H0|exact Hb]|exact Hst]. lia.
  Qed.

  Lemma init_inv f y (st : imex_state) : (f <= 1)%nat -> inv f f y {| xs := upd (xs st) 0 y; source := source st; xo := y |}.
  Proof.
    intros Hf. repeat split; cbn [xs source]; intros i Hi.
    - assert (i = 0%nat) by lia. subst. apply upd_eq.
    - lia.
    - lia.
  Qed.

  Lemma first_le f : first_stage A s f -> (f <= 1)%nat.
  Proof. intros [[_ ->]|[_ ->]]; lia. Qed.

  Lemma imex_forward st y y1 :
    imex_apply A D s dt Ni Ne Ns ev L st y y1 ->
    exists f, first_stage A s f /\ imex_step_limited A D (A s) (D s) s f L Fi Fe dt y y1.
  Proof.
    intros (f & st1 & Hf & Hr & z & Hz & ->). exists f. split; [exact Hf|].
    pose proof (first_le f Hf) as Hle.
    pose proof (run_inv f y _ ltac:(lia) (s - f) st1 ltac:(lia) (init_inv f y st Hle) Hr) as (H1 & H2 & H3).
    replace (f + (s - f))%nat with s in * by lia.
    assert (HS : forall i, (i < s)%nat -> upd (source st1) (s - 1) (ev (xs st1 (s - 1)%nat)) i = ev (xs st1 i)).
    { intros i Hi. destruct (Nat.eq_dec i (s - 1)) as [->|Hne]; [apply upd_eq|].
      rewrite upd_neq by exact Hne. apply H3; lia. }
    apply final_iff in Hz; cbn [xs source] in *; [|exact HS].
    destruct (finite_choice (fun i z => (f <= i)%nat -> z = stage_val (xs st1) y z i /\ xs st1 i = L z) s vzero) as [Z HZ].
    { intros i Hi. destruct (le_lt_dec f i) as [Hfi|Hfi].
      - destruct (H2 i ltac:(lia)) as (w & Hw). exists w. intros _. exact Hw.
      - exists vzero. intros; lia. }
    exists (xs st1), Z. split; [exact H1|]. split.
    - intros i Hi. apply HZ; lia.
    - rewrite Hz. reflexivity.
  Qed.

  Lemma imex_backward st y y1 f : first_stage A s f ->
    imex_step_limited A D (A s) (D s) s f L Fi Fe dt y y1 ->
    imex_apply A D s dt Ni Ne Ns ev L st y y1.
  Proof.
    intros Hf (Y & Z & H1 & H2 & ->). pose proof (first_le f Hf) as Hle.
    set (st0 := {| xs := upd (xs st) 0 y; source := source st; xo := y |}).
    assert (R : forall n, (f + n <= s)%nat -> exists st1,
      rfold (imex_stage A D s dt Ni Ne Ns ev L y) (seq f n) st0 st1 /\ inv f (f + n) y st1 /\
      forall i, (i < f + n)%nat -> xs st1 i = Y i).
    { induction n as [|n IH]; intros Hn.
      - exists st0. split; [reflexivity|]. rewrite Nat.add_0_r. split; [apply init_inv; exact Hle|].
        intros i Hi. rewrite H1 by exact Hi. cbn. assert (i = 0%nat) by lia. subst. apply upd_eq.
      - destruct (IH ltac:(lia)) as (b & Hb & HI & HY).
        set (p := prev_index s (f + n)). set (src := upd (source b) p (ev (xs b p))).
        set (b' := {| xs := upd (xs b) (f + n)%nat (L (Z (f + n)%nat)); source := src; xo := L (Z (f + n)%nat) |}).
        assert (Hst : imex_stage A D s dt Ni Ne Ns ev L y b (f + n)%nat b').
        { exists (Z (f + n)%nat). split; [|reflexivity]. apply res_iff; cbn [xs source].
          - destruct HI as (_ & _ & H3). apply sources_after; [lia|exact H3].
          - transitivity (stage_val Y y (Z (f + n)%nat) (f + n)).
            + apply (H2 (f + n)%nat); lia.
            + apply stage_val_ext. intros j Hj. symmetry. apply HY; exact Hj. }
        exists b'. split; [rewrite seq_S; apply rfold_snoc; exists b; auto|].
        replace (f + S n)%nat with (S (f + n)) by lia. split; [eapply stage_inv; [|exact HI|exact Hst]; lia|].
        intros i Hi. cbn. destruct (Nat.eq_dec i (f + n)) as [->|Hne].
        + rewrite upd_eq. symmetry. apply H2; lia.
        + rewrite upd_neq by exact Hne. apply HY; lia. }
    destruct (R (s - f)%nat ltac:(lia)) as (st1 & Hr & HI & HY).
    replace (f + (s - f))%nat with s in * by lia.
    exists f, st1. split; [exact Hf|]. split; [exact Hr|]. cbv zeta.
    eexists. split; [|reflexivity]. apply final_iff; cbn [xs source].
    - intros i Hi. destruct (Nat.eq_dec i (s - 1)) as [->|Hne]; [apply upd_eq|].
      rewrite upd_neq by exact Hne. apply HI; lia.
    - symmetry. apply (final_val_ext (xs st1) Y y). exact HY.
  Qed.

  Lemma first_stage_exists : exists f, first_stage A s f.
  Proof.
    assert (Dc : forall n, (forall j, (j < n)%nat -> A 0 j = 0) \/ ~ (forall j, (j < n)%nat -> A 0 j = 0)).
    { induction n as [|n IH]; [left; intros; lia|]. destruct IH as [IH|IH].
      - destruct (Req_EM_T (A 0 n) 0) as [E|E].
        + left. intros j Hj. destruct (Nat.eq_dec j n) as [->|]; [exact E|apply IH; lia].
        + right. intros H. apply E, H; lia.
      - right. intros H. apply IH. intros; apply H; lia. }
    destruct (Dc s) as [H|H]; [exists 1%nat; left|exists 0%nat; right]; auto.
  Qed.
End IMEXFacts.

Lemma limited_id_imex {I} A D s f (Fi Fe : vec I -> vec I) dt y y1 : (0 < s)%nat -> first_stage A s f ->
  (imex_step_limited A D (A s) (D s) s f (fun v => v) Fi Fe dt y y1 <-> imex_step A D (A s) (D s) s Fi Fe dt y y1).
Proof.
  intros Hs Hf. split.
  - intros (Y & Z & H1 & H2 & ->). exists Y. split; [|reflexivity]. intros i Hi.
    destruct (le_lt_dec f i) as [Hfi|Hfi].
    + destruct (H2 i ltac:(lia)) as [HZ HY]. rewrite HY at 1. rewrite HZ at 1. cbn [vsum]. rewrite <- HY. reflexivity.
    + assert (f = 1 /\ i = 0)%nat as [-> ->] by (pose proof (first_le A s Hs f Hf); lia).
      destruct Hf as [[HA _]|[_ E]]; [|discriminate].
      cbn [vsum]. rewrite (HA 0%nat Hs), H1 by lia. generalize (Fi y). intros; vring.
  - intros (Y & H & ->). exists Y, Y. split; [|split; [|reflexivity]].
    + intros i Hi. assert (f = 1 /\ i = 0)%nat as [-> ->] by (pose proof (first_le A s Hs f Hf); lia).
      destruct Hf as [[HA _]|[_ E]]; [|discriminate].
      rewrite (H 0%nat Hs). cbn [vsum]. rewrite (HA 0%nat Hs). generalize (Fi (Y 0%nat)). intros; vring.
    + intros i Hi. split; [|reflexivity]. rewrite (H i) at 1 by lia. cbn [vsum]. reflexivity.
Qed.

(* ---- DIRK ---- *)
Section IRKFacts.
  Context {I : Type}.
  Variables (A : nat -> nat -> R) (s : nat) (dt : R) (N : vec I -> vec I).
  Notation F := (fun v => vopp (N v)).

  (** the tableau with its diagonal replaced by d *)
  Definition with_diag (d : R) : nat -> nat -> R := fun i j => if Nat.eqb i j then d else A i j.

  Lemma fold_axpy row n (k : nat -> vec I) x :
    fold_left (fun x i => x +v (A row i * dt) *v k i) (seq 0 n) x = x +v dt *v vsum n (fun i => A row i *v k i).
  Proof. rewrite fold_vsum. f_equal. rewrite <- vsum_scal. apply vsum_ext. intros; vring. Qed.

  Lemma with_diag_sum d i (k : nat -> vec I) :
    vsum (S i) (fun j => with_diag d i j *v k j) = vsum i (fun j => A i j *v k j) +v d *v k i.
  Proof.
    cbn [vsum]. unfold with_diag at 2. rewrite Nat.eqb_refl. f_equal. apply vsum_ext. intros j Hj.
    unfold with_diag. destruct (Nat.eqb_spec i j); [lia|reflexivity].
  Qed.

  Definition diag_used (st : @irk_state I) : R := match cached st with Some d => d | None => A 0 0 end.

  Lemma inc_eq_iff d (x : vec I) k i sol :
    sol +v N ((x +v dt *v vsum i (fun j => A i j *v k j)) +v (d * dt) *v sol) = vzero <->
    sol = F (x +v dt *v (vsum i (fun j => A i j *v k j) +v d *v sol)).
  Proof.
    rewrite <- (vsub_zero_iff sol). unfold vopp.
    assert (E : (x +v dt *v vsum i (fun j => A i j *v k j)) +v (d * dt) *v sol
      = x +v dt *v (vsum i (fun j => A i j *v k j) +v d *v sol)) by vring.
    rewrite E. generalize (N (x +v dt *v (vsum i (fun j => A i j *v k j) +v d *v sol))). intros a.
    viff.
  Qed.

  Definition inc_inv (d : R) (x : vec I) n (st : irk_state) : Prop :=
    forall i, (i < n)%nat -> kst st i = F (x +v dt *v vsum (S i) (fun j => with_diag d i j *v kst st j)).

  Lemma inc_forward x st : forall n st1, 
    rfold (irk_inc_stage A dt N x) (seq 0 n) st st1 ->
    ((n = 0)%nat -> st1 = st) /\ ((0 < n)%nat -> cached st1 = Some (diag_used st)) /\ inc_inv (diag_used st) x n st1.
  Proof.
    induction n as [|n IH]; intros st1 Hr.
    - cbn in Hr. subst. split; [auto|]. split; [lia|]. intros i Hi; lia.
    - rewrite seq_S in Hr. apply rfold_snoc in Hr as (b & Hb & sol & Hsol & ->).
      destruct (IH b Hb) as (H0 & Hc & HI). cbn [Nat.add] in *.
      assert (Ed : match cached b with Some d => d | None => A n n end = diag_used st).
      { destruct n as [|n]; [rewrite (H0 eq_refl); reflexivity|]. rewrite (Hc ltac:(lia)). reflexivity. }
      rewrite Ed in *. split; [discriminate|]. split; [reflexivity|].
      rewrite fold_axpy in Hsol. apply inc_eq_iff in Hsol.
      intros i Hi. rewrite with_diag_sum. cbn [kst].
      assert (E : forall m, (m <= n)%nat -> vsum m (fun j => A m j *v upd (kst b) n sol j) = vsum m (fun j => A m j *v kst b j)).
      { intros m Hm. apply vsum_ext. intros j Hj. rewrite upd_neq by lia. reflexivity. }
      destruct (Nat.eq_dec i n) as [->|Hne].
      + rewrite upd_eq, E by lia. exact Hsol.
      + rewrite upd_neq, E by lia. rewrite (HI i) at 1 by lia. rewrite with_diag_sum. reflexivity.
  Qed.

  Lemma inc_backward x st k :
    (forall i, (i < s)%nat -> k i = F (x +v dt *v vsum (S i) (fun j => with_diag (diag_used st) i j *v k j))) ->
    forall n, (n <= s)%nat -> exists st1,
    rfold (irk_inc_stage A dt N x) (seq 0 n) st st1 /\ ((n = 0)%nat -> st1 = st) /\
    ((0 < n)%nat -> cached st1 = Some (diag_used st)) /\ (forall i, (i < n)%nat -> kst st1 i = k i).
  Proof.
    intros Hk. induction n as [|n IH]; intros Hn.
    - exists st. cbn. repeat split; intros; lia.
    - destruct (IH ltac:(lia)) as (b & Hb & H0 & Hc & HK).
      exists {| cached := Some (diag_used st); kst := upd (kst b) n (k n) |}.
      split; [rewrite seq_S; apply rfold_snoc; exists b; split; [exact Hb|]|].
      + exists (k n). cbn [Nat.add].
        assert (Ed : match cached b with Some d => d | None => A n n end = diag_used st).
        { destruct n as [|m]; [rewrite (H0 eq_refl); reflexivity|]. rewrite (Hc ltac:(lia)). reflexivity. }
        rewrite Ed. split; [|reflexivity]. rewrite fold_axpy. apply inc_eq_iff.
        rewrite (Hk n) at 1 by lia. rewrite with_diag_sum.
        replace (vsum n (fun j => A n j *v kst b j)) with (vsum n (fun j => A n j *v k j)); [reflexivity|].
        apply vsum_ext. intros j Hj. rewrite HK by exact Hj. reflexivity.
      + split; [discriminate|]. split; [reflexivity|]. intros i Hi. cbn.
        destruct (Nat.eq_dec i n) as [->|Hne]; [apply upd_eq|]. rewrite upd_neq by exact Hne. apply HK; lia.
  Qed.

  Lemma irk_increment_iff st x y1 :
    irk_increment A s dt N st x y1 <-> dirk_step (with_diag (diag_used st)) (A s) s F dt x y1.
  Proof.
    split.
    - intros (st1 & Hr & ->). destruct (inc_forward x st s st1 Hr) as (_ & _ & HI).
      exists (kst st1). split; [exact HI|]. rewrite fold_axpy. reflexivity.
    - intros (k & Hk & ->). destruct (inc_backward x st k Hk s (le_n s)) as (st1 & Hr & _ & _ & HK).
      exists st1. split; [exact Hr|]. rewrite fold_axpy. f_equal. f_equal. apply vsum_ext.
      intros j Hj. rewrite HK by exact Hj. reflexivity.
  Qed.

  (* predictor: stage values *)
  Lemma sumN n row (X : nat -> vec I) :
    vsum n (fun i => (A row i * dt) *v N (X i)) = vopp (dt *v vsum n (fun j => A row j *v F (X j))).
  Proof.
    induction n as [|n IH]; [cbn; unfold vopp; vring|]. cbn [vsum]. rewrite IH. unfold vopp.
    generalize (N (X n)). intros; vring.
  Qed.
  Definition pval (X : nat -> vec I) (x z : vec I) i := x +v dt *v (vsum i (fun j => A i j *v F (X j)) +v A i i *v F z).
  Lemma pred_eq_iff X x i z :
    z -v x +v vsum i (fun j => (A i j * dt) *v N (X j)) +v (A i i * dt) *v N z = vzero <-> z = pval X x z i.
  Proof.
    rewrite <- (vsub_zero_iff z). rewrite sumN. unfold pval, vopp.
    generalize (vsum i (fun j => A i j *v ((-1) *v N (X j)))) (N z). intros a b.
    viff.
  Qed.
  Lemma pval_ext X X' x z i : (forall j, (j < i)%nat -> X j = X' j) -> pval X x z i = pval X' x z i.
  Proof.
    intros H. unfold pval. f_equal. f_equal. f_equal. apply vsum_ext. intros j Hj. rewrite H by exact Hj. reflexivity.
  Qed.
  Lemma pred_forward x X0 : forall n X1, rfold (irk_pred_stage A dt N x) (seq 0 n) X0 X1 ->
    forall i, (i < n)%nat -> X1 i = pval X1 x (X1 i) i.
  Proof.
    induction n as [|n IH]; intros X1 Hr i Hi; [lia|].
    rewrite seq_S in Hr. apply rfold_snoc in Hr as (b & Hb & z & Hz & ->). cbn [Nat.add] in *.
    apply pred_eq_iff in Hz. destruct (Nat.eq_dec i n) as [->|Hne].
    - rewrite upd_eq. rewrite Hz at 1. apply pval_ext. intros j Hj. rewrite upd_neq by lia. reflexivity.
    - rewrite upd_neq by exact Hne. rewrite (IH b Hb i) at 1 by lia. apply pval_ext.
      intros j Hj. rewrite upd_neq by lia. reflexivity.
  Qed.
  Lemma pred_backward x X0 Y : (forall i, (i < s)%nat -> Y i = pval Y x (Y i) i) ->
    forall n, (n <= s)%nat -> exists X1, rfold (irk_pred_stage A dt N x) (seq 0 n) X0 X1 /\
      forall i, (i < n)%nat -> X1 i = Y i.
  Proof.
    intros HY. induction n as [|n IH]; intros Hn.
    - exists X0. split; [reflexivity|intros; lia].
    - destruct (IH ltac:(lia)) as (b & Hb & HX). exists (upd b n (Y n)). split.
      + rewrite seq_S. apply rfold_snoc. exists b. split; [exact Hb|]. exists (Y n). cbn [Nat.add]. split; [|reflexivity].
        apply pred_eq_iff. rewrite (HY n) at 1 by lia. apply pval_ext. intros j Hj. symmetry; apply HX; exact Hj.
      + intros i Hi. destruct (Nat.eq_dec i n) as [->|Hne]; [apply upd_eq|]. rewrite upd_neq by exact Hne. apply HX; lia.
  Qed.
  Lemma final_eq_iff X x z : z -v x +v vsum s (fun i => (A s i * dt) *v N (X i)) = vzero <->
    z = x +v dt *v vsum s (fun j => A s j *v F (X j)).
  Proof.
    rewrite <- (vsub_zero_iff z), sumN. unfold vopp. generalize (vsum s (fun j => A s j *v ((-1) *v N (X j)))). intros a.
    viff.
  Qed.
  Lemma irk_predictor_iff X0 x y1 : irk_predictor A s dt N X0 x y1 <-> dirk_step A (A s) s F dt x y1.
  Proof.
    split.
    - intros (X1 & Hr & Hf). apply final_eq_iff in Hf. exists (fun j => F (X1 j)). split; [|exact Hf].
      intros i Hi. cbv beta. f_equal. f_equal. apply (pred_forward x X0 s X1 Hr i Hi).
    - intros (k & Hk & ->).
      set (Y := fun i => x +v dt *v vsum (S i) (fun j => A i j *v k j)).
      assert (HF : forall i, (i < s)%nat -> F (Y i) = k i) by (intros i Hi; symmetry; apply Hk; exact Hi).
      assert (HY : forall i, (i < s)%nat -> Y i = pval Y x (Y i) i).
      { intros i Hi. unfold pval. rewrite HF by exact Hi. unfold Y at 1. cbn [vsum]. f_equal. f_equal. f_equal.
        apply vsum_ext. intros j Hj. f_equal. symmetry. apply HF; lia. }
      destruct (pred_backward x X0 Y HY s (le_n s)) as (X1 & Hr & HX). exists X1. split; [exact Hr|].
      apply final_eq_iff. f_equal. f_equal. apply vsum_ext. intros j Hj. f_equal. rewrite HX by exact Hj.
      symmetry; apply HF; exact Hj.
  Qed.
End IRKFacts.

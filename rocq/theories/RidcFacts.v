(** The parallel RIDC programs are the projections of one global message sequence. *)
From Verif Require Import Base Mpi Ridc.

Lemma flat_map_two {A} (g : nat -> list A) i n :
  (forall r, S r <> i -> r <> i -> g r = []) ->
  flat_map g (seq 0 n) = (match i with O => [] | S p => if Nat.ltb p n then g p else [] end) ++ (if Nat.ltb i n then g i else []).
Proof.
  intros H. induction n as [|n IH]; [destruct i; reflexivity|].
  rewrite seq_S, flat_map_app. cbn [flat_map plus]. rewrite app_nil_r, IH.
  destruct (Nat.eq_dec i n) as [->|Hin].
  - rewrite Nat.ltb_irrefl, app_nil_r. replace (Nat.ltb n (S n)) with true by (symmetry; apply Nat.ltb_lt; lia).
    f_equal. destruct n as [|p]; [reflexivity|]. replace (Nat.ltb p (S p)) with true by (symmetry; apply Nat.ltb_lt; lia).
    replace (Nat.ltb p (S (S p))) with true by (symmetry; apply Nat.ltb_lt; lia). reflexivity.
  - destruct i as [|p].
    + cbn [app]. destruct n as [|n]; [lia|]. cbn. rewrite (H (S n)) by lia. apply app_nil_r.
    + destruct (Nat.eq_dec p n) as [->|Hpn].
      * rewrite Nat.ltb_irrefl. replace (Nat.ltb (S n) n) with false by (symmetry; apply Nat.ltb_ge; lia).
        replace (Nat.ltb (S n) (S n)) with false by (symmetry; apply Nat.ltb_ge; lia).
        replace (Nat.ltb n (S n)) with true by (symmetry; apply Nat.ltb_lt; lia). cbn. rewrite app_nil_r. reflexivity.
      * rewrite (H n) by lia. rewrite app_nil_r.
        replace (Nat.ltb p (S n)) with (Nat.ltb p n) by (destruct (Nat.ltb_spec p n), (Nat.ltb_spec p (S n)); lia || reflexivity).
        replace (Nat.ltb (S p) (S n)) with (Nat.ltb (S p) n) by (destruct (Nat.ltb_spec (S p) n), (Nat.ltb_spec (S p) (S n)); lia || reflexivity).
        reflexivity.
Qed.

Lemma flat_map_flat_map {A B C} (f : B -> list C) (g : A -> list B) l : flat_map f (flat_map g l) = flat_map (fun a => flat_map f (g a)) l.
Proof. induction l as [|a l IH]; [reflexivity|]. cbn. rewrite flat_map_app, IH. reflexivity. Qed.

Lemma Forall_flat_map' {A B} (Pr : B -> Prop) (f : A -> list B) l : (forall a, In a l -> Forall Pr (f a)) -> Forall Pr (flat_map f l).
Proof.
  induction l as [|a l IH]; intros H; [constructor|]. cbn. apply Forall_app. split; [apply H; left; reflexivity|].
  apply IH. intros b Hb. apply H. right; exact Hb.
Qed.

Lemma stencil_bound l m e : In e (stencil l m) -> snd e <= Nat.max l (S m).
Proof.
  unfold stencil. destruct (Nat.ltb_spec m l) as [H|H]; intros Hin; apply in_map_iff in Hin; destruct Hin as (j & <- & Hj); apply in_seq in Hj; cbn [snd]; lia.
Qed.

Section Facts.
  Context {V C : Type}.
  Variable zero : V.
  Variable axpy : V -> C -> V -> V.
  Variable Qm : nat -> nat -> nat -> C.
  Variables base src limit : V -> V.
  Variable fval : V -> V -> V.
  Variable solve : V -> V -> V -> V -> V -> V -> V -> V -> V.
  Variables M K J flush_freq : nat.
  Notation level' := (level zero axpy Qm base src limit fval solve).
  Notation nodes' := (nodes zero axpy Qm src limit solve).
  Notation node' := (node zero axpy Qm src limit solve).
  Notation quad' := (quad zero axpy Qm).
  Notation receive' := (receive src fval J).
  Notation receive_stencil' := (receive_stencil src fval J).
  Notation correct' := (correct zero axpy Qm src limit solve K J).
  Notation correct_stencil' := (correct_stencil zero axpy Qm src limit solve K J).
  Notation pipeline' := (pipeline zero axpy Qm src limit fval solve K J).
  Notation flush' := (flush K J flush_freq).
  Notation predict' := (predict base src J).
  Notation apply_rank' := (apply_rank zero axpy Qm base src limit fval solve M K J flush_freq).
  Notation run_rank' := (run_rank zero axpy Qm base src limit fval solve M K J flush_freq).
  Notation next_x' := (next_x zero axpy Qm base src limit fval solve M K J flush_freq).
  Notation next_sin' := (next_sin zero axpy Qm base src limit fval solve M).
  Notation outputs' := (outputs zero axpy Qm base src limit fval solve M K J flush_freq).
  Notation TFs := TF.
  Notation TSs := (TS J).
  Notation TPs := (TP J).

  (** ** The message sequence of one step *)
  Section Step.
    Variable step : nat.
    Variables X SIN : nat -> V.
    Notation L := (level' X SIN).
    Definition ev (r m : nat) : list (event V) :=
      [{| e_src := r; e_dst := S r; e_tag := TFs step; e_val := fst (L r m) |};
       {| e_src := r; e_dst := S r; e_tag := TSs step; e_val := snd (L r m) |}].
    Definition evs (p r : nat) : list (event V) :=
      if Nat.ltb r p then ev r p else if Nat.eqb r p then flat_map (ev r) (seq 1 p) else [].
    Definition exchange : list (event V) := flat_map (fun p => flat_map (evs p) (seq 0 K)) (seq 1 M).
    Definition flushing : list (event V) :=
      if flushes J flush_freq step then map (fun i => {| e_src := K; e_dst := i; e_tag := TPs step; e_val := fst (L K M) |}) (seq 0 K) else [].
    Definition gstep : list (event V) := exchange ++ flushing.

    Definition sendm (r m : nat) : list (@op V) := [OSend (S r) (TFs step) (fst (L r m)); OSend (S r) (TSs step) (snd (L r m))].
    Definition recvm (r m : nat) : list (@op V) := [ORecv (r - 1) (TFs step) (fst (L (r - 1) m)); ORecv (r - 1) (TSs step) (snd (L (r - 1) m))].

    Lemma ops_ev i r m : flat_map (ops_of i) (ev r m) = if Nat.eqb r i then sendm r m else if Nat.eqb (S r) i then recvm i m else [].
    Proof.
      unfold ev, ops_of, sendm, recvm. cbn [flat_map e_src e_dst e_tag e_val app].
      destruct (Nat.eqb_spec r i) as [->|H1]; [reflexivity|]. destruct (Nat.eqb_spec (S r) i) as [<-|H2]; [|reflexivity].
      replace (S r - 1) with r by lia. reflexivity.
    Qed.
    Lemma ops_evs i p r : flat_map (ops_of i) (evs p r) =
      if Nat.eqb r i then (if Nat.ltb r p then sendm r p else if Nat.eqb r p then flat_map (sendm r) (seq 1 p) else [])
      else if Nat.eqb (S r) i then (if Nat.ltb r p then recvm i p else if Nat.eqb r p then flat_map (recvm i) (seq 1 p) else [])
      else [].
    Proof.
      unfold evs. destruct (Nat.ltb r p); [apply ops_ev|]. destruct (Nat.eqb r p).
      - rewrite flat_map_flat_map. rewrite (flat_map_ext _ _ (ops_ev i r)).
        destruct (Nat.eqb r i); [reflexivity|]. destruct (Nat.eqb (S r) i); [reflexivity|]. induction (seq 1 p); [reflexivity|assumption].
      - cbn [flat_map]. destruct (Nat.eqb r i); [reflexivity|]. destruct (Nat.eqb (S r) i); reflexivity.
    Qed.

    Definition recv_phase (i p : nat) : list (@op V) :=
      match i with O => [] | S q => if Nat.ltb q K then (if Nat.ltb q p then recvm i p else if Nat.eqb q p then flat_map (recvm i) (seq 1 p) else []) else [] end.
    Definition send_phase (i p : nat) : list (@op V) :=
      if Nat.ltb i K then (if Nat.ltb i p then sendm i p else if Nat.eqb i p then flat_map (sendm i) (seq 1 p) else []) else [].

    Lemma ops_phase i p : flat_map (ops_of i) (flat_map (evs p) (seq 0 K)) = recv_phase i p ++ send_phase i p.
    Proof.
      rewrite flat_map_flat_map. rewrite (flat_map_two _ i).
      - unfold recv_phase, send_phase. f_equal.
        + destruct i as [|q]; [reflexivity|]. destruct (Nat.ltb q K); [|reflexivity]. rewrite ops_evs.
          destruct (Nat.eqb_spec q (S q)); [lia|]. rewrite Nat.eqb_refl. reflexivity.
        + destruct (Nat.ltb i K); [|reflexivity]. rewrite ops_evs, Nat.eqb_refl. reflexivity.
      - intros r H1 H2. rewrite ops_evs. destruct (Nat.eqb_spec r i); [lia|]. destruct (Nat.eqb_spec (S r) i); [lia|]. reflexivity.
    Qed.

    (** the script of rank 0 *)
    Lemma ops_exchange_0 : 0 < K -> flat_map (ops_of 0) exchange = flat_map (sendm 0) (seq 1 M).
    Proof.
      intros HK. unfold exchange. rewrite flat_map_flat_map. rewrite (flat_map_ext _ _ (ops_phase 0)).
      rewrite !flat_map_concat_map. f_equal. apply map_ext_in. intros p Hp. apply in_seq in Hp. cbn [recv_phase app].
      unfold send_phase. replace (Nat.ltb 0 K) with true by (symmetry; apply Nat.ltb_lt; lia).
      replace (Nat.ltb 0 p) with true by (symmetry; apply Nat.ltb_lt; lia). reflexivity.
    Qed.

    Definition sendif (i m : nat) : list (@op V) := if Nat.ltb i K then sendm i m else [].

    Lemma ops_exchange_S i : 1 <= i <= K -> i <= M ->
      flat_map (ops_of i) exchange = flat_map (recvm i) (seq 1 i) ++ flat_map (sendif i) (seq 1 i)
                                     ++ flat_map (fun p => recvm i p ++ sendif i p) (seq (S i) (M - i)).
    Proof.
      intros Hi HM. unfold exchange. rewrite flat_map_flat_map. rewrite (flat_map_ext _ _ (ops_phase i)).
      destruct i as [|q]; [lia|].
      replace (seq 1 M) with (seq 1 q ++ [S q] ++ seq (S (S q)) (M - S q)).
      2:{ replace M with (q + (1 + (M - S q))) at 2 by lia. rewrite seq_app. reflexivity. }
      rewrite !flat_map_app. cbn [flat_map]. rewrite app_nil_r.
      assert (E1 : flat_map (fun p => recv_phase (S q) p ++ send_phase (S q) p) (seq 1 q) = flat_map (recvm (S q)) (seq 1 q)).
      { assert (Hq : forall n, n <= q -> flat_map (fun p => recv_phase (S q) p ++ send_phase (S q) p) (seq 1 n) = if Nat.eqb n q then flat_map (recvm (S q)) (seq 1 q) else []).
        { induction n as [|n IH]; intros Hn.
          - destruct (Nat.eqb_spec 0 q) as [<-|]; reflexivity.
          - rewrite seq_S, flat_map_app, IH by lia. destruct (Nat.eqb_spec n q); [lia|]. cbn [flat_map app plus]. rewrite app_nil_r.
            unfold recv_phase, send_phase. replace (Nat.ltb q K) with true by (symmetry; apply Nat.ltb_lt; lia).
            replace (Nat.ltb q (S n)) with false by (symmetry; apply Nat.ltb_ge; lia).
            replace (Nat.ltb (S q) (S n)) with false by (symmetry; apply Nat.ltb_ge; lia).
            replace (Nat.eqb (S q) (S n)) with false by (symmetry; apply Nat.eqb_neq; lia).
            replace (if Nat.ltb (S q) K then [] else []) with (@nil (@op V)) by (destruct (Nat.ltb (S q) K); reflexivity).
            rewrite app_nil_r. destruct (Nat.eqb_spec q (S n)) as [Eq|]; destruct (Nat.eqb_spec (S n) q); try lia; [|reflexivity].
            rewrite <- Eq. reflexivity. }
        rewrite Hq by lia. rewrite Nat.eqb_refl. reflexivity. }
      rewrite E1.
      assert (E2 : recv_phase (S q) (S q) = recvm (S q) (S q)).
      { unfold recv_phase. replace (Nat.ltb q K) with true by (symmetry; apply Nat.ltb_lt; lia).
        replace (Nat.ltb q (S q)) with true by (symmetry; apply Nat.ltb_lt; lia). reflexivity. }
      assert (E3 : send_phase (S q) (S q) = flat_map (sendif (S q)) (seq 1 (S q))).
      { unfold send_phase, sendif. rewrite Nat.ltb_irrefl, Nat.eqb_refl. destruct (Nat.ltb (S q) K); [reflexivity|]. induction (seq 1 (S q)); [reflexivity|assumption]. }
      rewrite E2, E3. rewrite (seq_S q 1), !flat_map_app. cbn [flat_map plus]. rewrite !app_nil_r. rewrite <- !app_assoc. do 4 f_equal.
      rewrite !flat_map_concat_map. f_equal. apply map_ext_in. intros p Hp. apply in_seq in Hp.
      unfold recv_phase, send_phase, sendif. replace (Nat.ltb q K) with true by (symmetry; apply Nat.ltb_lt; lia).
      replace (Nat.ltb q p) with true by (symmetry; apply Nat.ltb_lt; lia).
      replace (Nat.ltb (S q) p) with true by (symmetry; apply Nat.ltb_lt; lia). reflexivity.
    Qed.

    Lemma ops_flushing i : i <= K ->
      flat_map (ops_of i) flushing =
      if flushes J flush_freq step then
        if Nat.eqb i K then map (fun d => OSend d (TPs step) (fst (L K M))) (seq 0 K) else [ORecv K (TPs step) (fst (L K M))]
      else [].
    Proof.
      intros Hi. unfold flushing. destruct (flushes J flush_freq step); [|reflexivity].
      destruct (Nat.eqb_spec i K) as [->|Hne].
      - induction (seq 0 K) as [|d l IH]; [reflexivity|]. cbn [map flat_map]. unfold ops_of at 1. cbn [e_src e_dst e_tag e_val]. rewrite Nat.eqb_refl. cbn. f_equal. exact IH.
      - assert (G : forall c s, flat_map (ops_of i) (map (fun d => {| e_src := K; e_dst := d; e_tag := TPs step; e_val := fst (L K M) |}) (seq s c))
                    = if Nat.leb s i && Nat.ltb i (s + c) then [ORecv K (TPs step) (fst (L K M))] else []).
        { induction c as [|c IH]; intros s.
          - cbn [seq map flat_map]. destruct (Nat.leb_spec s i), (Nat.ltb_spec i (s + 0)); cbn [andb]; lia || reflexivity.
          - cbn [seq map flat_map]. rewrite IH. unfold ops_of. cbn [e_src e_dst e_tag e_val].
            destruct (Nat.eqb_spec K i); [lia|]. destruct (Nat.eqb_spec s i) as [->|].
            + replace (Nat.leb (S i) i) with false by (symmetry; apply Nat.leb_gt; lia).
              replace (Nat.leb i i) with true by (symmetry; apply Nat.leb_le; lia).
              replace (Nat.ltb i (i + S c)) with true by (symmetry; apply Nat.ltb_lt; lia). reflexivity.
            + cbn [app]. destruct (Nat.leb_spec (S s) i), (Nat.leb_spec s i), (Nat.ltb_spec i (S s + c)), (Nat.ltb_spec i (s + S c)); cbn [andb]; lia || reflexivity. }
        rewrite G. cbn [andb Nat.leb plus]. destruct (Nat.ltb_spec i K); [reflexivity|lia].
    Qed.

    Lemma gstep_distinct : Forall (fun e => e_src e <> e_dst e) gstep.
    Proof.
      apply Forall_app. split.
      - apply Forall_flat_map'. intros p _. apply Forall_flat_map'. intros r _. unfold evs.
        assert (He : forall m, Forall (fun e : event V => e_src e <> e_dst e) (ev r m)) by (intros m; apply Forall_cons; [cbn; lia|apply Forall_cons; [cbn; lia|apply Forall_nil]]).
        destruct (Nat.ltb r p); [apply He|]. destruct (Nat.eqb r p); [|constructor]. apply Forall_flat_map'. intros m _. apply He.
      - unfold flushing. destruct (flushes J flush_freq step); [|constructor]. apply Forall_forall. intros e He. apply in_map_iff in He.
        destruct He as (d & <- & Hd). apply in_seq in Hd. cbn. lia.
    Qed.
    Lemma gstep_range : Forall (fun e => e_src e < S K /\ e_dst e < S K) gstep.
    Proof.
      apply Forall_app. split.
      - apply Forall_flat_map'. intros p _. apply Forall_flat_map'. intros r Hr. apply in_seq in Hr. unfold evs.
        assert (He : forall m, Forall (fun e : event V => e_src e < S K /\ e_dst e < S K) (ev r m)) by (intros m; apply Forall_cons; [cbn; lia|apply Forall_cons; [cbn; lia|apply Forall_nil]]).
        destruct (Nat.ltb r p); [apply He|]. destruct (Nat.eqb r p); [|constructor]. apply Forall_flat_map'. intros m _. apply He.
      - unfold flushing. destruct (flushes J flush_freq step); [|constructor]. apply Forall_forall. intros e He. apply in_map_iff in He.
        destruct He as (d & <- & Hd). apply in_seq in Hd. cbn. lia.
    Qed.

    (** ** The programs follow the scripts *)
    Context {Y : Type}.
    Notation P := (proc V Y).

    Lemma predict_does (x : Y) : forall c m U (k : (nat -> V) -> P) rest,
      (forall j, j <= m -> U j = niter j base (X 0)) ->
      (forall U', (forall j, j <= m + c -> U' j = niter j base (X 0)) -> does (k U') rest x) ->
      does (predict' 0 step c m U k) (flat_map (sendm 0) (seq (S m) c) ++ rest) x.
    Proof.
      induction c as [|c IH]; intros m U k rest HU Hk.
      - cbn. apply Hk. intros j Hj. apply HU. lia.
      - cbn [predict seq flat_map]. unfold sendm at 1. cbn [app level predictor fst snd].
        unfold predictor. cbn [fst snd]. rewrite (HU m) by lia. rewrite <- niter_S_out. constructor. constructor.
        apply (IH (S m)).
        + intros j Hj. unfold upd. destruct (Nat.eqb_spec j (S m)) as [->|]; [reflexivity|]. apply HU. lia.
        + intros U' HU'. apply Hk. intros j Hj. apply HU'. lia.
    Qed.

    Section Rank.
      Variable r : nat.
      Hypothesis Hr : 1 <= r <= K.
      Let SU := fun m => if Nat.eqb m 0 then X r else fst (L (r - 1) m).
      Let SsU := fun m => if Nat.eqb m 0 then src (X r) else snd (L (r - 1) m).
      Let Sf := fun m => if Nat.eqb m 0 then fval (X r) (SIN r) else fval (SU m) (src (SU m)).

      Lemma level_r m : L r m = nodes' r SU Sf SsU (X r) m.
      Proof. unfold Sf, SsU, SU. clear SU SsU Sf. destruct r as [|q]; [lia|]. replace (S q - 1) with q by lia. reflexivity. Qed.

      (** received the nodes below n *)
      Definition got (n : nat) (a : @arrays V) : Prop :=
        (forall j, j < n -> aU a j = SU j /\ asU a j = SsU j /\ af a j = Sf j) /\
        (2 <= n -> asin a = src (SU (n - 1))).
      Definition done (n : nat) (a : @arrays V) : Prop := forall j, j <= n -> aU1 a j = fst (L r j) /\ asK a j = snd (L r j).

      Lemma receive_does x n a (k : @arrays V -> P) rest d :
        1 <= n -> got n a -> done d a ->
        (forall a', got (S n) a' -> done d a' -> does (k a') rest x) ->
        does (receive' r step n a k) (recvm r n ++ rest) x.
      Proof.
        intros Hn [Hg Hs] Hd Hk. unfold receive, recvm. cbn [app]. constructor. constructor. apply Hk; [|exact Hd].
        assert (EU : SU n = fst (L (r - 1) n)) by (unfold SU; destruct (Nat.eqb_spec n 0); [lia|reflexivity]).
        split; cbn.
        - intros j Hj. unfold upd. destruct (Nat.eqb_spec j n) as [->|]; [|apply Hg; lia].
          rewrite <- EU. split; [reflexivity|]. split.
          + unfold SsU. destruct (Nat.eqb_spec n 0); [lia|reflexivity].
          + unfold Sf. destruct (Nat.eqb_spec n 0); [lia|reflexivity].
        - intros _. replace (n - 0) with n by lia. rewrite EU. reflexivity.
      Qed.

      Lemma quad_ext l f g m : (forall e, In e (stencil l m) -> f (snd e) = g (snd e)) -> quad' l f m = quad' l g m.
      Proof.
        unfold quad. generalize zero. induction (stencil l m) as [|[[a b] c] s IH]; intros z H; [reflexivity|]. cbn.
        pose proof (H (a, b, c) (or_introl eq_refl)) as H1. cbn in H1. rewrite H1. apply IH. intros e He. apply H. right; exact He.
      Qed.

      Lemma correct_does x m n a (k : @arrays V -> P) rest :
        r < n -> S m < n -> got n a -> done m a ->
        (forall a', got n a' -> done (S m) a' -> does (k a') rest x) ->
        does (correct' r step m a k) (sendif r (S m) ++ rest) x.
      Proof.
        intros Hrn Hm [Hg Hs] Hd Hk.
        assert (EN : node' r (aU a) (af a) (asU a) m (aU1 a m) (asK a m) = L r (S m)).
        { rewrite (level_r (S m)). cbn [nodes]. rewrite <- !level_r. destruct (Hd m ltac:(lia)) as [-> ->]. unfold node.
          destruct (Hg m ltac:(lia)) as (-> & -> & _). destruct (Hg (S m) ltac:(lia)) as (-> & _ & _).
          rewrite (quad_ext r (af a) Sf m); [reflexivity|]. intros e He. apply stencil_bound in He. apply Hg. lia. }
        unfold correct. rewrite EN. unfold sendif.
        assert (HD : done (S m) {| aU := aU a; aU1 := upd (aU1 a) (S m) (fst (L r (S m))); af := af a; asU := asU a;
                       asK := upd (asK a) (S m) (snd (L r (S m))); asin := asin a |}).
        { intros j Hj. cbn. unfold upd. destruct (Nat.eqb_spec j (S m)) as [->|]; [split; reflexivity|]. apply Hd. lia. }
        destruct (Nat.ltb r K).
        - unfold sendm. cbn [app]. constructor. constructor. apply Hk; [split; cbn; assumption|exact HD].
        - cbn [app]. apply Hk; [split; cbn; assumption|exact HD].
      Qed.

      Lemma receive_stencil_does x : forall c m a (k : @arrays V -> P) rest,
        1 <= m -> got m a -> done 0 a ->
        (forall a', got (m + c) a' -> done 0 a' -> does (k a') rest x) ->
        does (receive_stencil' r step c m a k) (flat_map (recvm r) (seq m c) ++ rest) x.
      Proof.
        induction c as [|c IH]; intros m a k rest Hm Hg Hd Hk.
        - cbn. apply Hk; [replace (m + 0) with m by lia|]; assumption.
        - cbn [receive_stencil seq flat_map]. rewrite <- app_assoc. apply (receive_does x m a _ _ 0); auto.
          intros a' Hg' Hd'. apply IH; auto. intros a2 Hg2 Hd2. apply Hk; [|exact Hd2]. replace (m + S c) with (S m + c) by lia. exact Hg2.
      Qed.

      Lemma correct_stencil_does x : forall c m a (k : @arrays V -> P) rest,
        m + c <= r -> got (S r) a -> done m a ->
        (forall a', got (S r) a' -> done (m + c) a' -> does (k a') rest x) ->
        does (correct_stencil' r step c m a k) (flat_map (sendif r) (seq (S m) c) ++ rest) x.
      Proof.
        induction c as [|c IH]; intros m a k rest Hm Hg Hd Hk.
        - cbn. apply Hk; [|replace (m + 0) with m by lia]; assumption.
        - cbn [correct_stencil seq flat_map]. rewrite <- app_assoc. apply (correct_does x m (S r)); [lia|lia|exact Hg|exact Hd|].
          intros a' Hg' Hd'. apply IH; [lia|exact Hg'|exact Hd'|]. intros a2 Hg2 Hd2. apply Hk; [exact Hg2|]. replace (m + S c) with (S m + c) by lia. exact Hd2.
      Qed.

      Lemma pipeline_does x : forall c m a (k : @arrays V -> P) rest,
        r <= m -> got (S m) a -> done m a ->
        (forall a', got (S (m + c)) a' -> done (m + c) a' -> does (k a') rest x) ->
        does (pipeline' r step c m a k) (flat_map (fun p => recvm r p ++ sendif r p) (seq (S m) c) ++ rest) x.
      Proof.
        induction c as [|c IH]; intros m a k rest Hm Hg Hd Hk.
        - cbn. apply Hk; replace (m + 0) with m by lia; assumption.
        - cbn [pipeline seq flat_map]. rewrite <- !app_assoc. apply (receive_does x (S m) a _ _ m); [lia|exact Hg|exact Hd|].
          intros a' Hg' Hd'. apply (correct_does x m (S (S m))); [lia|lia|exact Hg'|exact Hd'|].
          intros a2 Hg2 Hd2. apply IH; [lia|exact Hg2|exact Hd2|]. intros a3 Hg3 Hd3. apply Hk; replace (m + S c) with (S m + c) by lia; assumption.
      Qed.
    End Rank.

    Lemma send_all_does x v : forall c i (k : P) rest,
      does k rest x -> does (send_all J step c i v k) (map (fun d => OSend d (TPs step) v) (seq i c) ++ rest) x.
    Proof. induction c as [|c IH]; intros i k rest H; cbn; [exact H|]. constructor. apply IH. exact H. Qed.

    Lemma flush_does x i (k : V -> P) rest : i <= K ->
      does (k (next_x' step X SIN i)) rest x ->
      does (flush' i step (fst (L i M)) k) (flat_map (ops_of i) flushing ++ rest) x.
    Proof.
      intros Hi Hk. rewrite ops_flushing by exact Hi. unfold flush. unfold next_x in Hk.
      destruct (flushes J flush_freq step); [|exact Hk]. destruct (Nat.eqb_spec i K) as [->|].
      - apply send_all_does. exact Hk.
      - constructor. exact Hk.
    Qed.

    Lemma apply_rank_does x i (k : V -> V -> P) rest : 0 < K -> K <= M -> i <= K ->
      does (k (next_x' step X SIN i) (next_sin' X SIN i)) rest x ->
      does (apply_rank' i step (X i) (SIN i) k) (flat_map (ops_of i) gstep ++ rest) x.
    Proof.
      intros HK HM Hi Hk. unfold gstep. rewrite flat_map_app, <- app_assoc. unfold apply_rank. destruct i as [|q].
      - cbn [Nat.eqb]. rewrite ops_exchange_0 by exact HK. apply (predict_does x M 0 (fun _ => X 0)).
        + intros j Hj. replace j with 0 by lia. reflexivity.
        + intros U' HU'. replace (U' M) with (fst (L 0 M)) by (symmetry; apply HU'; lia). apply (flush_does x 0); [lia|]. exact Hk.
      - cbn [Nat.eqb]. rewrite ops_exchange_S by lia. rewrite <- !app_assoc.
        assert (Hr : 1 <= S q <= K) by lia.
        apply (receive_stencil_does (S q) Hr); [lia| | |].
        + split; cbn; [|lia]. intros j Hj. replace j with 0 by lia. cbn. auto.
        + intros j Hj. replace j with 0 by lia. cbn. auto.
        + intros a1 Hg1 Hd1. apply (correct_stencil_does (S q) Hr); [lia|exact Hg1|exact Hd1|].
          intros a2 Hg2 Hd2. apply (pipeline_does (S q) Hr); [lia|exact Hg2|exact Hd2|].
          intros a3 Hg3 Hd3. replace (S q + (M - S q)) with M in * by lia.
          destruct (Hd3 M ltac:(lia)) as [-> _]. apply (flush_does x (S q)); [lia|].
          destruct Hg3 as [_ Hs]. rewrite Hs by lia. replace (S M - 1) with M by lia.
          destruct (Nat.eqb_spec M 0); [lia|]. replace (S q - 1) with q by lia. exact Hk.
    Qed.
  End Step.

  (** ** N steps *)
  Fixpoint grun (N step : nat) (X SIN : nat -> V) : list (event V) :=
    match N with
    | O => []
    | S n => gstep step X SIN ++ grun n (S step) (next_x' step X SIN) (next_sin' X SIN)
    end.
  Lemma run_rank_does i : 0 < K -> K <= M -> i <= K -> forall N step X SIN out,
    does (run_rank' i N step (X i) (SIN i) (out i)) (flat_map (ops_of i) (grun N step X SIN)) (outputs' N step X SIN out i).
  Proof.
    intros HK HM Hi. induction N as [|N IH]; intros step X SIN out; cbn [run_rank grun outputs]; [constructor|].
    rewrite flat_map_app. apply apply_rank_does; [exact HK|exact HM|exact Hi|].
    exact (IH (S step) (next_x' step X SIN) (next_sin' X SIN) (fun i => out i ++ [next_x' step X SIN i])).
  Qed.
  Lemma grun_distinct N : forall step X SIN, Forall (fun e => e_src e <> e_dst e) (grun N step X SIN).
  Proof. induction N as [|N IH]; intros; cbn; [constructor|]. apply Forall_app. split; [apply gstep_distinct|apply IH]. Qed.
  Lemma grun_range N : forall step X SIN, Forall (fun e => e_src e < S K /\ e_dst e < S K) (grun N step X SIN).
  Proof. induction N as [|N IH]; intros; cbn; [constructor|]. apply Forall_app. split; [apply gstep_range|apply IH]. Qed.

  Theorem run_terminates N step X SIN : 0 < K -> K <= M ->
    terminates_with (S K) (fun r => run_rank' r N step (X r) (SIN r) []) (outputs' N step X SIN (fun _ => [])).
  Proof.
    intros HK HM. apply (global_sequence_terminates (S K) (grun N step X SIN)).
    - apply grun_distinct.
    - apply grun_range.
    - intros i Hi. apply (run_rank_does i HK HM ltac:(lia) N step X SIN (fun _ => [])).
  Qed.
End Facts.

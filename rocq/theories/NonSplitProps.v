(** Property C144: physics parametrisations that one scheme integrates together with the dynamics. *)
From Coq Require Import Lra.
From Verif Require Import Base Vec RKSpec RK RKFacts RKProps IMEXSpec IMEX IMEXFacts IMEXProps NonSplitSpec NonSplit.
Open Scope R_scope.

(** The tendency of a parametrisation: minus the residual of its terms, at what evaluate computes. *)
Definition tendency {I} (dt : R) (p : par I) : vec I -> vec I := fun x => (-1) *v p_form p (p_rate p dt x).
(** It has terms that are not part of the dynamics F. *)
Definition acts {I} (p : par I) : bool := match p_kind p with Writes _ | NoKeyword => true | _ => false end.
Definition writes {I} (p : par I) : bool := match p_kind p with Writes _ => true | _ => false end.
Definition own {I} (p : par I) : bool := match p_kind p with Writes OwnSource => true | _ => false end.
Definition of_state {I} (p : par I) : bool := match p_kind p with Writes StateX => true | _ => false end.
Definition accepted {I} (p : par I) : bool := match p_kind p with Writes _ | Inline => true | _ => false end.
Definition tendencies {I} (dt : R) (ps : list (par I)) : list (vec I -> vec I) := map (tendency dt) (filter acts ps).

(** The last parametrisation of the list that writes x_out. *)
Fixpoint last_writer {I} (ps : list (par I)) : option (par I) :=
  match ps with
  | [] => None
  | p :: ps => match last_writer ps with Some q => Some q | None => if writes p then Some p else None end
  end.

Section Facts.
  Context {I : Type}.
  Implicit Types (p q : par I) (x : vec I) (st : sources I).

  Lemma upd_same {X} (f : nat -> X) n v : upd f n v n = v.
  Proof. unfold upd. rewrite Nat.eqb_refl. reflexivity. Qed.
  Lemma upd_other {X} (f : nat -> X) n v m : m <> n -> upd f n v m = f m.
  Proof. intros H. unfold upd. destruct (Nat.eqb_spec m n); congruence. Qed.

  Lemma evaluate_all_accepts : forall ps k x dt i st, forallb accepted ps = true ->
    exists st', evaluate_all ps k x dt (Some i) st = Ok st' /\
      (forall j, j <> i -> snd st' j = snd st j) /\
      snd st' i = match last_writer ps with Some q => p_rate q dt x | None => snd st i end /\
      (forall m, (m < k)%nat -> fst st' m = fst st m) /\
      (forall n p, nth_error ps n = Some p -> writes p = true -> fst st' (k + n)%nat = p_rate p dt x).
  Proof.
    induction ps as [|p ps IH]; intros k x dt i st H.
    - exists st. repeat split; try reflexivity. intros n p E. destruct n; discriminate.
    - cbn [forallb] in H. apply andb_prop in H as [Hp H]. cbn [evaluate_all last_writer].
      assert (C : exists st1, evaluate p k x dt (Some i) st = Ok st1 /\
        (forall j, j <> i -> snd st1 j = snd st j) /\
        snd st1 i = (if writes p then p_rate p dt x else snd st i) /\
        (forall m, m <> k -> fst st1 m = fst st m) /\
        (writes p = true -> fst st1 k = p_rate p dt x)).
      { unfold evaluate, writes, accepted in *. destruct (p_kind p); try discriminate; eexists; cbn; (split; [reflexivity|]); cbn.
        - repeat split; intros; try (apply upd_other; assumption); apply upd_same.
        - repeat split; auto; discriminate. }
      destruct C as (st1 & E1 & J1 & I1 & M1 & W1). rewrite E1. cbn [bind].
      destruct (IH (S k) x dt i st1 H) as (st' & E & J & Hi & M & W).
      exists st'. split; [exact E|]. split; [intros j Hj; rewrite J, J1 by assumption; reflexivity|].
      split; [rewrite Hi; destruct (last_writer ps); [reflexivity|]; rewrite I1; destruct (writes p); reflexivity|].
      split; [intros m Hm; rewrite M by lia; apply M1; lia|].
      intros [|n] q Hn Hq; cbn in Hn.
      + injection Hn as <-. rewrite Nat.add_0_r, M by lia. exact (W1 Hq).
      + replace (k + S n)%nat with (S k + n)%nat by lia. exact (W n q Hn Hq).
  Qed.

  Lemma own_writes p : own p = true -> writes p = true.
  Proof. unfold own, writes. destruct (p_kind p); congruence. Qed.
  Lemma state_writes p : of_state p = true -> writes p = true.
  Proof. unfold of_state, writes. destruct (p_kind p); congruence. Qed.
  Lemma last_writer_none : forall ps, last_writer ps = None -> forall p, In p ps -> writes p = false.
  Proof.
    induction ps as [|p ps IH]; cbn; [tauto|]. destruct (last_writer ps); [discriminate|].
    destruct (writes p) eqn:E; [discriminate|]. intros _ q [<-|H]; [exact E|exact (IH eq_refl q H)].
  Qed.

  (** What the terms with source_label contribute, when those of stage i were evaluated at xi and the
      last evaluation was at xm. *)
  Definition seen1 (dt : R) (ps : list (par I)) (xi xm : vec I) (p : par I) : vec I :=
    match p_kind p with
    | Writes OwnSource => match last_writer ps with Some q => p_form p (p_rate q dt xi) | None => vzero end
    | Writes StateX => p_form p (p_rate p dt xm)
    | _ => vzero
    end.
  Definition seen (dt : R) (ps : list (par I)) (xi xm : vec I) : vec I := lsum (map (seen1 dt ps xi xm) ps).

  Lemma replaced_all_seen (dt : R) (ps : list (par I)) (i : nat) xi xm st :
    (match last_writer ps with Some q => snd st i = p_rate q dt xi | None => True end) ->
    (forall n p, nth_error ps n = Some p -> writes p = true -> fst st n = p_rate p dt xm) ->
    replaced_all ps 0 i st = seen dt ps xi xm.
  Proof.
    intros HW HH. unfold seen.
    assert (G : forall l k, (forall n p, nth_error l n = Some p -> nth_error ps (k + n) = Some p) ->
      replaced_all l k i st = lsum (map (seen1 dt ps xi xm) l)).
    { induction l as [|p l IH]; intros k Hl; [reflexivity|]. cbn [replaced_all map lsum fold_right].
      rewrite (IH (S k)).
      2: { intros n q Hn. replace (S k + n)%nat with (k + S n)%nat by lia. apply Hl. exact Hn. }
      unfold lsum. f_equal. pose proof (Hl 0%nat p eq_refl) as Hp. rewrite Nat.add_0_r in Hp.
      unfold replaced, seen1. destruct (p_kind p) as [[]| | |] eqn:Ek; try reflexivity.
      - destruct (last_writer ps) as [q|] eqn:El; [rewrite HW; reflexivity|].
        exfalso. pose proof (last_writer_none ps El p (nth_error_In _ _ Hp)) as B. unfold writes in B. rewrite Ek in B. discriminate.
      - rewrite (HH k p Hp); [reflexivity|]. unfold writes. rewrite Ek. reflexivity. }
    apply (G ps 0%nat). intros n p H. exact H.
  Qed.

  Lemma stage_fold (a : nat -> R) (dt : R) (G : nat -> vec I) : forall n k x,
    fold_left (fun y i => y +v (a i * dt) *v G i) (seq k n) x = x +v dt *v vsum n (fun i => a (k + i)%nat *v G (k + i)%nat).
  Proof.
    induction n as [|n IH]; intros k x; [cbn; vring|].
    rewrite seq_S, fold_left_app, IH. cbn [fold_left vsum]. vring.
  Qed.
End Facts.

(** A run of the predictor formulation, in terms of the states of the stages alone: T i m x is the tendency that
    the residual of stage m sees for stage i. *)
Definition stage_run {I} (A : nat -> nat -> R) (s : nat) (dt : R) (G : vec I -> vec I -> vec I) (x y : vec I) : Prop :=
  exists X : nat -> vec I, X 0%nat = x /\
    (forall m, (m < s)%nat -> X (S m) = x +v dt *v vsum (S m) (fun i => A m i *v G (X i) (X m))) /\ y = X s.

Section Predictor.
  Context {I : Type}.
  Variables (A : nat -> nat -> R) (s : nat) (dt : R) (F : vec I -> vec I) (ps : list (par I)).

  Let G (xi xm : vec I) : vec I := F xi -v seen dt ps xi xm.

  Definition inv (x0 : vec I) (n : nat) (st : ns_state I) : Prop :=
    ((0 < n)%nat -> ns_f st 0%nat = x0) /\
    (forall m, (m < n)%nat -> ns_f st (S m) = x0 +v dt *v vsum (S m) (fun i => A m i *v G (ns_f st i) (ns_f st m))) /\
    (forall i q, (i < n)%nat -> last_writer ps = Some q -> snd (ns_src st) i = p_rate q dt (ns_f st i)) /\
    ((0 < n)%nat -> n = s -> ns_x1 st = ns_f st s).

  Lemma predictor_stage_inv : forall x0 n st, forallb accepted ps = true -> (n < s)%nat -> inv x0 n st ->
    exists st', ns_predictor_stage A s dt F ps x0 st n = Ok st' /\ inv x0 (S n) st'.
  Proof.
    intros x0 n st Hps Hn (H0 & HF & HS & _). unfold ns_predictor_stage.
    set (fi := if Nat.eqb n 0 then upd (ns_f st) 0 x0 else ns_f st).
    assert (F0 : fi 0%nat = x0).
    { unfold fi. destruct (Nat.eqb_spec n 0); [apply upd_same|apply H0; lia]. }
    assert (FN : forall m, (0 < n)%nat -> fi m = ns_f st m).
    { intros m Hm. unfold fi. destruct (Nat.eqb_spec n 0); [lia|reflexivity]. }
    destruct (evaluate_all_accepts ps 0 (fi n) dt n (ns_src st) Hps) as (src & E & J & Hi & _ & W).
    rewrite E. cbn [bind].
    rewrite (stage_fold (A n) dt (fun i => F (fi i) -v replaced_all ps 0 i src)). cbn [Nat.add].
    eexists. split; [reflexivity|].
    assert (SRC : forall i, (i <= n)%nat ->
       match last_writer ps with Some q => snd src i = p_rate q dt (fi i) | None => True end).
    { intros i Hin. destruct (last_writer ps) as [q|] eqn:El; [|exact Logic.I].
      destruct (Nat.eq_dec i n) as [->|Hne]; [exact Hi|]. rewrite J by exact Hne.
      rewrite FN by lia. apply (HS i q); [lia|reflexivity]. }
    assert (RD : forall i, (i <= n)%nat -> replaced_all ps 0 i src = seen dt ps (fi i) (fi n)).
    { intros i Hin. apply replaced_all_seen; [apply SRC; exact Hin|exact W]. }
    assert (SUM : vsum (S n) (fun i => A n i *v (F (fi i) -v replaced_all ps 0 i src))
      = vsum (S n) (fun i => A n i *v G (fi i) (fi n))).
    { apply vsum_ext. intros i Hin. unfold G. rewrite RD by lia. reflexivity. }
    rewrite SUM, F0. clear SUM.
    set (new := x0 +v dt *v vsum (S n) (fun i => A n i *v G (fi i) (fi n))).
    assert (LOW : forall i, (i <= n)%nat -> upd fi (S n) new i = fi i) by (intros i Hin; apply upd_other; lia).
    split; [|split; [|split]]; cbn [ns_f ns_src ns_x1].
    - intros _. rewrite LOW by lia. exact F0.
    - intros m Hm. destruct (Nat.eq_dec m n) as [->|Hne].
      + rewrite upd_same. unfold new at 1. f_equal. f_equal. apply vsum_ext. intros i Hin.
        rewrite (LOW i), (LOW n) by lia. reflexivity.
      + rewrite LOW by lia. rewrite FN by lia. rewrite (HF m) by lia. f_equal. f_equal. apply vsum_ext. intros i Hin.
        rewrite (LOW i), (LOW m), !FN by lia. reflexivity.
    - intros i q Hin El. rewrite LOW by lia. pose proof (SRC i ltac:(lia)) as B. rewrite El in B. exact B.
    - intros _ Es. destruct (Nat.eqb_spec n (s - 1)); [|lia]. rewrite <- Es. symmetry. apply upd_same.
  Qed.

  Lemma predictor_run : forall x0 st, forallb accepted ps = true -> (0 < s)%nat ->
    exists st', ns_predictor_cycle A s dt F ps x0 st = Ok st' /\ stage_run A s dt G x0 (ns_x1 st').
  Proof.
    intros x0 st Hps Hs. unfold ns_predictor_cycle.
    assert (L : forall n k st, (k + n = s)%nat -> inv x0 k st ->
      exists st', stages_from (ns_predictor_stage A s dt F ps x0) n k st = Ok st' /\ inv x0 s st').
    { induction n as [|n IH]; intros k st0 Hk Hst.
      - exists st0. split; [reflexivity|]. replace s with k by lia. exact Hst.
      - cbn [stages_from]. destruct (predictor_stage_inv x0 k st0 Hps ltac:(lia) Hst) as (st1 & E1 & H1).
        rewrite E1. cbn [bind]. apply (IH (S k) st1); [lia|exact H1]. }
    destruct (L s 0%nat st) as (st' & E & H0 & HF & _ & HX); [lia| |].
    { split; [|split; [|split]]; intros; lia. }
    exists st'. split; [exact E|]. exists (ns_f st'). split; [apply H0; lia|]. split; [exact HF|]. apply HX; [lia|reflexivity].
  Qed.
End Predictor.

(** C144, what the predictor formulation computes, for every list of accepted parametrisations, in every order:
    the terms whose subject is their own source read the source of the last parametrisation of the list, the
    others read their own source at the latest stage. *)
Theorem nonsplit_predictor_value : forall (I : Type) A s dt (F : vec I -> vec I) ps x st,
  forallb accepted ps = true -> (0 < s)%nat ->
  exists st', ns_predictor_cycle A s dt F ps x st = Ok st' /\
    stage_run A s dt (fun xi xm => F xi -v seen dt ps xi xm) x (ns_x1 st').
Proof. intros I A s dt F ps x st Hps Hs. exact (predictor_run A s dt F ps x st Hps Hs). Qed.
Print Assumptions nonsplit_predictor_value.

Lemma stage_run_erk {I} A s dt (G : vec I -> vec I) x y : (0 < s)%nat ->
  stage_run A s dt (fun xi _ => G xi) x y -> erk_step A s G dt x y.
Proof.
  intros Hs (X & H0 & H & ->). exists (fun i => G (X i)). split.
  - intros [|m] Hm; cbn [a_coef vsum].
    + f_equal. rewrite H0. vring.
    + f_equal. rewrite H by lia. reflexivity.
  - destruct s as [|m]; [lia|]. rewrite (H m) by lia. unfold b_coef. rewrite Nat.sub_succ, Nat.sub_0_r. reflexivity.
Qed.

Lemma stage_run_ext {I} A s dt (G G' : vec I -> vec I -> vec I) x y : (forall u v, G u v = G' u v) ->
  stage_run A s dt G x y -> stage_run A s dt G' x y.
Proof.
  intros E (X & H0 & H & Hy). exists X. split; [exact H0|]. split; [|exact Hy].
  intros m Hm. rewrite H by exact Hm. f_equal. f_equal. apply vsum_ext. intros i _. rewrite E. reflexivity.
Qed.

Lemma lsum_app {I} (l r : list (vec I)) : lsum (l ++ r) = lsum l +v lsum r.
Proof. unfold lsum. induction l as [|a l IH]; cbn [app fold_right]; [vring|]. rewrite IH. vring. Qed.
Lemma lsum_zero {I} (l : list (vec I)) : (forall v, In v l -> v = vzero) -> lsum l = vzero.
Proof.
  unfold lsum. induction l as [|a l IH]; cbn [fold_right]; intros H; [reflexivity|]. rewrite (H a (or_introl eq_refl)).
  rewrite IH; [vring|]. intros v Hv. apply H. right; exact Hv.
Qed.

(** C144.  One parametrisation with source terms, evaluated last: its tendency is added to the dynamics, as in
    the textbook step, for every scheme, state and contents of the stored functions. *)
Theorem nonsplit_single_partial : forall (I : Type) A s dt (F : vec I -> vec I) l1 p l2 x st,
  p_kind p = Writes OwnSource ->
  (forall q, In q (l1 ++ l2) -> p_kind q = Inline) -> (0 < s)%nat ->
  exists st', ns_predictor_cycle A s dt F (l1 ++ p :: l2) x st = Ok st' /\
    erk_step A s (with_physics F (tendencies dt (l1 ++ p :: l2))) dt x (ns_x1 st').
Proof.
  intros I A s dt F l1 p l2 x st Hp Hq Hs.
  assert (HA : forallb accepted (l1 ++ p :: l2) = true).
  { apply forallb_forall. intros q Hin. unfold accepted. apply in_app_iff in Hin. destruct Hin as [Hin|[<-|Hin]].
    - rewrite (Hq q); [reflexivity|]. apply in_or_app; auto.
    - rewrite Hp; reflexivity.
    - rewrite (Hq q); [reflexivity|]. apply in_or_app; auto. }
  destruct (nonsplit_predictor_value I A s dt F _ x st HA Hs) as (st' & E & H).
  exists st'. split; [exact E|]. apply stage_run_erk; [exact Hs|]. revert H. apply stage_run_ext. intros u v.
  assert (LN : forall l : list (par I), (forall q, In q l -> p_kind q = Inline) -> last_writer l = None).
  { induction l as [|q l IH]; intros Hl; [reflexivity|]. cbn. rewrite IH by (intros; apply Hl; right; assumption).
    unfold writes. rewrite (Hl q (or_introl eq_refl)). reflexivity. }
  assert (LW : last_writer (l1 ++ p :: l2) = Some p).
  { clear -LN Hp Hq. revert Hq. induction l1 as [|q l IH]; intros Hq; cbn.
    - rewrite LN by (intros; apply Hq; assumption). unfold writes. rewrite Hp. reflexivity.
    - rewrite IH; [reflexivity|]. intros r Hr. apply Hq. right. exact Hr. }
  assert (FI : forall l : list (par I), (forall q, In q l -> p_kind q = Inline) -> filter acts l = []).
  { induction l as [|q l IH]; intros Hl; [reflexivity|]. cbn. unfold acts at 1. rewrite (Hl q (or_introl eq_refl)).
    apply IH. intros; apply Hl; right; assumption. }
  assert (Z : forall l : list (par I), (forall q, In q l -> p_kind q = Inline) -> lsum (map (seen1 dt (l1 ++ p :: l2) u v) l) = vzero).
  { intros l Hl. apply lsum_zero. intros w Hw. apply in_map_iff in Hw as (q & <- & Hin). unfold seen1. rewrite (Hl q Hin). reflexivity. }
  unfold with_physics, tendencies, seen. rewrite filter_app, map_app, lsum_app. cbn [filter map].
  rewrite (FI l1), (Z l1) by (intros; apply Hq; apply in_or_app; auto).
  unfold acts at 1. rewrite Hp. rewrite (FI l2) by (intros; apply Hq; apply in_or_app; auto). cbn [app map].
  change (lsum (seen1 dt (l1 ++ p :: l2) u v p :: map (seen1 dt (l1 ++ p :: l2) u v) l2))
    with (seen1 dt (l1 ++ p :: l2) u v p +v lsum (map (seen1 dt (l1 ++ p :: l2) u v) l2)).
  rewrite (Z l2) by (intros; apply Hq; apply in_or_app; auto).
  unfold seen1. rewrite Hp, LW. cbn. unfold tendency. vring.
Qed.
Print Assumptions nonsplit_single_partial.

(** C144.  With one stage the parametrisations that keep the state as subject add up too, however many there are,
    if no source has another parametrisation's source in its place. *)
Theorem nonsplit_one_stage_partial : forall (I : Type) (a dt : R) (F : vec I -> vec I) ps x st,
  (forall p, In p ps -> p_kind p = Writes StateX \/ p_kind p = Inline) ->
  exists st', ns_predictor_cycle (fun _ _ => a) 1 dt F ps x st = Ok st' /\
    erk_step (fun _ _ => a) 1 (with_physics F (tendencies dt ps)) dt x (ns_x1 st').
Proof.
  intros I a dt F ps x st HP.
  assert (HA : forallb accepted ps = true).
  { apply forallb_forall. intros q Hin. unfold accepted. destruct (HP q Hin) as [-> | ->]; reflexivity. }
  destruct (nonsplit_predictor_value I (fun _ _ => a) 1 dt F ps x st HA ltac:(lia)) as (st' & E & X & H0 & H & Hy).
  exists st'. split; [exact E|]. exists (fun _ => with_physics F (tendencies dt ps) x). split.
  - intros i Hi. assert (i = 0%nat) as -> by lia. cbn. f_equal. vring.
  - rewrite Hy, (H 0%nat) by lia. cbn [vsum].
    assert (Q : F x -v seen dt ps x x = with_physics F (tendencies dt ps) x).
    { unfold with_physics, seen, tendencies.
      assert (L : lsum (map (fun T => T x) (map (tendency dt) (filter acts ps))) = (-1) *v lsum (map (seen1 dt ps x x) ps)).
      { assert (Hk : forall p, In p ps -> seen1 dt ps x x p = match p_kind p with Writes _ => p_form p (p_rate p dt x) | _ => vzero end).
        { intros p Hin. unfold seen1. destruct (HP p Hin) as [-> | ->]; reflexivity. }
        revert Hk. generalize (seen1 dt ps x x). intros f Hk.
        clear E H HA. revert HP Hk. induction ps as [|p l IH]; intros HP Hk; [cbn; vring|].
        cbn [filter map]. change (lsum (f p :: map f l)) with (f p +v lsum (map f l)).
        assert (IHl := IH (fun q Hq => HP q (or_intror Hq)) (fun q Hq => Hk q (or_intror Hq))).
        pose proof (Hk p (or_introl eq_refl)) as Ep. unfold acts at 1.
        destruct (HP p (or_introl eq_refl)) as [K|K]; rewrite K in *; cbn [map].
        - change (lsum (tendency dt p x :: ?r)) with (tendency dt p x +v lsum r).
          unfold lsum in *. cbn [fold_right]. rewrite IHl, Ep. unfold tendency. vring.
        - rewrite IHl, Ep. vring. }
      rewrite L. vring. }
    cbv beta. rewrite H0, Q. unfold b_coef. vring.
Qed.
Print Assumptions nonsplit_one_stage_partial.

(** ** The increment formulation *)
Section Increment.
  Context {I : Type}.
  Variables (A : nat -> nat -> R) (s : nat) (dt : R) (F : vec I -> vec I) (ps : list (par I)).

  Lemma evaluate_all_quiet : forall l k x (st : sources I),
    exists st', evaluate_all l k x dt None st = Ok st' /\ (forall m, (m < k)%nat -> fst st' m = fst st m) /\
      (forall n p, nth_error l n = Some p -> acts p = true -> fst st' (k + n)%nat = p_rate p dt x).
  Proof.
    induction l as [|p l IH]; intros k x st.
    - exists st. repeat split. intros [|n]; discriminate.
    - cbn [evaluate_all].
      assert (C : exists st1, evaluate p k x dt None st = Ok st1 /\ (forall m, m <> k -> fst st1 m = fst st m) /\
        (acts p = true -> fst st1 k = p_rate p dt x)).
      { unfold evaluate, acts. destruct (p_kind p); eexists; (split; [reflexivity|]); cbn; split;
          try (intros; apply upd_same); try (intros; apply upd_other; assumption); try reflexivity; discriminate. }
      destruct C as (st1 & E1 & M1 & W1). rewrite E1. cbn [bind].
      destruct (IH (S k) x st1) as (st' & E & M & W). exists st'. split; [exact E|].
      split; [intros m Hm; rewrite M, M1 by lia; reflexivity|].
      intros [|n] q Hn Hq; cbn in Hn.
      + injection Hn as <-. rewrite Nat.add_0_r, M by lia. exact (W1 Hq).
      + replace (k + S n)%nat with (S k + n)%nat by lia. exact (W n q Hn Hq).
  Qed.

  Lemma kept_all_sum : forall x st,
    (forall n p, nth_error ps n = Some p -> acts p = true -> fst st n = p_rate p dt x) ->
    F x -v kept_all ps 0 st = with_physics F (tendencies dt ps) x.
  Proof.
    intros x st H. unfold with_physics, tendencies.
    assert (G : forall l k, (forall n p, nth_error l n = Some p -> nth_error ps (k + n) = Some p) ->
      kept_all l k st = (-1) *v lsum (map (fun T => T x) (map (tendency dt) (filter acts l)))).
    { induction l as [|p l IH]; intros k Hl; [cbn; vring|]. cbn [kept_all filter].
      rewrite (IH (S k)).
      2: { intros n q Hn. replace (S k + n)%nat with (k + S n)%nat by lia. apply Hl. exact Hn. }
      pose proof (Hl 0%nat p eq_refl) as Hp. rewrite Nat.add_0_r in Hp.
      unfold kept. destruct (acts p) eqn:Ea; pose proof Ea as Ek; unfold acts in Ek; destruct (p_kind p); try discriminate; try vring.
      all: rewrite (H k p Hp Ea); cbn [map]; unfold lsum; cbn [fold_right]; unfold tendency; vring. }
    rewrite (G ps 0%nat) by (intros n p Hn; exact Hn). vring.
  Qed.

  Let T := with_physics F (tendencies dt ps).

  Definition kinv (x0 : vec I) (n : nat) (st : ns_state I) : Prop :=
    (forall i, (i < n)%nat -> ns_f st i = T (x0 +v dt *v vsum i (fun j => a_coef A i j *v ns_f st j))) /\
    ((0 < n)%nat -> n = s -> ns_x1 st = x0 +v dt *v vsum s (fun j => b_coef A s j *v ns_f st j)).

  Lemma swap_fold (a : nat -> R) (k : nat -> vec I) n x :
    fold_left (fun y i => y +v (dt * a i) *v k i) (seq 0 n) x = x +v dt *v vsum n (fun i => a i *v k i).
  Proof.
    etransitivity; [|exact (stage_fold a dt k n 0 x)].
    assert (E : (fun (y : vec I) i => y +v (dt * a i) *v k i) = (fun y i => y +v (a i * dt) *v k i)).
    { apply functional_extensionality; intros y. apply functional_extensionality; intros i. vring. }
    rewrite E. reflexivity.
  Qed.

  Lemma increment_stage_inv : forall x0 n st, (n < s)%nat -> kinv x0 n st ->
    exists st', ns_increment_stage A s dt F ps x0 st n = Ok st' /\ kinv x0 (S n) st'.
  Proof.
    intros x0 n st Hn (HK & _). unfold ns_increment_stage.
    rewrite (swap_fold (A (n - 1)) (ns_f st) n x0).
    set (x1 := x0 +v dt *v vsum n (fun i => A (n - 1)%nat i *v ns_f st i)).
    destruct (evaluate_all_quiet ps 0 x1 (ns_src st)) as (src & E & _ & W). rewrite E. cbn [bind].
    rewrite (kept_all_sum x1 src) by exact W. fold T.
    eexists. split; [reflexivity|].
    assert (X1 : x1 = x0 +v dt *v vsum n (fun j => a_coef A n j *v ns_f st j)).
    { unfold x1. destruct n as [|m]; [reflexivity|]. rewrite Nat.sub_succ, Nat.sub_0_r. reflexivity. }
    assert (LOW : forall i, (i < n)%nat -> upd (ns_f st) n (T x1) i = ns_f st i) by (intros i Hi; apply upd_other; lia).
    split; cbn [ns_f ns_x1].
    - intros i Hi. destruct (Nat.eq_dec i n) as [->|Hne].
      + rewrite upd_same. f_equal. rewrite X1 at 1. f_equal. f_equal. apply vsum_ext. intros j Hj. rewrite LOW by exact Hj. reflexivity.
      + rewrite LOW by lia. rewrite (HK i) at 1 by lia. f_equal. f_equal. f_equal. apply vsum_ext. intros j Hj. rewrite LOW by lia. reflexivity.
    - intros _ Es. destruct (Nat.eqb_spec n (s - 1)); [|lia]. rewrite swap_fold. unfold b_coef. rewrite <- e. reflexivity.
  Qed.

  Lemma increment_run : forall x0 st, (0 < s)%nat ->
    exists st', ns_increment_cycle A s dt F ps x0 st = Ok st' /\ erk_step A s T dt x0 (ns_x1 st').
  Proof.
    intros x0 st Hs. unfold ns_increment_cycle.
    assert (L : forall n k st, (k + n = s)%nat -> kinv x0 k st ->
      exists st', stages_from (ns_increment_stage A s dt F ps x0) n k st = Ok st' /\ kinv x0 s st').
    { induction n as [|n IH]; intros k st0 Hk Hst.
      - exists st0. split; [reflexivity|]. replace s with k by lia. exact Hst.
      - cbn [stages_from]. destruct (increment_stage_inv x0 k st0 ltac:(lia) Hst) as (st1 & E1 & H1).
        rewrite E1. cbn [bind]. apply (IH (S k) st1); [lia|exact H1]. }
    destruct (L s 0%nat st) as (st' & E & HK & HX); [lia| |].
    { split; intros; lia. }
    exists st'. split; [exact E|]. exists (ns_f st'). split; [exact HK|]. apply HX; [lia|reflexivity].
  Qed.
End Increment.

(** C144.  Increment formulation: the tendencies of all parametrisations are added, for every list, every scheme,
    state and contents of the stored functions; nothing is refused. *)
Theorem nonsplit_increment_adds : forall (I : Type) A s dt (F : vec I -> vec I) ps x st, (0 < s)%nat ->
  exists st', ns_increment_cycle A s dt F ps x st = Ok st' /\
    erk_step A s (with_physics F (tendencies dt ps)) dt x (ns_x1 st').
Proof. intros I A s dt F ps x st Hs. exact (increment_run A s dt F ps x st Hs). Qed.
Print Assumptions nonsplit_increment_adds.

(** C144.  Which lists the predictor formulation (and IMEX, deferred correction: evaluate with x_out) accepts. *)
Theorem nonsplit_predictor_accepts : forall (I : Type) A s dt (F : vec I -> vec I) ps x st, (0 < s)%nat ->
  ((exists st', ns_predictor_cycle A s dt F ps x st = Ok st') <->
   forall p, In p ps -> p_kind p <> Refuses /\ p_kind p <> NoKeyword).
Proof.
  intros I A s dt F ps x st Hs.
  assert (EQ : (forall p, In p ps -> p_kind p <> Refuses /\ p_kind p <> NoKeyword) <-> forallb accepted ps = true).
  { rewrite forallb_forall. split; intros H p Hp; specialize (H p Hp); unfold accepted in *.
    - destruct H as [H1 H2]. destruct (p_kind p); try reflexivity; congruence.
    - destruct (p_kind p); try discriminate; split; congruence. }
  rewrite EQ. split.
  - intros [st' E]. destruct s as [|n]; [lia|]. unfold ns_predictor_cycle in E. cbn [stages_from] in E.
    apply bind_ok in E as (st1 & E & _). unfold ns_predictor_stage in E. apply bind_ok in E as (src & E & _).
    cbn [Nat.eqb] in E.
    assert (L : forall (l : list (par I)) k y j so so', evaluate_all l k y dt (Some j) so = Ok so' -> forallb accepted l = true).
    2: { exact (L _ _ _ _ _ _ E). }
    clear. induction l as [|p l IH]; intros k y j so so' E; [reflexivity|]. cbn [evaluate_all forallb] in *.
    apply bind_ok in E as (st1 & E1 & E). rewrite (IH _ _ _ _ _ E), andb_true_r.
    unfold evaluate, accepted in *. destruct (p_kind p); try discriminate; reflexivity.
  - intros H. destruct (nonsplit_predictor_value I A s dt F ps x st H Hs) as (st' & E & _). exists st'. exact E.
Qed.
Print Assumptions nonsplit_predictor_accepts.

(** C144.  Whose source acts: when the last parametrisation that writes has nothing in the fields the others read,
    the others have no effect at all - the step is the one with the last parametrisation alone. *)
Theorem only_last_parametrisation_acts : forall (I : Type) A s dt (F : vec I -> vec I) ps q x st st2,
  (forall p, In p ps -> p_kind p = Writes OwnSource) ->
  p_kind q = Writes OwnSource ->
  (forall p y, In p ps -> p_form p (p_rate q dt y) = vzero) -> (0 < s)%nat ->
  exists st' st2', ns_predictor_cycle A s dt F (ps ++ [q]) x st = Ok st' /\
    ns_predictor_cycle A s dt F [q] x st2 = Ok st2' /\ ns_x1 st' = ns_x1 st2'.
Proof.
  intros I A s dt F ps q x st st2 HP Hq HZ Hs.
  assert (HA : forallb accepted (ps ++ [q]) = true).
  { apply forallb_forall. intros p Hp. unfold accepted. apply in_app_iff in Hp. destruct Hp as [Hp|[<-|[]]].
    - rewrite (HP p Hp); reflexivity.
    - rewrite Hq; reflexivity. }
  destruct (nonsplit_predictor_value I A s dt F _ x st HA Hs) as (st' & E & H).
  assert (HA2 : forallb accepted [q] = true) by (cbn; unfold accepted; rewrite Hq; reflexivity).
  destruct (nonsplit_predictor_value I A s dt F _ x st2 HA2 Hs) as (st2' & E2 & H2).
  exists st', st2'. split; [exact E|]. split; [exact E2|].
  set (G := fun u : vec I => F u -v p_form q (p_rate q dt u)).
  assert (LW : last_writer (ps ++ [q]) = Some q).
  { clear -Hq. induction ps as [|p l IH]; cbn; [unfold writes; rewrite Hq; reflexivity|rewrite IH; reflexivity]. }
  assert (S1 : forall u v, F u -v seen dt (ps ++ [q]) u v = G u).
  { intros u v. unfold seen. rewrite map_app, lsum_app. rewrite lsum_zero.
    - unfold lsum, seen1. cbn. rewrite Hq. unfold seen1 in *. rewrite LW. unfold G. vring.
    - intros w Hw. apply in_map_iff in Hw as (p & <- & Hp). unfold seen1. rewrite (HP p Hp), LW. apply HZ. exact Hp. }
  assert (S2 : forall u v, F u -v seen dt [q] u v = G u).
  { intros u v. unfold seen, lsum, seen1. cbn. unfold writes. rewrite Hq. unfold G. vring. }
  apply (erk_step_unique A s G dt x).
  - apply stage_run_erk; [exact Hs|]. revert H. apply stage_run_ext. exact S1.
  - apply stage_run_erk; [exact Hs|]. revert H2. apply stage_run_ext. exact S2.
Qed.
Print Assumptions only_last_parametrisation_acts.

(** ** IMEX: the sources are written and read in the same way (imex_runge_kutta.py l.175-183, 270-281) *)

(** The source terms of IMEX.v for this list: Ns and ev of imex_apply. *)
Definition own_forms {I} (ps : list (par I)) (v : vec I) : vec I := lsum (map (fun p => p_form p v) ps).
Definition last_rate {I} (dt : R) (ps : list (par I)) (x : vec I) : vec I :=
  match last_writer ps with Some q => p_rate q dt x | None => vzero end.

(** C144.  IMEX, one parametrisation: its tendency is treated explicitly, added to the explicit terms. *)
Theorem nonsplit_imex_single_partial : forall (I : Type) A D s dt (Ni Ne : vec I -> vec I) p st y y1,
  p_kind p = Writes OwnSource -> (0 < s)%nat ->
  (imex_apply A D s dt Ni Ne (own_forms [p]) (last_rate dt [p]) no_limiter st y y1 <->
   imex_step A D (A s) (D s) s (fun v => vopp (Ni v)) (with_physics (fun v => vopp (Ne v)) (tendencies dt [p])) dt y y1).
Proof.
  intros I A D s dt Ni Ne p st y y1 Hp Hs. rewrite imex_is_textbook by exact Hs.
  assert (E : (fun v => vopp (Ne v +v own_forms [p] (last_rate dt [p] v)))
            = with_physics (fun v => vopp (Ne v)) (tendencies dt [p])).
  { apply functional_extensionality. intros v. unfold with_physics, tendencies, own_forms, last_rate, lsum.
    cbn. unfold writes, acts. rewrite Hp. cbn. unfold tendency. unfold vopp; vring. }
  rewrite E. reflexivity.
Qed.
Print Assumptions nonsplit_imex_single_partial.

(** ** Counterexamples: fields 0 and 1, both constant in space; one source in each *)

(** SourceSink: the field of variable number f with a constant rate r; the term is inner(test, source),
    physics_parametrisation.py l.115-117, so that the field decreases (C49). *)
Definition source_sink (f : nat) (r : R) : par nat :=
  mk_par (kind_of SourceSink) (fun _ _ j => if Nat.eqb j f then r else 0) (fun v j => if Nat.eqb j f then v j else 0).
Definition heun (i j : nat) : R := match i, j with 0%nat, 0%nat => 1 | 1%nat, _ => 1 / 2 | _, _ => 0 end.
Definition blank : ns_state nat := {| ns_f := fun _ => vzero; ns_src := (fun _ => vzero, fun _ => vzero); ns_x1 := vzero |}.

(** C144 fails.  Two sinks of rate one, in two different fields, no dynamics, one step of forward Euler with dt = 1: the first
    field does not change.  The increment formulation gives minus one in both. *)
Theorem nonsplit_first_lost_refuted :
  (exists st', ns_predictor_cycle (fun _ _ => 1) 1 1 (fun _ => vzero) [source_sink 0 1; source_sink 1 1] vzero blank = Ok st' /\
     ns_x1 st' 0%nat = 0 /\ ns_x1 st' 1%nat = -1) /\
  (exists st', ns_increment_cycle (fun _ _ => 1) 1 1 (fun _ => vzero) [source_sink 0 1; source_sink 1 1] vzero blank = Ok st' /\
     ns_x1 st' 0%nat = -1 /\ ns_x1 st' 1%nat = -1).
Proof. split; eexists; (split; [reflexivity|]); cbn; split; cbv; lra. Qed.
Print Assumptions nonsplit_first_lost_refuted.

(** C144 fails.  Two sources of rates one and two in the same field: the second is counted twice, the first not at all. *)
Theorem nonsplit_same_field_refuted :
  exists st', ns_predictor_cycle (fun _ _ => 1) 1 1 (fun _ => vzero) [source_sink 0 1; source_sink 0 2] vzero blank = Ok st' /\
     ns_x1 st' 0%nat = -4.
Proof. eexists; (split; [reflexivity|]); cbn. cbv; lra. Qed.
Print Assumptions nonsplit_same_field_refuted.

(** C144 fails.  Terms with the state as subject (SaturationAdjustment, the analytical terminator toy): with the two-stage
    Heun scheme and a tendency -x from x = 1, dt = 1, the result is 1 and not 1/2: both stages read the source at the second. *)
Definition decay (c : parametrisation) : par nat := mk_par (kind_of c) (fun _ x j => - x j) (fun v j => - v j).
Theorem nonsplit_state_subject_refuted : forall c, kind_of c = Writes StateX ->
  exists st', ns_predictor_cycle heun 2 1 (fun _ => vzero) [decay c] (fun _ => 1) blank = Ok st' /\
    ns_x1 st' 0%nat = 1 /\
    (forall y, erk_step heun 2 (with_physics (fun _ => vzero) (tendencies 1 [decay c])) 1 (fun _ => 1) y -> y 0%nat = 1 / 2).
Proof.
  intros c Hc. unfold decay. rewrite Hc. eexists; (split; [reflexivity|]).
  split; [cbv; lra|]. intros y (k & Hk & ->). cbn [vsum].
  pose proof (f_equal (fun v => v 0%nat) (Hk 0%nat ltac:(lia))) as H0. pose proof (f_equal (fun v => v 0%nat) (Hk 1%nat ltac:(lia))) as H1.
  cbn in H0, H1. unfold with_physics, tendencies, tendency, lsum, acts, vadd, vscal, vzero in H0, H1. cbn in H0, H1.
  unfold b_coef, vadd, vscal, vzero. cbn. lra.
Qed.
Print Assumptions nonsplit_state_subject_refuted.

(** C144 fails.  IMEX, two sources in two fields: the first is lost too (one implicit stage, A = 0, e = 1). *)
Theorem nonsplit_imex_two_refuted : forall st y1,
  imex_apply (fun _ _ => 0) (fun _ _ => 1) 1 1 (fun _ => vzero) (fun _ => vzero)
    (own_forms [source_sink 0 1; source_sink 1 1]) (last_rate 1 [source_sink 0 1; source_sink 1 1]) no_limiter st vzero y1 ->
  y1 0%nat = 0 /\ y1 1%nat = -1.
Proof.
  intros st y1 H. apply imex_is_textbook in H; [|lia]. destruct H as (Y & HY & ->). cbv. split; lra.
Qed.
Print Assumptions nonsplit_imex_two_refuted.

(** C144.  Of the parametrisations in the package, these cannot be integrated together with the dynamics by a predictor-form or
    IMEX scheme; only these read the wrong stage. *)
Theorem nonsplit_library : forall c,
  (kind_of c = NoKeyword <-> c = Relaxation \/ c = RayleighFriction) /\
  (kind_of c = Refuses <-> c = Fallout \/ c = StaticAdjustment \/ c = BoundaryLayerMixing) /\
  (kind_of c = Writes StateX <-> c = SaturationAdjustment \/ c = TerminatorToy true).
Proof.
  intros c; destruct c as [| | | | | | |[]|[]| | | |[]| |]; cbn; repeat split; intros H;
    repeat match goal with H : _ \/ _ |- _ => destruct H as [H|H] end; try discriminate; auto.
Qed.
Print Assumptions nonsplit_library.

(** C144 fails.  Held-Suarez forcing with such a scheme: an error at the first step, whatever else is there. *)
Theorem held_suarez_nonsplit_refuted : forall (I : Type) A dt (F : vec I -> vec I) c rate form ps s x st,
  c = Relaxation \/ c = RayleighFriction ->
  ns_predictor_cycle A (S s) dt F (mk_par (kind_of c) rate form :: ps) x st = Err TypeError.
Proof. intros I A dt F c rate form ps s x st [-> | ->]; reflexivity. Qed.
Print Assumptions held_suarez_nonsplit_refuted.

(** The hypotheses are met: one source with a wind drag without implicit formulation and with Heun's scheme. *)
Example nonsplit_hypotheses : let drag := mk_par (kind_of (WindDrag false)) (fun _ x => x) (fun x : vec nat => x) in
  p_kind (source_sink 0 1) = Writes OwnSource /\ (forall q, In q ([drag] ++ []) -> p_kind q = Inline) /\
  exists st', ns_predictor_cycle heun 2 1 (fun _ => vzero) ([drag] ++ source_sink 0 1 :: []) vzero blank = Ok st' /\ ns_x1 st' 0%nat = -1.
Proof.
  cbv zeta. split; [reflexivity|]. split; [intros q [<-|[]]; reflexivity|]. eexists; (split; [reflexivity|]). cbv. lra.
Qed.

(** Property C28: the split timestepper. *)
From Verif Require Import Base Split.
From Coq Require Import String Lqa.
Open Scope string_scope.
Open Scope Q_scope.

(** Specification: the sum of the weights of the entries selected by p. *)
Definition weight_of (p : string -> bool) (l : list (string * Q)) : Q :=
  fold_right (fun e acc => if p (fst e) then snd e + acc else acc) 0 l.

Lemma weight_sum_ok p : forall splitting ws, (List.length splitting <= List.length ws)%nat ->
  exists c, weight_sum p splitting ws = Ok c /\ c == weight_of p (combine splitting ws).
Proof.
  induction splitting as [|s ss IH]; intros ws H; cbn; [exists 0; split; reflexivity|].
  destruct ws as [|w ws]; [cbn in H; lia|]. cbn in H. destruct (IH ws) as (c & E & Hc); [lia|].
  rewrite E. unfold weight_of in *. cbn [combine fold_right fst snd].
  destruct (p s); eexists; (split; [reflexivity|]); rewrite Hc; reflexivity.
Qed.

Definition mem (x : string) (l : list string) : bool := existsb (String.eqb x) l.

(** C28.  Which configurations are accepted (weights, if given, at least as long as the
    splitting). *)
Theorem split_accepts_iff :
  forall splitting dynamics weights physics_schemes terms ws ps,
  (forall u, weights = Some u -> (List.length splitting <= List.length u)%nat) ->
  split_construct splitting dynamics weights physics_schemes terms = Ok (ws, ps) <->
  (* the weights in use: those given, otherwise ones *)
  ws = match weights with Some u => u | None => repeat 1 (List.length splitting) end /\
  (* the physics schemes: required and used only if the splitting names physics *)
  (if mem physics_name splitting then physics_schemes = Some ps else ps = []) /\
  (mem physics_name splitting = true -> weights <> None -> weight_of (String.eqb physics_name) (combine splitting ws) == 1) /\
  (forall q, In q ps -> explicit_only q = true -> is_explicit q = true) /\
  (* every other process has a scheme; all schemes have one time level *)
  (forall s, In s splitting -> s <> physics_name -> exists k, In (s, k) dynamics) /\
  (forall s k, In (s, k) dynamics -> k = 1%nat) /\
  (* the weights of every dynamics term add up to one *)
  (forall labels, In labels terms -> weight_of (fun s => mem s labels) (combine splitting ws) == 1).
Proof.
  intros splitting dynamics weights physics_schemes terms ws ps Hlen.
  unfold split_construct.
  set (W := match weights with Some u => u | None => repeat 1 (List.length splitting) end).
  assert (HW : (List.length splitting <= List.length W)%nat).
  { unfold W. destruct weights as [u|]; [apply Hlen; reflexivity|rewrite repeat_length; lia]. }
  (* physics part *)
  set (PH := if existsb (String.eqb physics_name) splitting then
       match physics_schemes with
       | None => Err ValueError
       | Some ps => match weights with None => Ok ps
           | Some ws => match weight_sum (String.eqb physics_name) splitting ws with
                        | Err e => Err e | Ok c => if Qeq_bool c 1 then Ok ps else Err ValueError end end
       end else Ok []).
  assert (HPH : forall q, PH = Ok q <->
      (if mem physics_name splitting then physics_schemes = Some q else q = []) /\
      (mem physics_name splitting = true -> weights <> None -> weight_of (String.eqb physics_name) (combine splitting W) == 1)).
  { intros q. unfold PH, mem. destruct (existsb (String.eqb physics_name) splitting) eqn:E.
    - destruct physics_schemes as [p|]; [|split; [discriminate|intros [H _]; discriminate]].
      destruct weights as [u|].
      + destruct (weight_sum_ok (String.eqb physics_name) splitting u HW) as (c & Ec & Hc). rewrite Ec.
        change W with u. destruct (Qeq_bool c 1) eqn:Eq.
        * apply Qeq_bool_eq in Eq. split.
          -- intros H; injection H as <-. split; [reflexivity|]. intros _ _. rewrite <- Hc; exact Eq.
          -- intros [H _]; injection H as <-; reflexivity.
        * split; [discriminate|]. intros [_ H]. exfalso.
          assert (c == 1) by (rewrite Hc; apply H; [reflexivity|discriminate]).
          apply Qeq_bool_neq in Eq. contradiction.
      + split; [intros H; injection H as <-; split; [reflexivity|intros _ H; exfalso; apply H; reflexivity]|].
        intros [H _]; injection H as <-; reflexivity.
    - split; [intros H; injection H as <-; split; [reflexivity|discriminate]|intros [-> _]; reflexivity]. }
  (* the check of the terms *)
  pose (chk := fun q => check_terms splitting W q).
  assert (HC : forall q ts r, chk q ts = Ok r <->
     r = (W, q) /\ forall labels, In labels ts -> weight_of (fun s => mem s labels) (combine splitting W) == 1).
  { intros q. unfold chk. induction ts as [|l ts IH]; intros r; cbn [check_terms].
    - split; [intros H; injection H as <-; split; [reflexivity|intros ? []]|intros [-> _]; reflexivity].
    - destruct (weight_sum_ok (fun s => existsb (String.eqb s) l) splitting W HW) as (c & Ec & Hc). rewrite Ec.
      destruct (Qeq_bool c 1) eqn:Eq.
      + apply Qeq_bool_eq in Eq. rewrite IH. split.
        * intros [-> H]; split; [reflexivity|]. intros m [<-|Hm]; [unfold mem; rewrite <- Hc; exact Eq|apply H; exact Hm].
        * intros [-> H]; split; [reflexivity|]. intros m Hm; apply H; right; exact Hm.
      + split; [discriminate|]. intros [_ H]. exfalso. apply Qeq_bool_neq in Eq. apply Eq. rewrite Hc. apply (H l); left; reflexivity. }
  clearbody PH. destruct PH as [q|e].
  - change (existsb (fun p => explicit_only p && negb (is_explicit p)) q) with (existsb (fun p => explicit_only p && negb (is_explicit p)) q).
    destruct (existsb (fun p => explicit_only p && negb (is_explicit p)) q) eqn:E1.
    { split; [discriminate|]. intros (-> & A & B & C & _). exfalso.
      apply existsb_exists in E1 as (x & Hx & Ex). apply Bool.andb_true_iff in Ex as [X1 X2].
      assert (q = ps) by (assert (G : @Ok (list phys) q = Ok ps) by (apply HPH; split; assumption); congruence).
      subst q. rewrite (C x Hx X1) in X2. discriminate. }
    destruct (existsb (fun s => negb (String.eqb s physics_name) && negb (existsb (fun d => String.eqb s (fst d)) dynamics)) splitting) eqn:E2.
    { split; [discriminate|]. intros (_ & _ & _ & _ & D & _). exfalso.
      apply existsb_exists in E2 as (x & Hx & Ex). apply Bool.andb_true_iff in Ex as [X1 X2].
      apply Bool.negb_true_iff in X1, X2. apply String.eqb_neq in X1. destruct (D x Hx X1) as [k Hk].
      assert (existsb (fun d => String.eqb x (fst d)) dynamics = true)
        by (apply existsb_exists; exists (x, k); split; [exact Hk|apply String.eqb_refl]). congruence. }
    destruct (existsb (fun d => negb (Nat.eqb (snd d) 1)) dynamics) eqn:E3.
    { split; [discriminate|]. intros (_ & _ & _ & _ & _ & D & _). exfalso.
      apply existsb_exists in E3 as ((s, k) & Hx & Ex). cbn in Ex. rewrite (D s k Hx) in Ex. discriminate. }
    change (check_terms splitting W q terms) with (chk q terms). rewrite HC. split.
    + intros [E H]. injection E as -> ->. destruct (proj1 (HPH q) eq_refl) as [A B].
      split; [reflexivity|]. split; [exact A|]. split; [exact B|]. split; [|split; [|split; [|exact H]]].
      * intros x Hx X1. destruct (is_explicit x) eqn:X2; [reflexivity|]. exfalso.
        assert (existsb (fun p => explicit_only p && negb (is_explicit p)) q = true)
          by (apply existsb_exists; exists x; split; [exact Hx|rewrite X1, X2; reflexivity]). congruence.
      * intros s Hs Hn. destruct (existsb (fun d => String.eqb s (fst d)) dynamics) eqn:G.
        -- apply existsb_exists in G as ((s', k) & Hx & Ex). cbn in Ex. apply String.eqb_eq in Ex; subst s'. exists k; exact Hx.
        -- exfalso. assert (existsb (fun s => negb (String.eqb s physics_name) && negb (existsb (fun d => String.eqb s (fst d)) dynamics)) splitting = true).
           { apply existsb_exists. exists s. split; [exact Hs|]. rewrite G. apply String.eqb_neq in Hn. rewrite Hn. reflexivity. }
           congruence.
      * intros s k Hk. destruct (Nat.eqb k 1) eqn:G; [apply Nat.eqb_eq; exact G|]. exfalso.
        assert (existsb (fun d => negb (Nat.eqb (snd d) 1)) dynamics = true)
          by (apply existsb_exists; exists (s, k); cbn; rewrite G; auto). congruence.
    + intros (-> & A & B & _ & _ & _ & H). split; [|exact H].
      assert (@Ok (list phys) q = Ok ps) by (apply HPH; split; assumption). congruence.
  - split; [discriminate|]. intros (-> & A & B & _). exfalso. clear HC chk.
    assert (@Err (list phys) e = Ok ps) by (apply HPH; split; [exact A|]; intros; apply B; assumption). discriminate.
Qed.
Print Assumptions split_accepts_iff.

(* ---------------- time advanced ---------------- *)

(** A scheme without subcycling that has not been used yet, and that either reads dt in
    every cycle or is used with one weight only. *)
Definition fresh_scheme (full : list (string * Q)) (l : string) (s : sscheme) : Prop :=
  ncycles s = 1%nat /\ by_courant s = false /\ cached s = None /\
  (use s = EveryCycle \/ forall w w', In (l, w) full -> In (l, w') full -> w == w').

Section Advance.
  Variables (dt : Q) (full : list (string * Q)).
  Definition good (l : string) (s : sscheme) : Prop :=
    ncycles s = 1%nat /\ by_courant s = false /\
    (use s = EveryCycle \/
     (forall w w', In (l, w) full -> In (l, w') full -> w == w') /\
     (cached s = None \/ exists c, cached s = Some c /\ forall w, In (l, w) full -> c == dt * w)).

  Lemma apply_good l s w : good l s -> In (l, w) full ->
    exists d s', apply_with (dt * w) s = Ok (d, s') /\ d == dt * w /\ good l s'.
  Proof.
    intros (Hn & Hb & Hu) Hw. unfold apply_with. rewrite Hb, Hn.
    destruct (use s) eqn:U.
    - exists (inject_Z (Z.of_nat 1) * (dt * w)). eexists. split; [reflexivity|]. split; [change (inject_Z (Z.of_nat 1)) with 1; ring|].
      split; [reflexivity|]. split; [reflexivity|]. left; reflexivity.
    - destruct Hu as [Hu|[He Hc]]; [congruence|]. destruct Hc as [Hc|(c & Hc & Hw')]; rewrite Hc.
      + eexists; eexists. split; [reflexivity|]. split; [change (inject_Z (Z.of_nat 1)) with 1; ring|].
        split; [reflexivity|]. split; [reflexivity|]. right. split; [exact He|]. right. exists (dt * w). split; [reflexivity|].
        intros v Hv. rewrite (He w v Hw Hv). reflexivity.
      + eexists; eexists. split; [reflexivity|]. split; [rewrite (Hw' w Hw); change (inject_Z (Z.of_nat 1)) with 1; ring|].
        split; [reflexivity|]. split; [reflexivity|]. right. split; [exact He|]. right. exists c. auto.
  Qed.

  Lemma apply_all_good w : In (physics_name, w) full -> forall l, Forall (good physics_name) l ->
    exists ds l', apply_all (dt * w) l = Ok (ds, l') /\ List.length ds = List.length l /\ List.length l' = List.length l /\
      Forall (fun d => d == dt * w) ds /\ Forall (good physics_name) l'.
  Proof.
    intros Hw. induction l as [|s l IH]; intros H.
    - exists [], []. repeat split; constructor.
    - inversion H as [|? ? Hs Hl]; subst. destruct (apply_good _ _ _ Hs Hw) as (d & s' & E & Ed & Gs).
      destruct (IH Hl) as (ds & l' & E' & L1 & L2 & F1 & F2).
      exists (d :: ds), (s' :: l'). cbn. rewrite E, E'. repeat split; try (cbn; congruence); constructor; assumption.
  Qed.

  (** how much of the selected time one entry contributes *)
  Definition share (np : nat) (p : string * nat -> bool) (e : string * Q) : Q :=
    if String.eqb (fst e) physics_name
    then inject_Z (Z.of_nat (List.length (filter (fun i => p (fst e, i)) (seq 0 np)))) * snd e
    else if p (fst e, 0%nat) then snd e else 0.

  Lemma total_app p a b : total p (a ++ b) == total p a + total p b.
  Proof.
    unfold total. induction a as [|e a IH]; cbn [app fold_right]; [ring|].
    destruct (p (fst e)); rewrite IH; ring.
  Qed.

  Lemma total_events p (t : string) d0 : forall ds k, Forall (fun d => d == d0) ds ->
    total p (combine (combine (repeat t (List.length ds)) (seq k (List.length ds))) ds) ==
    inject_Z (Z.of_nat (List.length (filter (fun i => p (t, i)) (seq k (List.length ds))))) * d0.
  Proof.
    unfold total. induction ds as [|d ds IH]; intros k H; [cbn; ring|].
    inversion H as [|? ? Hd Hds]; subst. cbn [List.length repeat seq combine fold_right fst snd filter].
    destruct (p (t, k)).
    - rewrite (IH (S k) Hds). cbn [List.length]. rewrite Nat2Z.inj_succ. unfold Z.succ. rewrite inject_Z_plus, Hd. ring.
    - apply IH; exact Hds.
  Qed.

  Lemma step_good np : forall todo st, incl todo full ->
    (forall l, good l (dyn st l)) -> Forall (good physics_name) (physs st) -> List.length (physs st) = np ->
    exists evs st', split_timestep dt todo st = Ok (evs, st') /\
      (forall l, good l (dyn st' l)) /\ Forall (good physics_name) (physs st') /\ List.length (physs st') = np /\
      forall p, total p evs == dt * fold_right (fun e acc => share np p e + acc) 0 todo.
  Proof.
    induction todo as [|[t w] todo IH]; intros st Hi Hd Hp Hn.
    - exists [], st. split; [reflexivity|]. split; [exact Hd|]. split; [exact Hp|]. split; [exact Hn|]. intros p; cbn; ring.
    - assert (Hw : In (t, w) full) by (apply Hi; left; reflexivity).
      assert (Hi' : incl todo full) by (intros x Hx; apply Hi; right; exact Hx).
      cbn [split_timestep]. destruct (String.eqb t physics_name) eqn:Et.
      + apply String.eqb_eq in Et. subst t.
        destruct (apply_all_good w Hw (physs st) Hp) as (ds & l' & E & L1 & L2 & F1 & F2). rewrite E.
        destruct (IH (mk_split (dyn st) l') Hi' Hd F2 ltac:(cbn; congruence)) as (evs & st' & E' & G1 & G2 & G3 & G4).
        rewrite E'. eexists; eexists. split; [reflexivity|]. split; [exact G1|]. split; [exact G2|]. split; [exact G3|].
        intros p. rewrite total_app, (total_events p physics_name (dt * w) ds 0 F1), G4.
        cbn [fold_right]. unfold share at 2. cbn [fst snd]. rewrite String.eqb_refl. rewrite L1, Hn. ring.
      + destruct (apply_good t (dyn st t) w (Hd t) Hw) as (d & s' & E & Ed & Gs). rewrite E.
        destruct (IH (mk_split (upd_dyn (dyn st) t s') (physs st)) Hi') as (evs & st' & E' & G1 & G2 & G3 & G4); [|exact Hp|exact Hn|].
        { intros l. cbn. unfold upd_dyn. destruct (String.eqb l t) eqn:El; [apply String.eqb_eq in El; subst; exact Gs|apply Hd]. }
        rewrite E'. eexists; eexists. split; [reflexivity|]. split; [exact G1|]. split; [exact G2|]. split; [exact G3|].
        intros p. rewrite total_app, G4. cbn [fold_right]. unfold share at 2. cbn [fst snd]. rewrite Et.
        unfold total. cbn [fold_right fst snd]. destruct (p (t, 0%nat)); [rewrite Ed; ring|ring].
  Qed.
End Advance.

Lemma share_label np (q : string -> bool) l : q physics_name = false ->
  fold_right (fun e acc => share np (fun x => q (fst x)) e + acc) 0 l == weight_of q l.
Proof.
  intros Hq. unfold weight_of. induction l as [|[t w] l IH]; [reflexivity|]. cbn [fold_right fst snd].
  rewrite IH. unfold share. cbn [fst snd]. destruct (String.eqb t physics_name) eqn:E.
  - apply String.eqb_eq in E; subst t. rewrite Hq.
    assert (Z0 : filter (fun _ : nat => false) (seq 0 np) = []) by (induction (seq 0 np); auto). rewrite Z0.
    change (inject_Z (Z.of_nat (List.length []))) with 0. ring.
  - destruct (q t); ring.
Qed.
Lemma share_physics np i l : (i < np)%nat ->
  fold_right (fun e acc => share np (fun x => String.eqb (fst x) physics_name && Nat.eqb (snd x) i) e + acc) 0 l
  == weight_of (String.eqb physics_name) l.
Proof.
  intros Hi. unfold weight_of. induction l as [|[t w] l IH]; [reflexivity|]. cbn [fold_right fst snd].
  rewrite IH. unfold share. cbn [fst snd]. rewrite (String.eqb_sym physics_name t). destruct (String.eqb t physics_name) eqn:E.
  - cbn [andb]. assert (F : forall k n, (List.length (filter (fun j => Nat.eqb j i) (seq k n)) = if (k <=? i) && (i <? k + n) then 1 else 0)%nat).
    { intros k n; revert k; induction n as [|n IHn]; intros k; cbn [seq filter List.length].
      - replace ((k <=? i) && (i <? k + 0))%nat with false; [reflexivity|]. symmetry. apply Bool.andb_false_iff.
        rewrite Nat.leb_gt, Nat.ltb_ge. lia.
      - destruct (Nat.eqb k i) eqn:Ek.
        + apply Nat.eqb_eq in Ek; subst k. cbn [List.length]. rewrite IHn.
          replace ((S i <=? i) && (i <? S i + n))%nat with false by (symmetry; apply Bool.andb_false_iff; rewrite Nat.leb_gt; left; lia).
          replace ((i <=? i) && (i <? i + S n))%nat with true by (symmetry; apply Bool.andb_true_iff; rewrite Nat.leb_le, Nat.ltb_lt; lia).
          reflexivity.
        + apply Nat.eqb_neq in Ek. rewrite IHn. destruct (Nat.leb_spec (S k) i), (Nat.leb_spec k i); cbn [andb]; try lia; try reflexivity.
          replace (S k + n)%nat with (k + S n)%nat by lia. reflexivity. }
    rewrite F. replace ((0 <=? i) && (i <? 0 + np))%nat with true by (symmetry; apply Bool.andb_true_iff; rewrite Nat.leb_le, Nat.ltb_lt; lia).
    change (inject_Z (Z.of_nat 1)) with 1. ring.
  - cbn [andb]. ring.
Qed.

(** C28.  For every accepted configuration whose schemes do not subcycle and either read
    the time step in every cycle or are used with a single weight, and for every number
    of steps: no step raises, and in each step every dynamics term of the equation is
    advanced by exactly dt in total, as is every physics parametrisation, if weights are
    given.  (Without weights a physics parametrisation advances by dt for each time
    "physics" occurs.) *)
Theorem split_advances_by_dt_partial :
  forall splitting dynamics weights physics_schemes terms ws ps (dt : Q) (st : split_state) (n : nat),
  (forall u, weights = Some u -> (List.length splitting <= List.length u)%nat) ->
  split_construct splitting dynamics weights physics_schemes terms = Ok (ws, ps) ->
  (forall l, fresh_scheme (combine splitting ws) l (dyn st l)) ->
  Forall (fresh_scheme (combine splitting ws) physics_name) (physs st) ->
  exists evs, split_run n dt (todo_of splitting ws) st = Ok evs /\ List.length evs = n /\
    forall ev, In ev evs ->
      (forall labels, In labels terms -> ~ In physics_name labels ->
         total (fun e => mem (fst e) labels) ev == dt) /\
      (forall i, (i < List.length (physs st))%nat ->
         total (fun e => String.eqb (fst e) physics_name && Nat.eqb (snd e) i) ev
         == dt * weight_of (String.eqb physics_name) (combine splitting ws)) /\
      (weights <> None -> mem physics_name splitting = true -> forall i, (i < List.length (physs st))%nat ->
         total (fun e => String.eqb (fst e) physics_name && Nat.eqb (snd e) i) ev == dt).
Proof.
  intros splitting dynamics weights physics_schemes terms ws ps dt st n Hlen HC Hd Hp.
  apply split_accepts_iff in HC; [|exact Hlen]. destruct HC as (_ & _ & Hphys & _ & _ & _ & Hterms).
  unfold todo_of. set (full := combine splitting ws) in *.
  assert (Gd : forall l, good dt full l (dyn st l)).
  { intros l. destruct (Hd l) as (A & B & C & D). split; [exact A|]. split; [exact B|].
    destruct D as [D|D]; [left; exact D|right; split; [exact D|left; exact C]]. }
  assert (Gp : Forall (good dt full physics_name) (physs st)).
  { eapply Forall_impl; [|exact Hp]. intros s (A & B & C & D). split; [exact A|]. split; [exact B|].
    destruct D as [D|D]; [left; exact D|right; split; [exact D|left; exact C]]. }
  clear Hd Hp. remember (List.length (physs st)) as np eqn:Enp. symmetry in Enp. revert st Gd Gp Enp.
  induction n as [|n IH]; intros st Gd Gp Enp; cbn [split_run].
  - exists []. split; [reflexivity|]. split; [reflexivity|intros ev []].
  - destruct (step_good dt full np full st (fun x Hx => Hx) Gd Gp Enp) as (ev & st' & E & G1 & G2 & G3 & G4).
    rewrite E. destruct (IH st' G1 G2 G3) as (evs & E' & L & H). rewrite E'.
    exists (ev :: evs). split; [reflexivity|]. split; [cbn; congruence|].
    intros x [<-|Hx]; [|exact (H x Hx)].
    assert (P : forall i, (i < np)%nat ->
       total (fun e => String.eqb (fst e) physics_name && Nat.eqb (snd e) i) ev == dt * weight_of (String.eqb physics_name) full).
    { intros i Hi. rewrite G4, (share_physics np i full Hi). reflexivity. }
    split; [|split; [exact P|]].
    + intros labels Hl Hnp. rewrite G4. rewrite (share_label np (fun s => mem s labels) full).
      * rewrite (Hterms labels Hl). ring.
      * destruct (mem physics_name labels) eqn:M; [|reflexivity]. exfalso. apply Hnp.
        unfold mem in M. apply existsb_exists in M as (y & Hy & Ey). apply String.eqb_eq in Ey. congruence.
    + intros Hw Hm i Hi. rewrite (P i Hi), (Hphys Hm Hw). ring.
Qed.
Print Assumptions split_advances_by_dt_partial.

(* ---------------- a concrete configuration: Strang splitting ---------------- *)
Definition plain : sscheme := mk_ss EveryCycle 1 false None.
Definition cached_scheme : sscheme := mk_ss CachedForm 1 false None.
Example strang_example :
  split_construct ["transport"; "physics"; "transport"] [("transport", 1%nat)] (Some [1#2; 1; 1#2]) (Some [mk_phys true true]) [["transport"; "u"]]
    = Ok ([1#2; 1; 1#2], [mk_phys true true]) /\
  split_run 1 10 (todo_of ["transport"; "physics"; "transport"] [1#2; 1; 1#2]) (mk_split (fun _ => cached_scheme) [plain])
    = Ok [[("transport", 0%nat, 10#2); ("physics", 0%nat, 10); ("transport", 0%nat, 10#2)]].
Proof. split; reflexivity. Qed.

(** C28 fails: physics named twice without weights is accepted and advances 2 dt. *)
Theorem physics_twice_refuted :
  split_construct ["physics"; "transport"; "physics"] [("transport", 1%nat)] None (Some [mk_phys false true]) [["transport"]]
    = Ok ([1; 1; 1], [mk_phys false true]) /\
  forall dt, exists ev, split_run 1 dt (todo_of ["physics"; "transport"; "physics"] [1; 1; 1]) (mk_split (fun _ => plain) [plain]) = Ok [ev] /\
    total (fun e => String.eqb (fst e) physics_name) ev == 2 * dt.
Proof.
  split; [reflexivity|]. intros dt. eexists. split; [reflexivity|]. 
  cbn [combine repeat seq List.length app]. unfold total. cbn [fold_right fst snd].
  change (String.eqb "physics" physics_name) with true. change (String.eqb "transport" physics_name) with false. cbn iota.
  cbn [use cached ncycles by_courant plain]. change (inject_Z (Z.of_nat 1)) with 1. ring.
Qed.
Print Assumptions physics_twice_refuted.

(** C28 fails: a scheme with n fixed subcycles advances n * dt. *)
Theorem fixed_subcycles_in_split_refuted :
  forall (n : nat) (dt w : Q) u, exists s',
  apply_with (dt * w) (mk_ss u n false None) = Ok (inject_Z (Z.of_nat n) * (dt * w), s').
Proof. intros n dt w []; eexists; reflexivity. Qed.
Print Assumptions fixed_subcycles_in_split_refuted.

(** C28 fails: adaptive subcycling raises at the first step. *)
Theorem adaptive_subcycling_in_split_refuted :
  forall (dt w : Q) u n c, apply_with (dt * w) (mk_ss u n true c) = Err AttributeError.
Proof. reflexivity. Qed.
Print Assumptions adaptive_subcycling_in_split_refuted.

(** C28 fails: a scheme with a cached form used with two different weights keeps the
    first: weights 1/4 and 3/4 advance dt/2. *)
Theorem unequal_weights_refuted :
  split_construct ["transport"; "physics"; "transport"] [("transport", 1%nat)] (Some [1#4; 1; 3#4]) (Some []) [["transport"]]
    = Ok ([1#4; 1; 3#4], []) /\
  forall dt, exists ev, split_run 1 dt (todo_of ["transport"; "physics"; "transport"] [1#4; 1; 3#4]) (mk_split (fun _ => cached_scheme) []) = Ok [ev] /\
    total (fun e => String.eqb (fst e) "transport") ev == (1#2) * dt.
Proof.
  split; [reflexivity|]. intros dt.
  exists [("transport", 0%nat, 1 * (dt * (1#4))); ("transport", 0%nat, 1 * (dt * (1#4)))].
  split; [reflexivity|]. unfold total. cbn [fold_right fst snd].
  change (String.eqb "transport" "transport") with true. cbn iota. ring.
Qed.
Print Assumptions unequal_weights_refuted.

(** C28 fails: physics schemes passed but not named in the splitting are dropped
    silently. *)
Theorem unnamed_physics_dropped_refuted :
  forall (p : phys), split_construct ["transport"] [("transport", 1%nat)] None (Some [p]) [["transport"]] = Ok ([1], []).
Proof. reflexivity. Qed.
Print Assumptions unnamed_physics_dropped_refuted.

(** SplitPhysicsTimestepper: with the label "dynamics" the dynamics scheme keeps exactly
    the terms that are neither time derivative nor physics (and the time derivatives). *)
Theorem dynamics_label_partition :
  forall is_td is_physics labels, ~ In "dynamics" labels ->
  (In "dynamics" (label_dynamics is_td is_physics labels) <-> is_td = false /\ is_physics = false).
Proof.
  intros [] [] labels H; unfold label_dynamics; cbn; split; intros G; try contradiction; try (destruct G; discriminate); auto.
Qed.
Print Assumptions dynamics_label_partition.

(** C28.  A list of weights that is too short is rejected: no configuration is accepted in which a process without a weight
    matches a term of the equation. *)
Lemma weight_sum_missing p : forall splitting ws j s, nth_error splitting j = Some s -> p s = true -> (List.length ws <= j)%nat ->
  exists e, weight_sum p splitting ws = Err e.
Proof.
  induction splitting as [|a ss IH]; intros ws j s Hj Hp Hl; [destruct j; discriminate|].
  destruct ws as [|w ws]; cbn [weight_sum].
  - destruct j as [|j]; cbn in Hj; [injection Hj as ->; rewrite Hp; eexists; reflexivity|].
    destruct (p a); [eexists; reflexivity|]. apply (IH [] j s Hj Hp). cbn; lia.
  - destruct j as [|j]; [cbn in Hl; lia|]. cbn in Hj, Hl. destruct (IH ws j s Hj Hp ltac:(lia)) as [e ->]. eexists; reflexivity.
Qed.
Theorem split_short_weights_rejected :
  forall splitting dynamics ws physics_schemes terms labels j s,
  In labels terms -> nth_error splitting j = Some s -> In s labels -> (List.length ws <= j)%nat ->
  exists e, split_construct splitting dynamics (Some ws) physics_schemes terms = Err e.
Proof.
  intros splitting dynamics ws ph terms labels j s Hin Hj Hs Hl. unfold split_construct.
  match goal with |- exists e, match ?m with _ => _ end = _ => destruct m as [ps|e0]; [|eexists; reflexivity] end.
  destruct (existsb (fun p => explicit_only p && negb (is_explicit p)) ps); [eexists; reflexivity|].
  match goal with |- exists e, (if ?b then _ else _) = _ => destruct b; [eexists; reflexivity|] end.
  match goal with |- exists e, (if ?b then _ else _) = _ => destruct b; [eexists; reflexivity|] end.
  induction terms as [|l ts IH]; [destruct Hin|]. cbn [check_terms]. destruct Hin as [->|Hin].
  - destruct (weight_sum_missing (fun s => existsb (String.eqb s) labels) splitting ws j s Hj) as [e ->]; [|exact Hl|eexists; reflexivity].
    apply existsb_exists. exists s. split; [exact Hs|apply String.eqb_refl].
  - destruct (weight_sum _ splitting ws); [|eexists; reflexivity]. destruct (Qeq_bool a 1); [apply IH; exact Hin|eexists; reflexivity].
Qed.
Print Assumptions split_short_weights_rejected.

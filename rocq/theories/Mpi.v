(** Blocking point-to-point message passing between ranks 0 .. n-1, as used by
    gusto/time_discretisation/parallel_dc.py through Ensemble.send / Ensemble.recv
    (MPI_Send / MPI_Recv of each dat).  A standard-mode send may be buffered or may wait
    for the matching receive (the MPI implementation chooses, per message); a receive
    takes the first message from its source that carries its tag (MPI's
    non-overtaking rule).  Computation between communications is deterministic. *)
From Verif Require Import Base.

Section MPI.
  Context {V X : Type}.

  (** Auxiliary, nothing in the code by itself. *)
  Inductive proc :=
  | Ret (x : X)
  | Send (dst tag : nat) (v : V) (k : proc)
  | Recv (src tag : nat) (k : V -> proc).

  (** Auxiliary, nothing in the code by itself. *)
  Record config := { procs : nat -> proc; chan : nat -> nat -> list (nat * V) }.
  (** Auxiliary, nothing in the code by itself. *)
  Definition setp (P : nat -> proc) (i : nat) (p : proc) : nat -> proc := fun j => if Nat.eqb j i then p else P j.
  (** Auxiliary, nothing in the code by itself. *)
  Definition setc (C : nat -> nat -> list (nat * V)) (i j : nat) (l : list (nat * V)) : nat -> nat -> list (nat * V) :=
    fun a b => if Nat.eqb a i && Nat.eqb b j then l else C a b.

  (** [sync_step]: only receptions and rendezvous, i.e. no send is buffered. *)
  (** Auxiliary, nothing in the code by itself. *)
  Inductive sync_step (n : nat) : config -> config -> Prop :=
  | step_recv : forall c j s t k l1 v l2,
      j < n -> procs c j = Recv s t k ->
      chan c s j = l1 ++ (t, v) :: l2 -> (forall w, ~ In (t, w) l1) ->
      sync_step n c {| procs := setp (procs c) j (k v); chan := setc (chan c) s j (l1 ++ l2) |}
  | step_rendezvous : forall c i j t v k k',
      i < n -> j < n -> i <> j -> procs c i = Send j t v k -> procs c j = Recv i t k' ->
      (forall w, ~ In (t, w) (chan c i j)) ->
      sync_step n c {| procs := setp (setp (procs c) i k) j (k' v); chan := chan c |}.
  (** Auxiliary, nothing in the code by itself. *)
  Inductive step (n : nat) : config -> config -> Prop :=
  | step_sync : forall c c', sync_step n c c' -> step n c c'
  | step_buffer : forall c i d t v k,
      i < n -> d < n -> procs c i = Send d t v k ->
      step n c {| procs := setp (procs c) i k; chan := setc (chan c) i d (chan c i d ++ [(t, v)]) |}.

  (** Auxiliary, nothing in the code by itself. *)
  Inductive steps (n : nat) : nat -> config -> config -> Prop :=
  | steps_O : forall c, steps n 0 c c
  | steps_S : forall m c c' c'', step n c c' -> steps n m c' c'' -> steps n (S m) c c''.

  (** ** Scripts *)
  (** Auxiliary, nothing in the code by itself. *)
  Record event := { e_src : nat; e_dst : nat; e_tag : nat; e_val : V }.
  (** Auxiliary, nothing in the code by itself. *)
  Inductive op := OSend (dst tag : nat) (v : V) | ORecv (src tag : nat) (v : V).
  (** Auxiliary, nothing in the code by itself. *)
  Inductive follows : proc -> list (nat * op) -> X -> Prop :=
  | f_ret : forall x, follows (Ret x) [] x
  | f_send : forall d t v k τ s x, follows k s x -> follows (Send d t v k) ((τ, OSend d t v) :: s) x
  | f_recv : forall a t v k τ s x, follows (k v) s x -> follows (Recv a t k) ((τ, ORecv a t v) :: s) x.

  (** What rank i does in the global communication sequence G, with positions as times. *)
  (** Auxiliary, nothing in the code by itself. *)
  Fixpoint proj (i : nat) (τ : nat) (G : list event) : list (nat * op) :=
    match G with
    | [] => []
    | e :: G' =>
        (if Nat.eqb (e_src e) i then [(τ, OSend (e_dst e) (e_tag e) (e_val e))]
         else if Nat.eqb (e_dst e) i then [(τ, ORecv (e_src e) (e_tag e) (e_val e))] else [])
        ++ proj i (S τ) G'
    end.

  (** Auxiliary, nothing in the code by itself. *)
  Fixpoint sends (j : nat) (s : list (nat * op)) : list (nat * (nat * V)) :=
    match s with
    | [] => []
    | (τ, OSend d t v) :: s' => if Nat.eqb d j then (τ, (t, v)) :: sends j s' else sends j s'
    | _ :: s' => sends j s'
    end.
  (** Auxiliary, nothing in the code by itself. *)
  Fixpoint recvs (i : nat) (s : list (nat * op)) : list (nat * (nat * V)) :=
    match s with
    | [] => []
    | (τ, ORecv a t v) :: s' => if Nat.eqb a i then (τ, (t, v)) :: recvs i s' else recvs i s'
    | _ :: s' => recvs i s'
    end.

  (** Auxiliary, nothing in the code by itself. *)
  Inductive increasing : list (nat * op) -> Prop :=
  | inc_nil : increasing []
  | inc_cons : forall τ o s, (forall τ' o', In (τ', o') s -> τ < τ') -> increasing s -> increasing ((τ, o) :: s).

  (** Auxiliary, nothing in the code by itself. *)
  Definition inv (n : nat) (x : nat -> X) (c : config) (S : nat -> list (nat * op)) (gc : nat -> nat -> list (nat * (nat * V))) : Prop :=
    (forall i, i < n -> follows (procs c i) (S i) (x i)) /\
    (forall i, n <= i -> S i = []) /\
    (forall i, increasing (S i)) /\
    (forall i j, chan c i j = map snd (gc i j)) /\
    (forall i j, gc i j ++ sends j (S i) = recvs i (S j)).

  Lemma proj_in i τ G τ' o : In (τ', o) (proj i τ G) -> τ <= τ'.
  Proof.
    revert τ. induction G as [|e G IH]; intros τ H; [destruct H|]. cbn [proj] in H. apply in_app_or in H. destruct H as [H|H].
    - destruct (Nat.eqb (e_src e) i); [|destruct (Nat.eqb (e_dst e) i)]; destruct H as [H|[]] || destruct H; injection H as <- _; lia.
    - apply IH in H. lia.
  Qed.
  Lemma proj_increasing i τ G : increasing (proj i τ G).
  Proof.
    revert τ. induction G as [|e G IH]; intros τ; [constructor|]. cbn [proj].
    destruct (Nat.eqb (e_src e) i); [|destruct (Nat.eqb (e_dst e) i)]; cbn [app]; [| |apply IH];
      constructor; [intros τ' o' H; apply proj_in in H; lia|apply IH| intros τ' o' H; apply proj_in in H; lia|apply IH].
  Qed.
  Lemma proj_match i j τ G : Forall (fun e => e_src e <> e_dst e) G -> sends j (proj i τ G) = recvs i (proj j τ G).
  Proof.
    revert τ. induction G as [|e G IH]; intros τ H; [reflexivity|]. inversion H as [|? ? He HG]; subst. cbn [proj].
    destruct (Nat.eqb_spec (e_src e) i) as [E1|E1].
    - destruct (Nat.eqb_spec (e_src e) j) as [E2|E2].
      + cbn. destruct (Nat.eqb_spec (e_dst e) j); [congruence|]. apply IH; assumption.
      + destruct (Nat.eqb_spec (e_dst e) j) as [E3|E3]; cbn.
        * rewrite E3, Nat.eqb_refl, E1, Nat.eqb_refl. f_equal. apply IH; assumption.
        * destruct (Nat.eqb_spec (e_dst e) j); [congruence|]. apply IH; assumption.
    - destruct (Nat.eqb_spec (e_dst e) i) as [E3|E3]; destruct (Nat.eqb_spec (e_src e) j) as [E2|E2]; cbn; try (apply IH; assumption).
      + destruct (Nat.eqb_spec (e_dst e) j); cbn; [destruct (Nat.eqb_spec (e_src e) i); [congruence|]|]; apply IH; assumption.
      + destruct (Nat.eqb_spec (e_dst e) j); cbn; [destruct (Nat.eqb_spec (e_src e) i); [congruence|]|]; apply IH; assumption.
  Qed.
  Lemma proj_outside n i τ G : Forall (fun e => e_src e < n /\ e_dst e < n) G -> n <= i -> proj i τ G = [].
  Proof.
    revert τ. induction G as [|e G IH]; intros τ H Hi; [reflexivity|]. inversion H as [|? ? He HG]; subst. cbn [proj].
    destruct (Nat.eqb_spec (e_src e) i); [lia|]. destruct (Nat.eqb_spec (e_dst e) i); [lia|]. cbn. apply IH; assumption.
  Qed.

  (** Auxiliary, nothing in the code by itself. *)
  Definition init (P : nat -> proc) : config := {| procs := P; chan := fun _ _ => [] |}.

  Lemma inv_init n G P x :
    Forall (fun e => e_src e <> e_dst e) G -> Forall (fun e => e_src e < n /\ e_dst e < n) G ->
    (forall i, i < n -> follows (P i) (proj i 0 G) (x i)) ->
    inv n x (init P) (fun i => proj i 0 G) (fun _ _ => []).
  Proof.
    intros H1 H2 H3. repeat split; auto.
    - intros i Hi. apply (proj_outside n); assumption.
    - intros i. apply proj_increasing.
    - intros i j. cbn [app]. apply proj_match; assumption.
  Qed.

  (** Auxiliary, nothing in the code by itself. *)
  Fixpoint work (n : nat) (S : nat -> list (nat * op)) : nat :=
    match n with O => 0 | Datatypes.S k => work k S + List.length (S k) end.
  (** Auxiliary, nothing in the code by itself. *)
  Definition sets (S : nat -> list (nat * op)) (i : nat) (s : list (nat * op)) := fun j => if Nat.eqb j i then s else S j.
  Lemma work_ext n S S' : (forall i, i < n -> S i = S' i) -> work n S = work n S'.
  Proof. induction n as [|n IH]; cbn; intros H; [reflexivity|]. rewrite IH, H by (intros; try apply H; lia). reflexivity. Qed.
  Lemma work_sets n S i o s : i < n -> S i = o :: s -> Datatypes.S (work n (sets S i s)) = work n S.
  Proof.
    induction n as [|n IH]; intros Hi HS; [lia|]. cbn [work]. destruct (Nat.eq_dec i n) as [->|Hne].
    - rewrite (work_ext n (sets S n s) S) by (intros j Hj; unfold sets; destruct (Nat.eqb_spec j n); [lia|reflexivity]).
      unfold sets at 1. rewrite Nat.eqb_refl, HS. cbn. lia.
    - rewrite <- (IH ltac:(lia) HS). unfold sets at 2. destruct (Nat.eqb_spec n i); [lia|]. lia.
  Qed.

  Lemma increasing_tl o s : increasing (o :: s) -> increasing s.
  Proof. intros H; inversion H; assumption. Qed.

  (** Consuming the head operation of rank i in the scripts. *)
  Lemma sends_in j s τ t v : In (τ, (t, v)) (sends j s) -> In (τ, OSend j t v) s.
  Proof.
    induction s as [|[τ' [d t' v'|a t' v']] s IH]; cbn; intros H; [destruct H| |right; auto].
    destruct (Nat.eqb_spec d j); [|right; auto]. destruct H as [H|H]; [|right; auto]. injection H as -> -> ->. subst. left; reflexivity.
  Qed.
  Lemma recvs_in i s τ t v : In (τ, (t, v)) (recvs i s) <-> In (τ, ORecv i t v) s.
  Proof.
    induction s as [|[τ' [d t' v'|a t' v']] s IH]; cbn; [tauto| |].
    - rewrite IH. split; [auto|]. intros [H|H]; [discriminate|auto].
    - destruct (Nat.eqb_spec a i) as [->|Hne]; cbn; rewrite IH.
      + split; intros [H|H]; auto; left; congruence.
      + split; [auto|]. intros [H|H]; [congruence|auto].
  Qed.
  Lemma sends_in_iff j s τ t v : In (τ, (t, v)) (sends j s) <-> In (τ, OSend j t v) s.
  Proof.
    split; [apply sends_in|]. induction s as [|[τ' [d t' v'|a t' v']] s IH]; cbn; intros H; [destruct H| |].
    - destruct H as [H|H].
      + injection H as -> -> -> ->. rewrite Nat.eqb_refl. left; reflexivity.
      + destruct (Nat.eqb d j); [right|]; auto.
    - destruct H as [H|H]; [discriminate|auto].
  Qed.

  (** Auxiliary, nothing in the code by itself. *)
  Definition setg (C : nat -> nat -> list (nat * (nat * V))) (i j : nat) l :=
    fun a b => if Nat.eqb a i && Nat.eqb b j then l else C a b.

  Lemma sets_same S i s : sets S i s i = s.
  Proof. unfold sets. rewrite Nat.eqb_refl. reflexivity. Qed.
  Lemma sets_other S i s j : j <> i -> sets S i s j = S j.
  Proof. intros H. unfold sets. destruct (Nat.eqb_spec j i); [congruence|reflexivity]. Qed.

  Lemma sends_recv_head j a t (v : V) τ s : sends j ((τ, ORecv a t v) :: s) = sends j s.
  Proof. reflexivity. Qed.
  Lemma recvs_send_head i a t (v : V) τ s : recvs i ((τ, OSend a t v) :: s) = recvs i s.
  Proof. reflexivity. Qed.
  Lemma sends_cons j a t (v : V) τ s : sends j ((τ, OSend a t v) :: s) = (if Nat.eqb a j then [(τ, (t, v))] else []) ++ sends j s.
  Proof. cbn. destruct (Nat.eqb a j); reflexivity. Qed.
  Lemma recvs_cons j a t (v : V) τ s : recvs j ((τ, ORecv a t v) :: s) = (if Nat.eqb a j then [(τ, (t, v))] else []) ++ recvs j s.
  Proof. cbn. destruct (Nat.eqb a j); reflexivity. Qed.

  Lemma sends_sets S i τ o s j k : S i = (τ, o) :: s ->
    sends j (S k) = (if Nat.eqb k i then match o with OSend d t v => if Nat.eqb d j then [(τ, (t, v))] else [] | _ => [] end else []) ++ sends j (sets S i s k).
  Proof.
    intros E. unfold sets. destruct (Nat.eqb_spec k i) as [->|]; [|reflexivity]. rewrite E. cbn. destruct o; [destruct (Nat.eqb dst j)|]; reflexivity.
  Qed.
  Lemma recvs_sets S i τ o s j k : S i = (τ, o) :: s ->
    recvs j (S k) = (if Nat.eqb k i then match o with ORecv d t v => if Nat.eqb d j then [(τ, (t, v))] else [] | _ => [] end else []) ++ recvs j (sets S i s k).
  Proof.
    intros E. unfold sets. destruct (Nat.eqb_spec k i) as [->|]; [|reflexivity]. rewrite E. cbn. destruct o; [|destruct (Nat.eqb src j)]; reflexivity.
  Qed.

  Lemma sets_inc S i τ o s : (forall i, increasing (S i)) -> S i = (τ, o) :: s -> forall k, increasing (sets S i s k).
  Proof.
    intros HI E k. unfold sets. destruct (Nat.eqb_spec k i) as [->|]; [|apply HI]. specialize (HI i). rewrite E in HI. apply increasing_tl in HI. exact HI.
  Qed.
  Lemma sets_out n (S : nat -> list (nat * op)) i s : i < n -> (forall i, n <= i -> S i = []) -> forall k, n <= k -> sets S i s k = [].
  Proof. intros Hi HO k Hk. rewrite sets_other by lia. apply HO; exact Hk. Qed.

  Lemma inv_step n x c S gc c' : inv n x c S gc -> step n c c' ->
    exists S' gc', inv n x c' S' gc' /\ work n S' < work n S.
  Proof.
    intros (HF & HO & HI & HC & HM) Hst. destruct Hst as [c c' Hst|c i d t v k Hi Hd Hp].
    - destruct Hst as [c j s t k l1 v l2 Hj Hp Hc Hno|c i j t v k k' Hi Hj Hij Hp Hp' Hno].
      + (* recv *)
        pose proof (HF j Hj) as Hf. rewrite Hp in Hf. inversion Hf as [| |a t0 w k0 τ sj y Hf' E1 E2 E3]; subst. symmetry in E2.
        assert (Hr : recvs s (S j) = (τ, (t, w)) :: recvs s sj) by (rewrite E2; cbn; rewrite Nat.eqb_refl; reflexivity).
        pose proof (HM s j) as Hm. rewrite Hr in Hm. rewrite HC in Hc.
        destruct (gc s j) as [|[τ1 [t1 v1]] g] eqn:Eg; [destruct l1; discriminate|].
        injection Hm as -> -> -> Hm. cbn in Hc.
        destruct l1 as [|[t2 v2] l1]; [|injection Hc as <- <- Hc; exfalso; apply (Hno w); left; reflexivity].
        injection Hc as <- <-. cbn [app].
        exists (sets S j sj), (setg gc s j g). split; [|rewrite <- (work_sets n S j _ sj Hj E2); lia].
        repeat split; cbn.
        * intros i Hi. unfold setp, sets. destruct (Nat.eqb_spec i j) as [->|]; [exact Hf'|apply HF; exact Hi].
        * apply sets_out; assumption.
        * eapply sets_inc; eassumption.
        * intros a b. unfold setc, setg. destruct (Nat.eqb a s && Nat.eqb b j); [reflexivity|apply HC].
        * intros a b. pose proof (HM a b) as Hab. rewrite (sends_sets S j _ _ sj b a E2), (recvs_sets S j _ _ sj a b E2) in Hab.
          replace (if Nat.eqb a j then [] else []) with (@nil (nat * (nat * V))) in Hab by (destruct (Nat.eqb a j); reflexivity).
          cbn [app] in Hab. unfold setg. destruct (Nat.eqb_spec a s) as [Ha|Ha]; [rewrite Ha in * |]; (destruct (Nat.eqb_spec b j) as [Hb|Hb]; [rewrite Hb in * |]); cbn [andb].
          -- rewrite Nat.eqb_refl, Eg in Hab. cbn [app] in Hab. injection Hab as Hab. exact Hab.
          -- exact Hab.
          -- destruct (Nat.eqb_spec s a); [congruence|]. exact Hab.
          -- exact Hab.
      + (* rendezvous *)
        pose proof (HF i Hi) as Hf. rewrite Hp in Hf. inversion Hf as [|d0 t0 v0 k0 τ si y Hf' E1 E2 E3|]; subst. symmetry in E2.
        pose proof (HF j Hj) as Hg. rewrite Hp' in Hg. inversion Hg as [| |a t0 w k1 τ' sj y Hg' E4 E5 E6]; subst. symmetry in E5.
        assert (Hm := HM i j). rewrite E2, E5 in Hm. rewrite sends_cons, recvs_cons, !Nat.eqb_refl in Hm. cbn [app] in Hm.
        destruct (gc i j) as [|[τ1 [t1 v1]] g] eqn:Eg.
        2:{ exfalso. injection Hm as -> -> -> Hm. apply (Hno w). rewrite HC, Eg. left; reflexivity. }
        cbn [app] in Hm. injection Hm as -> -> Hm.
        assert (E5' : sets S i si j = (τ', ORecv i t w) :: sj) by (rewrite sets_other by auto; exact E5).
        exists (sets (sets S i si) j sj), gc. split.
        2:{ pose proof (work_sets n S i _ si Hi E2). pose proof (work_sets n (sets S i si) j _ sj Hj E5'). lia. }
        repeat split; cbn.
        * intros a Ha. unfold setp, sets. destruct (Nat.eqb_spec a j) as [->|]; [exact Hg'|].
          destruct (Nat.eqb_spec a i) as [->|]; [exact Hf'|apply HF; exact Ha].
        * apply sets_out; [assumption|apply sets_out; assumption].
        * eapply sets_inc; [eapply sets_inc; eassumption|eassumption].
        * exact HC.
        * intros a b. pose proof (HM a b) as Hab.
          rewrite (sends_sets S i _ _ si b a E2), (recvs_sets S i _ _ si a b E2) in Hab.
          rewrite (sends_sets (sets S i si) j _ _ sj b a E5'), (recvs_sets (sets S i si) j _ _ sj a b E5') in Hab.
          replace (if Nat.eqb a j then [] else []) with (@nil (nat * (nat * V))) in Hab by (destruct (Nat.eqb a j); reflexivity).
          replace (if Nat.eqb b i then [] else []) with (@nil (nat * (nat * V))) in Hab by (destruct (Nat.eqb b i); reflexivity).
          cbn [app] in Hab.
          destruct (Nat.eqb_spec a i) as [Ha|Ha]; [rewrite Ha in * |]; (destruct (Nat.eqb_spec b j) as [Hb|Hb]; [rewrite Hb in * |]).
          -- rewrite !Nat.eqb_refl, Eg in Hab. rewrite Eg. cbn [app] in Hab |- *. injection Hab as Hab. exact Hab.
          -- destruct (Nat.eqb_spec j b); [congruence|]. exact Hab.
          -- destruct (Nat.eqb_spec i a); [congruence|]. exact Hab.
          -- exact Hab.
    - (* buffered send *)
      pose proof (HF i Hi) as Hf. rewrite Hp in Hf. inversion Hf as [|d0 t0 v0 k0 τ si y Hf' E1 E2 E3|]; subst. symmetry in E2.
      exists (sets S i si), (setg gc i d (gc i d ++ [(τ, (t, v))])). split; [|rewrite <- (work_sets n S i _ si Hi E2); lia].
      repeat split; cbn.
      + intros a Ha. unfold setp, sets. destruct (Nat.eqb_spec a i) as [->|]; [exact Hf'|apply HF; exact Ha].
      + apply sets_out; assumption.
      + eapply sets_inc; eassumption.
      + intros a b. unfold setc, setg. destruct (Nat.eqb a i && Nat.eqb b d); [|apply HC]. rewrite map_app, <- HC. reflexivity.
      + intros a b. pose proof (HM a b) as Hab. rewrite (sends_sets S i _ _ si b a E2), (recvs_sets S i _ _ si a b E2) in Hab.
        replace (if Nat.eqb b i then [] else []) with (@nil (nat * (nat * V))) in Hab by (destruct (Nat.eqb b i); reflexivity).
        cbn [app] in Hab. unfold setg. destruct (Nat.eqb_spec a i) as [->|Ha]; cbn [andb].
        * destruct (Nat.eqb_spec b d) as [->|Hb]; [rewrite Nat.eqb_refl in Hab; rewrite <- app_assoc; exact Hab|].
          destruct (Nat.eqb_spec d b); [congruence|]. exact Hab.
        * exact Hab.
  Qed.

  (** ** Progress *)
  Lemma min_head n (S : nat -> list (nat * op)) : (forall i, i < n -> S i = []) \/
    exists i τ o s, i < n /\ S i = (τ, o) :: s /\ forall j τ' o' s', j < n -> S j = (τ', o') :: s' -> τ <= τ'.
  Proof.
    induction n as [|n IH]; [left; intros; lia|]. destruct IH as [IH|(i & τ & o & s & Hi & HS & Hmin)].
    - destruct (S n) as [|[τ o] s] eqn:E.
      + left. intros i Hi. destruct (Nat.eq_dec i n) as [->|]; [exact E|apply IH; lia].
      + right. exists n, τ, o, s. split; [lia|]. split; [exact E|]. intros j τ' o' s' Hj HS'.
        destruct (Nat.eq_dec j n) as [->|]; [rewrite E in HS'; injection HS' as <- _ _; lia|]. rewrite IH in HS' by lia. discriminate.
    - right. destruct (S n) as [|[τ1 o1] s1] eqn:E.
      + exists i, τ, o, s. split; [lia|]. split; [exact HS|]. intros j τ' o' s' Hj HS'.
        destruct (Nat.eq_dec j n) as [->|]; [rewrite E in HS'; discriminate|]. eapply Hmin; [|exact HS']. lia.
      + destruct (le_lt_dec τ τ1) as [Hle|Hlt].
        * exists i, τ, o, s. split; [lia|]. split; [exact HS|]. intros j τ' o' s' Hj HS'.
          destruct (Nat.eq_dec j n) as [->|]; [rewrite E in HS'; injection HS' as <- _ _; lia|]. eapply Hmin; [|exact HS']. lia.
        * exists n, τ1, o1, s1. split; [lia|]. split; [exact E|]. intros j τ' o' s' Hj HS'.
          destruct (Nat.eq_dec j n) as [->|]; [rewrite E in HS'; injection HS' as <- _ _; lia|].
          pose proof (Hmin j τ' o' s' ltac:(lia) HS'). lia.
  Qed.

  (** An operation of a script whose time is at most that of its head is the head. *)
  Lemma head_is (s : list (nat * op)) τ o : increasing s -> In (τ, o) s -> (forall τ' o' s', s = (τ', o') :: s' -> τ <= τ') -> exists s', s = (τ, o) :: s'.
  Proof.
    intros HI Hin Hh. destruct s as [|[τ' o'] s']; [destruct Hin|]. specialize (Hh _ _ _ eq_refl). destruct Hin as [H|H].
    - injection H as -> ->. eauto.
    - inversion HI as [|? ? ? Hlt _]; subst. apply Hlt in H. lia.
  Qed.

  Lemma inv_progress n x c S gc : inv n x c S gc ->
    (forall i, i < n -> procs c i = Ret (x i)) /\ (forall i j, chan c i j = []) \/ exists c', sync_step n c c'.
  Proof.
    intros (HF & HO & HI & HC & HM). destruct (min_head n S) as [Hnil|(i & τ & o & s & Hi & HS & Hmin)].
    - left. assert (Hall : forall i, S i = []) by (intros i; destruct (le_lt_dec n i); auto). split.
      + intros i Hi. specialize (HF i Hi). rewrite Hall in HF. inversion HF; reflexivity.
      + intros i j. rewrite HC. specialize (HM i j). rewrite !Hall in HM. cbn in HM. rewrite app_nil_r in HM. rewrite HM. reflexivity.
    - right.
      assert (Hlow : forall j, S j <> [] -> j < n) by (intros j Hj; destruct (le_lt_dec n j) as [Hle|]; [exfalso; apply Hj, HO, Hle|assumption]).
      destruct o as [j t v|a t v].
      + (* the earliest operation is a send from i to j *)
        assert (Hs : In (τ, (t, v)) (recvs i (S j))).
        { rewrite <- HM. apply in_or_app. right. apply sends_in_iff. rewrite HS. left; reflexivity. }
        apply recvs_in in Hs.
        assert (Hj : j < n) by (apply Hlow; intros E; rewrite E in Hs; destruct Hs).
        destruct (head_is (S j) τ (ORecv i t v) (HI j) Hs (fun τ' o' s' E => Hmin j τ' o' s' Hj E)) as [sj Ej].
        assert (Hij : i <> j) by (intros ->; rewrite HS in Ej; discriminate).
        pose proof (HF i Hi) as Hf. rewrite HS in Hf. inversion Hf as [|d0 t0 v0 k τ0 s0 y Hf' E1 E2 E3|]; subst.
        pose proof (HF j Hj) as Hg. rewrite Ej in Hg. inversion Hg as [| |a t0 v0 k' τ0 s0 y Hg' E4 E5 E6]; subst.
        eexists. eapply (step_rendezvous n c i j t v k k'); auto.
        intros w Hw. specialize (HM i j). rewrite HC in Hw. rewrite HS, Ej in HM. rewrite sends_cons, recvs_cons, !Nat.eqb_refl in HM.
        destruct (gc i j) as [|[τ1 m1] g]; [destruct Hw|]. cbn [app] in HM. injection HM as -> -> HM.
        assert (Hin : In (τ, (t, v)) (recvs i sj)) by (rewrite <- HM; apply in_or_app; right; left; reflexivity).
        apply recvs_in in Hin. specialize (HI j). rewrite Ej in HI. inversion HI as [|? ? ? Hlt _]; subst. apply Hlt in Hin. lia.
      + (* the earliest operation is a receive by i from a *)
        pose proof (HF i Hi) as Hf. rewrite HS in Hf. inversion Hf as [| |a0 t0 v0 k τ0 s0 y Hf' E1 E2 E3]; subst.
        pose proof (HM a i) as Hm. rewrite HS in Hm. rewrite recvs_cons, Nat.eqb_refl in Hm. cbn [app] in Hm.
        destruct (gc a i) as [|[τ1 [t1 v1]] g] eqn:Eg.
        * cbn [app] in Hm. assert (Hs : In (τ, (t, v)) (sends i (S a))) by (rewrite Hm; left; reflexivity).
          apply sends_in_iff in Hs.
          assert (Ha : a < n) by (apply Hlow; intros E; rewrite E in Hs; destruct Hs).
          destruct (head_is (S a) τ (OSend i t v) (HI a) Hs (fun τ' o' s' E => Hmin a τ' o' s' Ha E)) as [sa Ea].
          assert (Hia : a <> i) by (intros ->; rewrite HS in Ea; discriminate).
          pose proof (HF a Ha) as Hg. rewrite Ea in Hg. inversion Hg as [|d0 t0 v0 k' τ0 s0 y Hg' E4 E5 E6|]; subst.
          eexists. eapply (step_rendezvous n c a i t v k' k); auto. rewrite HC, Eg. intros w [].
        * injection Hm as -> -> -> Hm. eexists. eapply (step_recv n c i a t k [] v (map snd g)); auto.
          rewrite HC, Eg. reflexivity.
  Qed.

  Lemma work_proj n G : Forall (fun e => e_src e <> e_dst e) G -> work n (fun i => proj i 0 G) <= 2 * List.length G.
  Proof.
    intros HG. assert (Gen : forall τ, work n (fun i => proj i τ G) <= 2 * List.length G); [|apply Gen].
    induction G as [|e G IH]; intros τ.
    - replace (work n (fun i => proj i τ [])) with 0; [cbn; lia|]. induction n as [|n IHn]; [reflexivity|]. cbn in IHn |- *. rewrite <- IHn. reflexivity.
    - inversion HG as [|? ? He HG']; subst. specialize (IH HG' (S τ)). cbn [List.length].
      assert (Hw : work n (fun i => proj i τ (e :: G)) =
                   work n (fun i => proj i (S τ) G) + (if Nat.ltb (e_src e) n then 1 else 0) + (if Nat.ltb (e_dst e) n then 1 else 0)).
      { clear IH. induction n as [|n IHn]; [reflexivity|]. cbn [work]. rewrite IHn. cbn [proj]. rewrite app_length.
        destruct (Nat.eqb_spec (e_src e) n) as [E1|E1].
        - replace (Nat.ltb (e_src e) n) with false by (symmetry; apply Nat.ltb_ge; lia).
          replace (Nat.ltb (e_src e) (S n)) with true by (symmetry; apply Nat.ltb_lt; lia).
          destruct (Nat.ltb_spec (e_dst e) n), (Nat.ltb_spec (e_dst e) (S n)); cbn; lia.
        - destruct (Nat.eqb_spec (e_dst e) n) as [E2|E2].
          + replace (Nat.ltb (e_dst e) n) with false by (symmetry; apply Nat.ltb_ge; lia).
            replace (Nat.ltb (e_dst e) (S n)) with true by (symmetry; apply Nat.ltb_lt; lia).
            destruct (Nat.ltb_spec (e_src e) n), (Nat.ltb_spec (e_src e) (S n)); cbn; lia.
          + destruct (Nat.ltb_spec (e_src e) n), (Nat.ltb_spec (e_src e) (S n)), (Nat.ltb_spec (e_dst e) n), (Nat.ltb_spec (e_dst e) (S n)); cbn; lia. }
      rewrite Hw. destruct (Nat.ltb (e_src e) n), (Nat.ltb (e_dst e) n); lia.
  Qed.

  (** The generic theorem: if the ranks' programs are the projections of one global
      sequence of messages, then in every execution, whichever sends the MPI library
      buffers, the number of steps is bounded, no reachable configuration other than the
      final one is stuck (not even if nothing is buffered from then on), and the final
      one has the prescribed results and no message left. *)
  (** Auxiliary, nothing in the code by itself. *)
  Definition terminates_with (n : nat) (P : nat -> proc) (x : nat -> X) : Prop :=
    exists bound, forall m c, steps n m (init P) c ->
      m <= bound /\
      (((forall i, i < n -> procs c i = Ret (x i)) /\ (forall i j, chan c i j = [])) \/ exists c', sync_step n c c').

  (** The same without times. *)
  (** Auxiliary, nothing in the code by itself. *)
  Inductive does : proc -> list op -> X -> Prop :=
  | d_ret : forall x, does (Ret x) [] x
  | d_send : forall d t v k s x, does k s x -> does (Send d t v k) (OSend d t v :: s) x
  | d_recv : forall a t v k s x, does (k v) s x -> does (Recv a t k) (ORecv a t v :: s) x.
  Lemma does_follows p ops x : does p ops x -> forall s, map snd s = ops -> follows p s x.
  Proof.
    induction 1; intros l E.
    - destruct l; [constructor|discriminate].
    - destruct l as [|[τ o] l]; [discriminate|]. injection E as -> E. constructor. auto.
    - destruct l as [|[τ o] l]; [discriminate|]. injection E as -> E. constructor. auto.
  Qed.
  (** Auxiliary, nothing in the code by itself. *)
  Definition ops_of (i : nat) (e : event) : list op :=
    if Nat.eqb (e_src e) i then [OSend (e_dst e) (e_tag e) (e_val e)]
    else if Nat.eqb (e_dst e) i then [ORecv (e_src e) (e_tag e) (e_val e)] else [].
  Lemma proj_ops i τ G : map snd (proj i τ G) = flat_map (ops_of i) G.
  Proof.
    revert τ. induction G as [|e G IH]; intros τ; [reflexivity|]. cbn [proj flat_map]. rewrite map_app, IH. f_equal.
    unfold ops_of. destruct (Nat.eqb (e_src e) i); [reflexivity|]. destruct (Nat.eqb (e_dst e) i); reflexivity.
  Qed.

  Theorem global_sequence_terminates n G P x :
    Forall (fun e => e_src e <> e_dst e) G -> Forall (fun e => e_src e < n /\ e_dst e < n) G ->
    (forall i, i < n -> does (P i) (flat_map (ops_of i) G) (x i)) -> terminates_with n P x.
  Proof.
    intros H1 H2 H3'.
    assert (H3 : forall i, i < n -> follows (P i) (proj i 0 G) (x i)) by (intros i Hi; apply (does_follows _ _ _ (H3' i Hi)), proj_ops). exists (2 * List.length G). pose proof (inv_init n G P x H1 H2 H3) as Hinv.
    assert (Gen : forall m c S gc c', inv n x c S gc -> steps n m c c' ->
       exists S' gc', inv n x c' S' gc' /\ m + work n S' <= work n S).
    { induction m as [|m IH]; intros c S gc c' Hi Hs; inversion Hs as [|m0 c0 c1 c2 Hst Hs']; subst; [eauto|].
      destruct (inv_step n x c S gc c1 Hi Hst) as (S1 & g1 & Hi1 & Hw). destruct (IH _ _ _ _ Hi1 Hs') as (S2 & g2 & Hi2 & Hw2).
      exists S2, g2. split; [exact Hi2|lia]. }
    intros m c Hs. destruct (Gen m _ _ _ _ Hinv Hs) as (S' & g' & Hi' & Hw). split.
    - pose proof (work_proj n G H1). lia.
    - eapply inv_progress; eassumption.
  Qed.
End MPI.
Arguments proc V X : clear implicits.
Arguments config V X : clear implicits.
Arguments event V : clear implicits.

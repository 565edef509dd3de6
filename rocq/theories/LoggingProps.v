(** The log of a run.  C142. *)
From Coq Require Import String Ascii Lia ZArith List.
From Verif Require Import Base LogSpec Logging.
Close Scope Q_scope.
Open Scope string_scope.

(** A program: events after the import of gusto. *)
Fixpoint run_history (e : env) (L : levels) (h : list event) (pr : proc) : option proc :=
  match h with
  | [] => Some pr
  | Log l m :: tl => run_history e L tl (log L l m pr)
  | Output d :: tl => match update_logfile_location e L d pr with Some pr' => run_history e L tl pr' | None => None end
  end.
Definition fresh (m : fpath -> option (list string)) : proc := mk_proc [] m [] 0.
Definition started (e : env) (L : levels) (stamp rank pid : string) (m : fpath -> option (list string)) : proc :=
  set_log_handler e L stamp rank pid (fresh m).

(** *** Levels *)
Definition documented (o : option string) : Prop := match o with None => True | Some s => documented_level s <> None end.
Definition wanted (o : option string) (default : Z) : Z := match o with None => default | Some s => match documented_level s with Some z => z | None => default end end.
Lemma documented_known s z : documented_level s = Some z -> name_to_level s = Some z /\ (10 <= z)%Z.
Proof.
  unfold documented_level, name_to_level.
  destruct (String.eqb_spec s "DEBUG") as [->|]; [intros [= <-]; cbn; split; [reflexivity|lia]|].
  destruct (String.eqb_spec s "INFO") as [->|]; [intros [= <-]; cbn; split; [reflexivity|lia]|].
  destruct (String.eqb_spec s "WARNING") as [->|]; [intros [= <-]; cbn; split; [reflexivity|lia]|].
  destruct (String.eqb_spec s "ERROR") as [->|]; [intros [= <-]; cbn; split; [reflexivity|lia]|].
  destruct (String.eqb_spec s "CRITICAL") as [->|]; [intros [= <-]; cbn; split; [reflexivity|lia]|discriminate].
Qed.
Lemma wanted_value o d : documented o -> (10 <= d)%Z -> (10 <= wanted o d)%Z /\ (o <> None -> level_value o = Some (wanted o d)).
Proof.
  destruct o as [s|]; cbn; [|intros; split; [assumption|congruence]]. intros H Hd. destruct (documented_level s) as [z|] eqn:E; [|congruence].
  apply documented_known in E as [E1 E2]. split; [exact E2|intros _; exact E1].
Qed.
(** With documented level names the import succeeds, file and console get their own variable's level, else the general one, else
    INFO, and the logger itself suppresses nothing either wants. *)
Theorem documented_levels_respected : forall e, documented (e_log e) -> documented (e_file e) -> documented (e_console e) ->
  exists L, setup_levels e = Ok L /\
    l_file L = wanted (e_file e) (wanted (e_log e) 20) /\ l_console L = wanted (e_console e) (wanted (e_log e) 20) /\
    (effective L <= l_file L)%Z /\ (effective L <= l_console L)%Z.
Proof.
  intros e Hl Hf Hc. destruct (wanted_value (e_log e) 20 Hl ltac:(lia)) as [W1 W2].
  destruct (wanted_value (e_file e) (wanted (e_log e) 20) Hf W1) as [F1 F2]. destruct (wanted_value (e_console e) (wanted (e_log e) 20) Hc W1) as [C1 C2].
  set (w := wanted (e_log e) 20) in *. set (f := wanted (e_file e) w) in *. set (c := wanted (e_console e) w) in *.
  assert (A : level_value (e_log e) = Some w) by (destruct (e_log e); [apply W2; discriminate|reflexivity]).
  assert (B : level_value (match e_file e with Some s => Some s | None => e_log e end) = Some f).
  { destruct (e_file e); [apply F2; discriminate|exact A]. }
  assert (C : level_value (match e_console e with Some s => Some s | None => e_log e end) = Some c).
  { destruct (e_console e); [apply C2; discriminate|exact A]. }
  exists (mk_levels (Z.min w (Z.min f c)) f c). unfold setup_levels, raw_levels. cbn [map]. rewrite A, B, C. cbn [l_file l_console].
  split; [reflexivity|]. split; [reflexivity|]. split; [reflexivity|]. unfold effective. cbn [l_logger].
  destruct (Z.eqb_spec (Z.min w (Z.min f c)) 0); lia.
Qed.

(** *** Files *)
Lemma fpath_eqb_spec p q : Bool.reflect (p = q) (fpath_eqb p q).
Proof.
  destruct p as [a b], q as [c d]. unfold fpath_eqb. cbn.
  destruct (String.eqb_spec a c) as [->|N]; [|constructor; congruence]. destruct (String.eqb_spec b d) as [->|N]; constructor; congruence.
Qed.
Lemma set_same m p v : set_file m p v p = v.
Proof. unfold set_file. destruct (fpath_eqb_spec p p); congruence. Qed.
Lemma set_other m p q v : q <> p -> set_file m p v q = m q.
Proof. unfold set_file. destruct (fpath_eqb_spec q p); congruence. Qed.
Lemma substring_full s : substring 0 (String.length s) s = s.
Proof. induction s as [|c s IH]; cbn; [reflexivity|rewrite IH; reflexivity]. Qed.
Definition tail_name (e : env) (stamp rank pid : string) : string := "gusto-" ++ stamp ++ (if par_file e then "_" ++ rank else "") ++ "_" ++ pid ++ ".log".
Lemma strip_temp_name e stamp rank pid : strip_temp (temp_name e stamp rank pid) = tail_name e stamp rank pid.
Proof.
  unfold strip_temp, temp_name, tail_name. set (s := stamp ++ _).
  change (substring 0 (String.length ("gusto-" ++ s)) ("gusto-" ++ s) = "gusto-" ++ s). apply substring_full.
Qed.
Lemma temp_is_not_final e stamp rank pid d d' : ((d, temp_name e stamp rank pid) : fpath) <> (d', tail_name e stamp rank pid).
Proof. unfold temp_name, tail_name. intros H. discriminate H. Qed.
Lemma messages_app t a b : messages t (a ++ b) = (messages t a ++ messages t b)%list.
Proof. unfold messages. apply flat_map_app. Qed.
Lemma of_program_app a b : of_program (a ++ b) = (of_program a ++ of_program b)%list.
Proof. unfold of_program. apply filter_app. Qed.
Definition outputs (h : list event) : bool := existsb (fun e => match e with Output _ => true | _ => false end) h.

(** the two handlers of a rank *)
Definition fileh L nm p := mk_handler nm (ToFile p) (l_file L).
Definition conh L := mk_handler "gusto-console-log" ToConsole (l_console L).
Definition written (b : bool) (l : list string) (m : string) : list string := if b then (l ++ [m])%list else l.

Section Rank.
  Variables (e : env) (L : levels) (stamp rank pid : string) (m0 : fpath -> option (list string)).
  (** does this rank write to a file, to the console? *)
  Definition writes_file : bool := ((rank =? "0") || par_file e)%bool.
  Definition writes_console : bool := ((rank =? "0") || par_console e)%bool.
  Definition temp_path : fpath := ("results", temp_name e stamp rank pid).
  Definition final_path (h : list event) : fpath := if outputs h then (first_output h, tail_name e stamp rank pid) else temp_path.
  Definition consoles : list handler := if writes_console then [conh L] else [].
  Definition file_threshold := Z.max (effective L) (l_file L).
  Definition console_threshold := Z.max (effective L) (l_console L).

  Definition handlers_after (moved : bool) (p : fpath) : list handler :=
    if writes_file then if moved then (consoles ++ [fileh L "gusto-file-log" p])%list else (fileh L "gusto-temp-file-log" p :: consoles)
    else if writes_console then consoles else [mk_handler "null" ToNothing 0%Z].

  Lemma max_le a b l : ((Z.max a b <=? l) = (a <=? l) && (b <=? l))%Z.
  Proof. destruct (Z.leb_spec (Z.max a b) l), (Z.leb_spec a l), (Z.leb_spec b l); cbn; reflexivity || lia. Qed.
  Lemma log_after moved p l m pr : handlers pr = handlers_after moved p ->
    handlers (log L l m pr) = handlers pr /\ barriers (log L l m pr) = barriers pr /\
    console (log L l m pr) = (if writes_console && (console_threshold <=? l)%Z then console pr ++ [m] else console pr)%list /\
    files (log L l m pr) = (if writes_file && (file_threshold <=? l)%Z then set_file (files pr) p (Some (content (files pr) p ++ [m])%list) else files pr).
  Proof.
    intros H. unfold log, console_threshold, file_threshold. rewrite !max_le. unfold handlers_after, consoles in H.
    destruct (effective L <=? l)%Z; cbn [andb]; [|rewrite !Bool.andb_false_r; auto].
    destruct writes_file, writes_console, moved; cbn [app] in H; rewrite H; cbn [fold_left andb]; unfold emit at 1; cbn [h_level h_sink fileh conh];
      destruct (l_file L <=? l)%Z eqn:E1; destruct (l_console L <=? l)%Z eqn:E2; unfold emit; cbn [h_level h_sink fileh conh handlers files console barriers]; rewrite ?E1, ?E2;
      cbn [handlers files console barriers]; try (destruct (0 <=? l)%Z); repeat split; auto.
  Qed.

  (** the state after history h *)
  Definition good (h : list event) (pr : proc) : Prop :=
    handlers pr = handlers_after (outputs h) (final_path h) /\
    barriers pr = (if par_file e then if outputs h then 2%nat else 1%nat else 0%nat) /\
    of_program (console pr) = (if writes_console then of_program (messages console_threshold (Log 20 "Running" :: h)) else []) /\
    (writes_console = false -> console pr = []) /\
    (if writes_file then exists l, files pr (final_path h) = Some l /\ of_program l = of_program (messages file_threshold (Log 20 "Running" :: h)) /\
        (outputs h = true -> files pr temp_path = None) /\ forall q, q <> final_path h -> q <> temp_path -> files pr q = m0 q
     else files pr = m0).

  Lemma good_start : good [] (started e L stamp rank pid m0).
  Proof.
    unfold started, set_log_handler. set (pr1 := if rank =? "0" then _ else _).
    assert (H : handlers pr1 = handlers_after false temp_path /\ barriers pr1 = (if par_file e then 1%nat else 0%nat) /\ console pr1 = [] /\
      files pr1 = if writes_file then set_file m0 temp_path (Some []) else m0).
    { unfold pr1, handlers_after, consoles, writes_file, writes_console, fresh. destruct (rank =? "0"), (par_file e), (par_console e); cbn; auto. }
    destruct H as (H1 & H2 & H3 & H4). destruct (log_after false temp_path 20 "Running" pr1 H1) as (K1 & K2 & K3 & K4).
    unfold good. unfold final_path. cbn [outputs existsb]. rewrite K1, H1, K2, H2, K3, H3, K4, H4.
    split; [reflexivity|]. split; [destruct (par_file e); reflexivity|]. unfold messages. cbn [flat_map app].
    split; [|split].
    - destruct writes_console; cbn [andb]; [|reflexivity]. destruct (console_threshold <=? 20)%Z; reflexivity.
    - intros ->. reflexivity.
    - destruct writes_file; cbn [andb]; [|reflexivity]. destruct (file_threshold <=? 20)%Z.
      + eexists. rewrite set_same. split; [reflexivity|]. unfold content. rewrite set_same. split; [reflexivity|]. split; [discriminate|].
        intros q Hq _. rewrite !set_other by exact Hq. reflexivity.
      + exists []. rewrite set_same. split; [reflexivity|]. split; [reflexivity|]. split; [discriminate|]. intros q Hq _. apply set_other; exact Hq.
  Qed.
  Lemma outputs_app a b : outputs (a ++ b) = (outputs a || outputs b)%bool.
  Proof. unfold outputs. apply existsb_app. Qed.
  Lemma first_output_app a b : outputs a = true -> first_output (a ++ b) = first_output a.
  Proof.
    unfold first_output, outputs. intros H. rewrite flat_map_app. destruct (flat_map _ a) as [|d tl] eqn:E; [|reflexivity].
    exfalso. apply existsb_exists in H as (x & Hx & T). destruct x as [|d]; [discriminate|].
    assert (K : In d (flat_map (fun e0 => match e0 with Output d0 => [d0] | Log _ _ => [] end) a)) by (apply in_flat_map; exists (Output d); split; [exact Hx|left; reflexivity]).
    rewrite E in K. destruct K.
  Qed.
  Lemma no_outputs a : outputs a = false -> flat_map (fun e0 => match e0 with Output d0 => [d0] | Log _ _ => [] end) a = [].
  Proof.
    unfold outputs. induction a as [|x a IH]; intros H; [reflexivity|]. destruct x as [l m|d]; cbn in *; [apply IH; exact H|discriminate].
  Qed.
  Lemma final_path_log h l m : final_path (h ++ [Log l m]) = final_path h.
  Proof.
    unfold final_path. rewrite outputs_app. cbn. rewrite Bool.orb_false_r. destruct (outputs h) eqn:E; [|reflexivity].
    rewrite first_output_app by exact E. reflexivity.
  Qed.
  Lemma of_program_snoc l m : of_program (l ++ [m]) = (of_program l ++ of_program [m])%list.
  Proof. apply of_program_app. Qed.
  Lemma messages_cons t x h : messages t (x :: h) = (messages t [x] ++ messages t h)%list.
  Proof. apply (messages_app t [x] h). Qed.

  (** the logger's own debugging messages change nothing for the program *)
  Lemma good_log_own h m pr : own m = true -> good h pr -> good h (log L 10 m pr).
  Proof.
    intros Hm (G1 & G2 & G3 & G4 & G5). destruct (log_after _ _ 10 m pr G1) as (K1 & K2 & K3 & K4).
    assert (Z : forall l, of_program (l ++ [m]) = of_program l).
    { intros l. rewrite of_program_app. unfold of_program at 2. cbn [filter]. rewrite Hm. cbn. apply app_nil_r. }
    unfold good. rewrite K1, K2, K3, K4. split; [exact G1|]. split; [exact G2|]. split; [|split].
    - destruct (writes_console && (console_threshold <=? 10)%Z)%bool; rewrite ?Z; exact G3.
    - intros H. rewrite H. cbn. apply G4; exact H.
    - destruct writes_file; cbn [andb]; [|exact G5]. destruct G5 as (l & A & B & C & D). destruct (file_threshold <=? 10)%Z; [|exists l; auto].
      exists (l ++ [m])%list. rewrite set_same. unfold content. rewrite A. split; [reflexivity|]. rewrite Z. split; [exact B|]. split.
      + intros O. rewrite set_other; [apply C; exact O|]. unfold final_path. rewrite O. apply temp_is_not_final.
      + intros q Q1 Q2. rewrite set_other by exact Q1. apply D; assumption.
  Qed.
  Lemma good_log h l m pr : good h pr -> good (h ++ [Log l m]) (log L l m pr).
  Proof.
    intros (G1 & G2 & G3 & G4 & G5). destruct (log_after _ _ l m pr G1) as (K1 & K2 & K3 & K4).
    unfold good. rewrite final_path_log, outputs_app. cbn [outputs existsb]. rewrite Bool.orb_false_r. rewrite K1, K2, K3, K4.
    split; [exact G1|]. split; [exact G2|].
    assert (M : forall t, of_program (messages t (Log 20 "Running" :: h ++ [Log l m])) = (of_program (messages t (Log 20 "Running" :: h)) ++ of_program (if (t <=? l)%Z then [m] else []))%list).
    { intros t. change (Log 20 "Running" :: h ++ [Log l m])%list with ((Log 20 "Running" :: h) ++ [Log l m])%list.
      rewrite messages_app, of_program_app. f_equal. unfold messages. cbn. rewrite app_nil_r. reflexivity. }
    rewrite !M. split; [|split].
    - destruct writes_console; cbn [andb]; [|exact G3]. destruct (console_threshold <=? l)%Z; [rewrite of_program_app, G3; reflexivity|].
      cbn. rewrite app_nil_r. exact G3.
    - intros H. rewrite H. cbn. apply G4; exact H.
    - destruct writes_file; cbn [andb]; [|exact G5]. destruct G5 as (c & A & B & C & D). destruct (file_threshold <=? l)%Z.
      + exists (c ++ [m])%list. rewrite set_same. unfold content. rewrite A. split; [reflexivity|]. rewrite of_program_app, B. split; [reflexivity|]. split.
        * intros O. rewrite set_other; [apply C; exact O|]. unfold final_path. rewrite O. apply temp_is_not_final.
        * intros q Q1 Q2. rewrite set_other by exact Q1. apply D; assumption.
      + exists c. split; [exact A|]. rewrite B. cbn. rewrite app_nil_r. split; [reflexivity|]. split; assumption.
  Qed.
  Lemma is_temp_consoles : filter is_temp consoles = [].
  Proof. unfold consoles. destruct writes_console; reflexivity. Qed.
  Lemma good_output h d pr : good h pr -> exists pr', update_logfile_location e L d pr = Some pr' /\ good (h ++ [Output d]) pr'.
  Proof.
    intros G. pose proof G as (G1 & G2 & G3 & G4 & G5).
    assert (M : forall t, messages t (Log 20 "Running" :: h ++ [Output d]) = messages t (Log 20 "Running" :: h)).
    { intros t. change (Log 20 "Running" :: h ++ [Output d])%list with ((Log 20 "Running" :: h) ++ [Output d])%list. rewrite messages_app. cbn. apply app_nil_r. }
    assert (Same : outputs h = true \/ writes_file = false -> filter is_temp (handlers pr) = []).
    { intros H. rewrite G1. unfold handlers_after. destruct H as [->| ->].
      - destruct writes_file; [rewrite filter_app, is_temp_consoles; reflexivity|destruct writes_console eqn:W; [apply is_temp_consoles|reflexivity]].
      - destruct writes_console eqn:W; [apply is_temp_consoles|reflexivity]. }
    unfold update_logfile_location. destruct (outputs h) eqn:O.
    - rewrite Same by auto. exists pr. split; [reflexivity|]. unfold good. rewrite !M.
      assert (FP : final_path (h ++ [Output d]) = final_path h).
      { unfold final_path. rewrite outputs_app, O. cbn. rewrite first_output_app by exact O. reflexivity. }
      rewrite FP, outputs_app, O. cbn [orb]. auto.
    - destruct writes_file eqn:WF.
      + (* the move *)
        assert (FPh : final_path h = temp_path) by (unfold final_path; rewrite O; reflexivity).
        assert (FP : final_path (h ++ [Output d]) = (d, tail_name e stamp rank pid)).
        { unfold final_path, first_output. rewrite outputs_app, O. cbn [orb outputs existsb]. rewrite flat_map_app, no_outputs by exact O. reflexivity. }
        assert (Hs : handlers pr = fileh L "gusto-temp-file-log" temp_path :: consoles).
        { rewrite G1. unfold handlers_after. rewrite WF, FPh. reflexivity. }
        rewrite Hs. cbn [filter]. unfold is_temp at 1. cbn [h_name fileh String.eqb Ascii.eqb Bool.eqb]. rewrite is_temp_consoles. cbn [h_sink fileh].
        set (pr1 := log L 10 "Closing temporary logger and moving logfile" pr).
        assert (G' : good h pr1) by (apply good_log_own; [reflexivity|exact G]). clear G G1 G2 G3 G4 G5. destruct G' as (G1 & G2 & G3 & G4 & G5).
        rewrite WF in G5. destruct G5 as (c & A & B & _ & D). rewrite FPh in *.
        cbn [snd temp_path]. rewrite strip_temp_name. set (q := (d, tail_name e stamp rank pid) : fpath). fold q in FP.
        eexists. split; [reflexivity|].
        set (pr2 := add_handler _ _).
        apply good_log_own; [reflexivity|]. 
        assert (Fl : filter (fun g => negb (same_handler (fileh L "gusto-temp-file-log" temp_path) g)) (handlers pr1) = consoles).
        { rewrite G1. unfold handlers_after. rewrite WF, O. cbn [filter]. unfold same_handler at 1. cbn [h_sink h_name fileh].
          destruct (fpath_eqb_spec temp_path temp_path) as [_|N]; [|congruence]. cbn. unfold consoles. destruct writes_console; reflexivity. }
        assert (Hf : forall r, files pr2 r = if fpath_eqb r q then Some c else if fpath_eqb r temp_path then None else files pr1 r).
        { intros r. unfold pr2. cbn [add_handler with_files files]. destruct (par_file e); cbn [barrier files]; unfold open_a, move, content, set_file.
          all: destruct (fpath_eqb_spec r q) as [->|Nr];
            [destruct (fpath_eqb_spec q temp_path) as [E|_]; [exfalso; symmetry in E; revert E; apply temp_is_not_final|]; destruct (fpath_eqb_spec q q); [rewrite A; reflexivity|congruence]|reflexivity]. }
        unfold good. rewrite FP, !M, outputs_app, O. cbn [outputs existsb orb].
        split; [|split; [|split; [|split]]].
        * unfold pr2. cbn [add_handler with_files handlers]. unfold handlers_after. rewrite WF.
          assert (Hh : forall x y z w, handlers (if par_file e then barrier (mk_proc x y z w) else mk_proc x y z w) = x) by (intros; destruct (par_file e); reflexivity).
          rewrite Hh. rewrite Fl. reflexivity.
        * unfold pr2. cbn [add_handler with_files barriers]. rewrite O in G2. destruct (par_file e); cbn [barrier barriers]; rewrite G2; reflexivity.
        * assert (Hc : console pr2 = console pr1) by (unfold pr2; cbn [add_handler with_files console]; destruct (par_file e); reflexivity). rewrite Hc. exact G3.
        * assert (Hc : console pr2 = console pr1) by (unfold pr2; cbn [add_handler with_files console]; destruct (par_file e); reflexivity). rewrite Hc. exact G4.
        * rewrite WF. exists c. rewrite Hf. destruct (fpath_eqb_spec q q); [|congruence]. split; [reflexivity|]. split; [exact B|]. split.
          -- intros _. rewrite Hf. destruct (fpath_eqb_spec temp_path q) as [E|_]; [exfalso; revert E; apply temp_is_not_final|].
             destruct (fpath_eqb_spec temp_path temp_path); congruence.
          -- intros r R1 R2. rewrite Hf. destruct (fpath_eqb_spec r q); [congruence|]. destruct (fpath_eqb_spec r temp_path); [congruence|]. apply D; assumption.
      + rewrite Same by auto. exists pr. split; [reflexivity|]. unfold good. rewrite !M. rewrite WF in *. rewrite outputs_app, O.
        assert (PF : par_file e = false) by (unfold writes_file in WF; apply Bool.orb_false_iff in WF; apply WF). rewrite PF in *.
        split; [rewrite G1; unfold handlers_after; rewrite WF; reflexivity|]. auto.
  Qed.
  Lemma good_run h : forall h0 pr, good h0 pr -> exists pr', run_history e L h pr = Some pr' /\ good (h0 ++ h) pr'.
  Proof.
    induction h as [|x h IH]; intros h0 pr G; [exists pr; rewrite app_nil_r; split; [reflexivity|exact G]|].
    replace (h0 ++ x :: h)%list with ((h0 ++ [x]) ++ h)%list by (rewrite <- app_assoc; reflexivity).
    destruct x as [l m|d]; cbn [run_history].
    - apply IH. apply good_log; exact G.
    - destruct (good_output h0 d pr G) as (pr' & -> & G'). apply IH; exact G'.
  Qed.
  Lemma good_all h : exists pr, run_history e L h (started e L stamp rank pid m0) = Some pr /\ good h pr.
  Proof. apply (good_run h [] _ good_start). Qed.
End Rank.

(** *** Theorems *)
(** Rank 0 (and every rank with GUSTO_PARALLEL_LOG=FILE or BOTH): whatever the program logs and however many models it sets up,
    nothing is lost, duplicated or reordered when the log file moves; the file is in the directory of the first model; the temporary
    file is gone; no other file is touched. *)
Theorem log_file_complete : forall e L stamp rank pid (m0 : fpath -> option (list string)) h, rank = "0" \/ par_file e = true ->
  exists pr l, run_history e L h (started e L stamp rank pid m0) = Some pr /\
    let name := stamp ++ (if par_file e then "_" ++ rank else "") ++ "_" ++ pid ++ ".log" in
    let p := if outputs h then (first_output h, "gusto-" ++ name) else ("results", "temp-gusto-" ++ name) in
    files pr p = Some l /\
    of_program l = of_program (messages (Z.max (effective L) (l_file L)) (Log 20 "Running" :: h)) /\
    (outputs h = true -> files pr ("results", "temp-gusto-" ++ name) = None) /\
    (forall q, q <> p -> q <> ("results", "temp-gusto-" ++ name) -> files pr q = m0 q).
Proof.
  intros e L stamp rank pid m0 h Hr. destruct (good_all e L stamp rank pid m0 h) as (pr & R & _ & _ & _ & _ & G).
  assert (W : writes_file e rank = true) by (unfold writes_file; destruct Hr as [->| ->]; [reflexivity|apply Bool.orb_true_r]).
  rewrite W in G. destruct G as (l & A & B & C & D). exists pr, l. split; [exact R|]. cbv zeta. split; [exact A|]. split; [exact B|]. split; [exact C|exact D].
Qed.
(** Rank 0 (and every rank with CONSOLE or BOTH): the console gets every message of at least its level, once, in order. *)
Theorem console_complete : forall e L stamp rank pid (m0 : fpath -> option (list string)) h,
  exists pr, run_history e L h (started e L stamp rank pid m0) = Some pr /\
    (rank = "0" \/ par_console e = true -> of_program (console pr) = of_program (messages (Z.max (effective L) (l_console L)) (Log 20 "Running" :: h))) /\
    (rank <> "0" -> par_console e = false -> console pr = []) /\
    (rank <> "0" -> par_file e = false -> files pr = m0).
Proof.
  intros e L stamp rank pid m0 h. destruct (good_all e L stamp rank pid m0 h) as (pr & R & _ & _ & G3 & G4 & G5). exists pr. split; [exact R|].
  split; [|split].
  - intros Hr. assert (W : writes_console e rank = true) by (unfold writes_console; destruct Hr as [->| ->]; [reflexivity|apply Bool.orb_true_r]).
    rewrite W in G3. exact G3.
  - intros N P. apply G4. unfold writes_console. rewrite P. destruct (String.eqb_spec rank "0"); [contradiction|reflexivity].
  - intros N P. assert (W : writes_file e rank = false) by (unfold writes_file; rewrite P; destruct (String.eqb_spec rank "0"); [contradiction|reflexivity]).
    rewrite W in G5. exact G5.
Qed.
(** With the documented level names, the thresholds are those of the file and the console alone. *)
Theorem documented_thresholds : forall e L, documented (e_log e) -> documented (e_file e) -> documented (e_console e) -> setup_levels e = Ok L ->
  Z.max (effective L) (l_file L) = wanted (e_file e) (wanted (e_log e) 20) /\
  Z.max (effective L) (l_console L) = wanted (e_console e) (wanted (e_log e) 20).
Proof.
  intros e L H1 H2 H3 E. destruct (documented_levels_respected e H1 H2 H3) as (L' & E' & F & C & A & B). rewrite E in E'. injection E' as <-.
  rewrite <- F, <- C. split; lia.
Qed.
(** All ranks of a program that does the same things everywhere enter the same number of barriers: no rank waits for ever. *)
Theorem logging_does_not_deadlock : forall e L L' stamp stamp' rank rank' pid pid' (m m' : fpath -> option (list string)) h h' pr pr',
  outputs h = outputs h' ->
  run_history e L h (started e L stamp rank pid m) = Some pr -> run_history e L' h' (started e L' stamp' rank' pid' m') = Some pr' ->
  barriers pr = barriers pr'.
Proof.
  intros e L L' stamp stamp' rank rank' pid pid' m m' h h' pr pr' Ho R R'.
  destruct (good_all e L stamp rank pid m h) as (p1 & R1 & _ & G & _). destruct (good_all e L' stamp' rank' pid' m' h') as (p2 & R2 & _ & G' & _).
  rewrite R in R1. injection R1 as <-. rewrite R' in R2. injection R2 as <-. rewrite G, G', Ho. reflexivity.
Qed.
(** Ranks write to different files (time stamps have a fixed length, rank numbers no underscore). *)
Fixpoint no_underscore (s : string) : Prop := match s with EmptyString => True | String c t => c <> "_"%char /\ no_underscore t end.
Lemma append_same_length a b x y : String.length a = String.length b -> a ++ x = b ++ y -> a = b /\ x = y.
Proof.
  revert b. induction a as [|c a IH]; intros [|d b] H E; cbn in *; try discriminate; [auto|]. injection E as -> E. injection H as H.
  destruct (IH b H E) as [-> ->]. auto.
Qed.
Lemma up_to_underscore a b x y : no_underscore a -> no_underscore b -> a ++ "_" ++ x = b ++ "_" ++ y -> a = b /\ x = y.
Proof.
  revert b. induction a as [|c a IH]; intros [|d b] Ha Hb E; cbn in *.
  - injection E as ->. auto.
  - injection E as E1 E2. destruct Hb as [Hb _]. congruence.
  - injection E as E1 E2. destruct Ha as [Ha _]. congruence.
  - injection E as -> E. destruct (IH b (proj2 Ha) (proj2 Hb) E) as [-> ->]. auto.
Qed.
Theorem ranks_log_to_different_files : forall e stamp stamp' rank rank' pid pid', par_file e = true ->
  String.length stamp = String.length stamp' -> no_underscore rank -> no_underscore rank' ->
  temp_name e stamp rank pid = temp_name e stamp' rank' pid' \/ tail_name e stamp rank pid = tail_name e stamp' rank' pid' -> rank = rank'.
Proof.
  intros e stamp stamp' rank rank' pid pid' P H U U' E. unfold temp_name, tail_name in E. rewrite P in E.
  assert (K : stamp ++ ("_" ++ rank) ++ "_" ++ pid ++ ".log" = stamp' ++ ("_" ++ rank') ++ "_" ++ pid' ++ ".log").
  { destruct E as [E|E]; (apply append_same_length in E; [exact (proj2 E)|reflexivity]). }
  apply append_same_length in K; [|exact H]. destruct K as [_ K]. cbn [append] in K. injection K as K. apply up_to_underscore in K; [exact (proj1 K)|exact U|exact U'].
Qed.

(** C142 fails for a second model in the same program: its messages go to the first model's directory, and no log file appears in its own. *)
Theorem second_model_log_refuted : forall e L stamp pid (m0 : fpath -> option (list string)) a b m, a <> b -> own m = false ->
  (Z.max (effective L) (l_file L) <= 20)%Z -> b <> "results" ->
  exists pr, run_history e L [Output a; Output b; Log 20 m] (started e L stamp "0" pid m0) = Some pr /\
    (forall name, files pr (b, name) = m0 (b, name)) /\ exists name l, files pr (a, name) = Some l /\ In m l.
Proof.
  intros e L stamp pid m0 a b m Hab Hm Ht Hb. destruct (log_file_complete e L stamp "0" pid m0 [Output a; Output b; Log 20 m] (or_introl eq_refl)) as (pr & l & R & K).
  exists pr. split; [exact R|]. cbv zeta in K. cbn [outputs existsb first_output flat_map app] in K. destruct K as (A & B & C & D). split.
  - intros name. apply D; intros [= E _]; congruence.
  - eexists. exists l. split; [exact A|]. unfold messages in B. cbn [flat_map app] in B. apply Z.leb_le in Ht. rewrite Ht in B.
    assert (I : In m (of_program l)). { rewrite B. unfold of_program. apply filter_In. split; [right; left; reflexivity|rewrite Hm; reflexivity]. }
    unfold of_program in I. apply filter_In in I. apply I.
Qed.
(** C142 fails for the documented variable GUSTO_LOGFILE_LOG_LEVEL: it is never read (the code reads GUSTO_FILE_LOG_LEVEL). *)
Theorem logfile_level_variable_refuted : forall e v, setup_levels (mk_env (e_log e) (e_file e) (e_console e) v (e_parallel e)) = setup_levels e /\
  (e_log e = None -> e_file e = None -> e_console e = None -> forall L stamp pid (m0 : fpath -> option (list string)) h pr, setup_levels (mk_env None None None (Some "DEBUG") (e_parallel e)) = Ok L ->
     run_history e L (Log 10 "details" :: h) (started e L stamp "0" pid m0) = Some pr ->
     (forall l x, In (Log l x) h -> x <> "details") -> outputs h = true ->
     exists l, files pr (first_output h, tail_name e stamp "0" pid) = Some l /\ ~ In "details" l).
Proof.
  intros e v. split; [reflexivity|]. intros _ _ _ L stamp pid m0 h pr E R Hh Ho. injection E as <-.
  set (L := mk_levels _ _ _) in *.
  destruct (log_file_complete e L stamp "0" pid m0 (Log 10 "details" :: h) (or_introl eq_refl)) as (pr' & l & R' & K).
  rewrite R in R'. injection R' as <-. cbv zeta in K. cbn [outputs existsb] in K. fold (outputs h) in K. rewrite Ho in K. destruct K as (A & B & _).
  exists l. split; [exact A|]. intros I.
  assert (J : In "details" (of_program l)) by (unfold of_program; apply filter_In; split; [exact I|reflexivity]).
  rewrite B in J. unfold of_program in J. apply filter_In in J as [J _]. unfold messages in J. apply in_flat_map in J as (ev & Hin & J).
  destruct ev as [lv x|]; [|destruct J]. destruct (Z.leb_spec (Z.max (effective L) (l_file L)) lv) as [Hl|]; [|destruct J]. destruct J as [->|[]].
  destruct Hin as [[= <-]|[[= <-]|Hin]]; [cbn in Hl; lia|]. eapply Hh; [exact Hin|reflexivity].
Qed.
(** C142 fails for NOTSET, one of the level names the module exports: instead of everything, messages below WARNING are dropped. *)
Theorem notset_level_refuted : forall par, exists L, setup_levels (mk_env (Some "NOTSET") None None None par) = Ok L /\
  l_file L = 0%Z /\ Z.max (effective L) (l_file L) = 30%Z.
Proof. intros par. exists (mk_levels 0 0 0). cbn. auto. Qed.
(** C142 fails for lower-case level names, in contrast to the parallel option, which is upper-cased: the import of gusto raises. *)
Theorem lower_case_level_refuted : forall par,
  setup_levels (mk_env (Some "debug") None None None par) = Err ValueError /\
  setup_levels (mk_env None (Some "debug") None None par) = Err TypeError /\
  parallel_option (mk_env None None None None (Some "both")) = Some "BOTH".
Proof. intros par. repeat split. Qed.
(** Calling the public set_log_handler a second time makes the set-up of every output fail. *)
Theorem second_set_log_handler_refuted : forall e L stamp pid stamp' pid' (m0 : fpath -> option (list string)) d,
  update_logfile_location e L d (set_log_handler e L stamp' "0" pid' (started e L stamp "0" pid m0)) = None.
Proof.
  intros e L stamp pid stamp' pid' m0 d.
  assert (H : forall pr l m, handlers (log L l m pr) = handlers pr).
  { intros pr l m. unfold log. destruct (effective L <=? l)%Z; [|reflexivity].
    assert (F : forall hs q, handlers (fold_left (emit l m) hs q) = handlers q); [|apply F].
    induction hs as [|x hs IH]; intros q; [reflexivity|]. cbn. rewrite IH. unfold emit. destruct (h_level x <=? l)%Z; [|reflexivity]. destruct (h_sink x); reflexivity. }
  unfold update_logfile_location. unfold started, set_log_handler. cbn [String.eqb Ascii.eqb Bool.eqb]. rewrite H.
  assert (B : forall pr, handlers (if par_file e then barrier pr else pr) = handlers pr) by (intros; destruct (par_file e); reflexivity).
  cbn [add_handler handlers with_files]. rewrite B, H. cbn [add_handler handlers with_files]. rewrite B. reflexivity.
Qed.
Example logging_example :
  let e := mk_env (Some "WARNING") None (Some "DEBUG") None None in
  exists L pr, setup_levels e = Ok L /\ run_history e L [Log 10 "a"; Log 30 "b"; Output "results/run"; Log 40 "c"; Log 20 "d"] (started e L "2026-11-18T150000" "0" "7" (fun _ => None)) = Some pr /\
    files pr ("results/run", "gusto-2026-11-18T150000_7.log") = Some ["b"; "c"] /\
    of_program (console pr) = ["Running"; "a"; "b"; "c"; "d"].
Proof. eexists. eexists. split; [reflexivity|]. split; [vm_compute; reflexivity|]. split; reflexivity. Qed.

(** ** The values of GUSTO_PARALLEL_LOG *)
Lemma upper_letter : forall c d : ascii, (65 <= nat_of_ascii d <= 90)%nat ->
  (upper_ascii c = d <-> (c = d \/ nat_of_ascii c = nat_of_ascii d + 32)%nat).
Proof.
  intros c d Hd. unfold upper_ascii.
  destruct (Nat.leb_spec 97 (nat_of_ascii c)) as [H1|H1]; [destruct (Nat.leb_spec (nat_of_ascii c) 122) as [H2|H2]|]; cbn [andb].
  - split.
    + intros <-. right. rewrite nat_ascii_embedding by lia. lia.
    + intros [->|E]; [lia|]. rewrite E, Nat.add_sub. apply ascii_nat_embedding.
  - split; [auto|]. intros [E|E]; [exact E|lia].
  - split; [auto|]. intros [E|E]; [exact E|lia].
Qed.
Lemma upper_spells : forall s w, (fix capitals (w : string) : Prop :=
    match w with EmptyString => True | String d w => (65 <= nat_of_ascii d <= 90)%nat /\ capitals w end) w ->
  (upper s = w <-> spells s w).
Proof.
  induction s as [|c s IH]; intros [|d w] H; cbn [upper spells].
  - tauto.
  - split; [discriminate|tauto].
  - split; [discriminate|tauto].
  - destruct H as [Hd Hw]. rewrite <- (IH w Hw), <- (upper_letter c d Hd). split.
    + intros E. injection E as -> ->. auto.
    + intros [-> ->]. reflexivity.
Qed.

(** C142.  Which values of the variable make every rank write a file, and which make every rank write to the console:
    exactly the documented words, in any mixture of upper and lower case; every other value counts as unset. *)
Theorem parallel_values_documented : forall e,
  (par_file e = true <-> exists s, e_parallel e = Some s /\ (spells s "FILE" \/ spells s "BOTH")) /\
  (par_console e = true <-> exists s, e_parallel e = Some s /\ (spells s "CONSOLE" \/ spells s "BOTH")).
Proof.
  intros e.
  assert (U : forall s w, In w ["CONSOLE"; "FILE"; "BOTH"] -> (upper s = w <-> spells s w)).
  { intros s w H. apply upper_spells. cbn in H. destruct H as [<-|[<-|[<-|[]]]]; cbn; repeat split; lia. }
  assert (X : forall s l, existsb (String.eqb s) l = true <-> In s l).
  { intros s l. rewrite existsb_exists. split; [intros (y & Hy & E); apply String.eqb_eq in E; subst; exact Hy|].
    intros H. exists s. split; [exact H|apply String.eqb_refl]. }
  unfold par_file, par_console, parallel_option. destruct (e_parallel e) as [s|].
  2: { split; (split; [discriminate|]); intros (s & E & _); discriminate. }
  assert (B : forall w, In w ["CONSOLE"; "FILE"; "BOTH"] -> upper s = w ->
    existsb (String.eqb (upper s)) ["CONSOLE"; "FILE"; "BOTH"] = true) by (intros w H E; apply X; rewrite E; exact H).
  split; (split; [intros H; exists s; split; [reflexivity|]|intros (t & E & H); injection E as <-]).
  - destruct (existsb (String.eqb (upper s)) ["CONSOLE"; "FILE"; "BOTH"]); [|discriminate].
    apply X in H. cbn in H. destruct H as [H|[H|[]]]; [left|right]; apply U; cbn; auto.
  - destruct H as [H|H]; apply U in H; try (cbn; tauto); rewrite H; reflexivity.
  - destruct (existsb (String.eqb (upper s)) ["CONSOLE"; "FILE"; "BOTH"]); [|discriminate].
    apply X in H. cbn in H. destruct H as [H|[H|[]]]; [left|right]; apply U; cbn; auto.
  - destruct H as [H|H]; apply U in H; try (cbn; tauto); rewrite H; reflexivity.
Qed.
Print Assumptions parallel_values_documented.

(** C111: diagnostics over several runs. *)
From Coq Require Import List String Bool Arith Lia.
Import ListNotations.
From Verif Require Import Base DiagRuns.

(** ** Specification: the values computed are those of the current state, in every run *)
Definition current_values {X B V} (aux : X -> B) (expr : X -> B -> V) (rs : list (list X)) : list (list V) := map (map (fun x => expr x (aux x))) rs.
Definition describes_current_state (c : diagnostic_class) (ok : forall X, list (list X) -> Prop) : Prop :=
  forall (X B V : Type) (blank : B) (aux : X -> B) (expr : X -> B -> V) rs,
  (kind_of c = Direct -> forall x b b', expr x b = expr x b') -> ok X rs ->
  class_runs c blank aux expr rs = current_values aux expr rs.

Section Object.
Context {X B V : Type} (blank : B) (aux : X -> B) (expr : X -> B -> V).
Lemma computes_same xs : forall d, reads d = fills d -> snd (computes aux expr xs d) = map (fun x => expr x (aux x)) xs.
Proof.
  induction xs as [|x xs IH]; intros d H; [reflexivity|]. cbn [computes compute]. 
  specialize (IH {| initialised := initialised d; reads := reads d; fills := fills d; nbuf := nbuf d; heap := put (heap d) (fills d) (aux x) |} H).
  destruct (computes _ _ _ _) as [d' vs]. cbn in *. rewrite IH. unfold put. rewrite H, Nat.eqb_refl. reflexivity.
Qed.
Lemma last_cons {A} (l : list A) : forall b d, last (b :: l) d = last l b.
Proof. induction l as [|c l IH]; intros b d; [reflexivity|]. transitivity (last (c :: l) d); [reflexivity|]. rewrite !IH. reflexivity. Qed.
Lemma computes_frame xs : forall d, let d' := fst (computes aux expr xs d) in
  reads d' = reads d /\ fills d' = fills d /\ nbuf d' = nbuf d /\ initialised d' = initialised d /\
  (forall a, a <> fills d -> heap d' a = heap d a) /\ heap d' (fills d) = last (map aux xs) (heap d (fills d)).
Proof.
  induction xs as [|x xs IH]; intros d; cbn [computes compute]; [repeat split|].
  specialize (IH {| initialised := initialised d; reads := reads d; fills := fills d; nbuf := nbuf d; heap := put (heap d) (fills d) (aux x) |}).
  destruct (computes _ _ _ _) as [d' vs]. cbn [fst initialised reads fills nbuf heap] in *. destruct IH as (A & A' & N & C & D & E). repeat split; try assumption.
  - intros a Ha. rewrite D by exact Ha. unfold put. destruct (Nat.eqb_spec a (fills d)); congruence.
  - rewrite E. cbn [map]. rewrite last_cons. unfold put. rewrite Nat.eqb_refl. reflexivity.
Qed.
Lemma computes_stale xs : forall d, reads d <> fills d -> snd (computes aux expr xs d) = map (fun x => expr x (heap d (reads d))) xs.
Proof.
  induction xs as [|x xs IH]; intros d H; [reflexivity|]. cbn [computes compute].
  specialize (IH {| initialised := initialised d; reads := reads d; fills := fills d; nbuf := nbuf d; heap := put (heap d) (fills d) (aux x) |} H).
  destruct (computes _ _ _ _) as [d' vs]. cbn in *. rewrite IH. unfold put.
  destruct (Nat.eqb_spec (reads d) (fills d)); [contradiction|]. reflexivity.
Qed.
Lemma runs_rebuild rs : forall d, snd (runs blank aux expr true rs d) = current_values aux expr rs.
Proof.
  induction rs as [|xs rs IH]; intros d; [reflexivity|]. cbn [runs].
  pose proof (computes_same xs (setup blank true d)) as E. destruct (computes _ _ _ _) as [d' vs]. cbn in E. specialize (IH d').
  destruct (runs _ _ _ _ _ _) as [d'' vss]. cbn in *. rewrite IH, E; [reflexivity|]. rewrite andb_false_r. reflexivity.
Qed.
Lemma runs_stale rs : forall d, initialised d = true -> reads d < nbuf d ->
  snd (runs blank aux expr false rs d) = map (map (fun x => expr x (heap d (reads d)))) rs.
Proof.
  induction rs as [|xs rs IH]; intros d Hi Hr; [reflexivity|]. cbn [runs].
  set (d1 := setup blank false d).
  assert (R : reads d1 = reads d) by (unfold d1, setup; cbn; rewrite Hi; reflexivity).
  assert (Hn : reads d1 <> fills d1) by (rewrite R; cbn; lia).
  assert (Hh : heap d1 (reads d1) = heap d (reads d)).
  { rewrite R. cbn. unfold put. destruct (Nat.eqb_spec (reads d) (nbuf d)); [lia|reflexivity]. }
  pose proof (computes_stale xs d1 Hn) as E. pose proof (computes_frame xs d1) as F. destruct (computes _ _ xs d1) as [d' vs].
  cbn [snd fst] in *. cbv zeta in F. destruct F as (F1 & F2 & F3 & F4 & F5 & _).
  specialize (IH d' ltac:(rewrite F4; reflexivity) ltac:(rewrite F1, F3, R; cbn; lia)).
  destruct (runs _ _ _ _ _ _) as [d'' vss]. cbn [snd map] in *. rewrite IH, E, F1, (F5 _ Hn), Hh. reflexivity.
Qed.
(** The values of a buffered diagnostic: those of the first run are current; those of all later runs are computed from what the
    buffer contained at the end of the first run. *)
Theorem buffered_values : forall xs rs,
  snd (runs blank aux expr false (xs :: rs) (new_diag blank)) =
    map (fun x => expr x (aux x)) xs :: map (map (fun x => expr x (last (map aux xs) blank))) rs.
Proof.
  intros xs rs. cbn [runs]. set (d1 := setup blank false (new_diag blank)).
  pose proof (computes_same xs d1 eq_refl) as E. pose proof (computes_frame xs d1) as F.
  destruct (computes _ _ xs d1) as [d' vs]. cbn [snd fst] in *. cbv zeta in F. destruct F as (F1 & F2 & F3 & F4 & _ & F6).
  pose proof (runs_stale rs d' ltac:(rewrite F4; reflexivity) ltac:(rewrite F1, F3; cbn; lia)) as G.
  destruct (runs _ _ _ _ _ _) as [d'' vss]. cbn [snd] in *. rewrite G, E, F1. change (reads d1) with (fills d1). rewrite F6. reflexivity.
Qed.
End Object.

(** ** C111 *)
(** Every diagnostic describes the current state during the first run. *)
Theorem diagnostics_describe_first_run : forall c, describes_current_state c (fun X rs => length rs <= 1).
Proof.
  intros c X B V blank aux expr rs HD Hl. unfold class_runs. destruct (kind_of c) eqn:K.
  - unfold current_values. apply map_ext. intros xs. apply map_ext. intros x. apply HD. reflexivity.
  - apply runs_rebuild.
  - destruct rs as [|xs [|ys rs]]; cbn in Hl; [reflexivity| |lia]. rewrite buffered_values. reflexivity.
Qed.
(** Those which have no buffer, or are solved for, do so in all runs. *)
Theorem diagnostics_describe_all_runs : forall c, kind_of c <> Buffered -> describes_current_state c (fun _ _ => True).
Proof.
  intros c Hc X B V blank aux expr rs HD _. unfold class_runs. destruct (kind_of c) eqn:K; [| |congruence].
  - unfold current_values. apply map_ext. intros xs. apply map_ext. intros x. apply HD. reflexivity.
  - apply runs_rebuild.
Qed.
Example classes_of_kind :
  kind_of D_divergence <> Buffered /\ kind_of (D_gradient true) <> Buffered /\ kind_of (D_vorticity true true) <> Buffered /\
  kind_of D_kinetic_energy <> Buffered /\ kind_of D_exner <> Buffered /\ kind_of (D_tracer_density true) <> Buffered.
Proof. repeat split; discriminate. Qed.
(** The others do not: in a second run they remain as at the end of the first. *)
Theorem diagnostics_describe_all_runs_refuted : forall c, In c [D_courant; D_thermodynamic; D_hydrostatic_imbalance; D_partitioned; D_vorticity false false] ->
  ~ describes_current_state c (fun _ _ => True).
Proof.
  intros c Hc H. assert (K : kind_of c = Buffered) by (repeat destruct Hc as [<- | Hc]; try reflexivity; contradiction).
  specialize (H nat nat nat 0 (fun x => x) (fun _ b => b) [[1]; [2; 3]] ltac:(congruence) I). unfold class_runs in H. rewrite K in H. cbn in H. discriminate H.
Qed.

(** ** The Courant number seen by time steps *)
Section CourantProps.
Context {X B V : Type} (blank : B) (flux : X -> B) (number : B -> V).
Notation lg := (log_courant flux number). Notation dmp := (dump flux number).
Definition courant (x : X) : option V := Some (number (flux x)).
Definition last_dumped (x0 : X) (l : list (X * X)) : X := last (map snd l) x0.
(** during a run: k the object logged, i the object created in this run; y, z: what their evaluators see *)
Definition stale (d : diag B) (b : B) : Prop := initialised d = true /\ reads d = 0 /\ 1 <= fills d < nbuf d /\ heap d 0 = b.
Definition fresh (d : diag B) (b : B) : Prop := initialised d = true /\ reads d = 0 /\ fills d = 0 /\ nbuf d = 1 /\ heap d 0 = b.
Definition in_run (k i n : nat) (b z : B) (w : @cworld B V) : Prop :=
  refs w = repeat k (S n) ++ [i] /\ k <> i /\ nobj w = S i /\ stale (objs w k) b /\ fresh (objs w i) z.
Definition in_first_run (z : B) (w : @cworld B V) : Prop := refs w = [0] /\ nobj w = 1 /\ fresh (objs w 0) z.

Lemma compute_stale d b x : stale d b -> stale (fst (compute flux (cexpr number) x d)) b /\ snd (compute flux (cexpr number) x d) = number b.
Proof.
  intros (A & R & F & H). unfold compute, cexpr. cbn. unfold stale. cbn. rewrite R. unfold put.
  destruct (Nat.eqb_spec 0 (fills d)) as [E|E]; [lia|]. repeat split; try assumption; try lia. rewrite H. reflexivity.
Qed.
Lemma compute_fresh d b x : fresh d b -> fresh (fst (compute flux (cexpr number) x d)) (flux x) /\ snd (compute flux (cexpr number) x d) = number (flux x).
Proof.
  intros (A & R & F & N & H). unfold compute, cexpr. cbn. unfold fresh. cbn. rewrite R, F. unfold put. cbn. repeat split; assumption.
Qed.
Lemma dump_fold x (w : @cworld B V) (l : list nat) (Q : @cworld B V -> Prop) :
  Q w -> (forall w i, In i l -> Q w -> Q (set_obj w i (fst (compute flux (cexpr number) x (objs w i))))) ->
  Q (fold_left (fun w i => set_obj w i (fst (compute flux (cexpr number) x (objs w i)))) l w).
Proof.
  revert w. induction l as [|i l IH]; intros w Hw Hs; [exact Hw|]. cbn. apply IH; [apply Hs; [left; reflexivity|exact Hw]|].
  intros w' j Hj. apply Hs. right. exact Hj.
Qed.
Lemma dump_in_run x k i n b z w : in_run k i n b z w -> in_run k i n b (flux x) (dmp x w).
Proof.
  intros (R & Hk & N & S & F). unfold dump. rewrite R, fold_left_app. cbn [fold_left].
  set (w1 := fold_left _ (repeat k (Datatypes.S n)) w).
  assert (H1 : in_run k i n b z w1).
  { unfold w1. apply (dump_fold x w _ (in_run k i n b z)); [exact (conj R (conj Hk (conj N (conj S F))))|].
    intros w' j Hj (R' & _ & N' & S' & F'). apply repeat_spec in Hj. subst j. unfold in_run, set_obj. cbn [refs nobj objs].
    split; [exact R'|]. split; [exact Hk|]. split; [exact N'|]. rewrite Nat.eqb_refl. destruct (Nat.eqb_spec i k); [congruence|].
    split; [apply compute_stale; exact S'|exact F']. }
  destruct H1 as (R1 & _ & N1 & S1 & F1). unfold in_run, set_obj. cbn [refs nobj objs]. split; [exact R1|]. split; [exact Hk|]. split; [exact N1|].
  rewrite Nat.eqb_refl. destruct (Nat.eqb_spec k i); [congruence|]. split; [exact S1|]. apply (compute_fresh _ z). exact F1.
Qed.
Lemma log_in_run x k i n b z w : in_run k i n b z w -> in_run k i n b z (lg x w) /\ courant_max (lg x w) = Some (number b).
Proof.
  intros (R & Hk & N & S & F). unfold log_courant. rewrite R. cbn [repeat app hd]. pose proof (compute_stale (objs w k) b x S) as [S' E].
  destruct (compute _ _ _ _) as [d v]. cbn [fst snd] in *. split; [|cbn; rewrite E; reflexivity].
  unfold in_run, set_obj. cbn [refs nobj objs]. split; [first [exact R|reflexivity]|]. split; [exact Hk|]. split; [exact N|].
  rewrite Nat.eqb_refl. destruct (Nat.eqb_spec i k); [congruence|]. split; [exact S'|exact F].
Qed.
Lemma steps_in_run l : forall k i n b z w, in_run k i n b z w ->
  in_run k i n b (last (map flux (map snd l)) z) (fst (steps flux number l w)) /\ snd (steps flux number l w) = map (fun _ => Some (number b)) l.
Proof.
  induction l as [|[x y] l IH]; intros k i n b z w H; [split; [exact H|reflexivity]|]. cbn [steps].
  destruct (log_in_run x k i n b z w H) as [H1 E1]. pose proof (dump_in_run y k i n b z _ H1) as H2.
  specialize (IH k i n b (flux y) _ H2). destruct (steps _ _ l _) as [w' cs]. cbn [fst snd map] in *. rewrite last_cons.
  destruct IH as [IH1 IH2]. split; [exact IH1|]. rewrite E1, IH2. reflexivity.
Qed.
Lemma steps_first l : forall z w, in_first_run z w ->
  in_first_run (last (map flux (map snd l)) z) (fst (steps flux number l w)) /\ snd (steps flux number l w) = map (fun xy => courant (fst xy)) l.
Proof.
  induction l as [|[x y] l IH]; intros z w H; [split; [exact H|reflexivity]|]. cbn [steps].
  assert (H1 : in_first_run (flux x) (lg x w) /\ courant_max (lg x w) = courant x).
  { destruct H as (R & N & F). unfold log_courant. rewrite R. cbn [hd]. pose proof (compute_fresh (objs w 0) z x F) as [F' E].
    destruct (compute _ _ _ _) as [d v]. cbn [fst snd] in *. split; [|cbn; rewrite E; reflexivity].
    unfold in_first_run, set_obj. cbn [refs nobj objs]. repeat split; try assumption; apply F'. }
  destruct H1 as [(R & N & F) E1].
  assert (H2 : in_first_run (flux y) (dmp y (lg x w))).
  { unfold dump. rewrite R. cbn [fold_left]. unfold in_first_run, set_obj. cbn [refs nobj objs]. split; [exact R|]. split; [exact N|]. rewrite Nat.eqb_refl. apply (compute_fresh _ (flux x)). exact F. }
  specialize (IH (flux y) _ H2). destruct (steps _ _ l _) as [w' cs]. cbn [fst snd map] in *. rewrite last_cons.
  destruct IH as [IH1 IH2]. split; [exact IH1|]. rewrite E1, IH2. reflexivity.
Qed.
(** between runs: the last object was created in the run before *)
Definition between (b : B) (w : @cworld B V) : Prop :=
  exists k n, length (refs w) = S n /\ last (refs w) 0 = k /\ k < nobj w /\ fresh (objs w k) b.
Lemma setups_stale k b n (w : @cworld B V) : fresh (objs w k) b -> k < nobj w ->
  let w' := fold_left (fun w i => set_obj w i (setup blank false (objs w i))) (repeat k (S n)) w in
  refs w' = refs w /\ nobj w' = nobj w /\ stale (objs w' k) b.
Proof.
  intros F Hk.
  assert (G : forall n (w : @cworld B V), (stale (objs w k) b) -> let w' := fold_left (fun w i => set_obj w i (setup blank false (objs w i))) (repeat k n) w in
     refs w' = refs w /\ nobj w' = nobj w /\ stale (objs w' k) b).
  { clear w F Hk n. induction n as [|n IH]; intros w S; [repeat split; apply S|]. cbn [repeat fold_left].
    destruct (IH (set_obj w k (setup blank false (objs w k)))) as (A1 & A2 & A3).
    - unfold set_obj. cbn [objs]. rewrite Nat.eqb_refl. destruct S as (A & R & Fi & H). unfold stale, setup. cbn. rewrite A, R. cbn. unfold put.
      destruct (Nat.eqb_spec 0 (nbuf (objs w k))); [lia|]. repeat split; try lia. exact H.
    - cbv zeta. rewrite A1, A2. repeat split; apply A3. }
  cbn [repeat fold_left]. destruct (G n (set_obj w k (setup blank false (objs w k)))) as (A1 & A2 & A3).
  - unfold set_obj. cbn [objs]. rewrite Nat.eqb_refl. destruct F as (A & R & Fi & N & H). unfold stale, setup. cbn. rewrite A, R, N. cbn. unfold put. cbn.
    repeat split; try lia. exact H.
  - cbv zeta. rewrite A1, A2. repeat split; apply A3.
Qed.
Lemma map_const {A C} (l : list A) (k : C) : map (fun _ => k) l = repeat k (length l).
Proof. induction l; cbn; [reflexivity|]. rewrite IHl. reflexivity. Qed.
Lemma run_start b x0 w : between b w ->
  exists k i n, in_run k i n b (flux x0) (dmp x0 (setup_log_courant blank (setup_diagnostics blank w))).
Proof.
  intros (k & n & L & E & Hk & F). exists k, (nobj w), n. apply dump_in_run with (z := blank).
  unfold setup_diagnostics, sorted. cbn [refs]. rewrite E, map_const, L.
  set (w0 := {| refs := repeat k (S n); objs := objs w; nobj := nobj w; courant_max := courant_max w |}).
  destruct (setups_stale k b n w0 F Hk) as (A1 & A2 & A3).
  set (w1 := fold_left _ _ w0) in *. unfold setup_log_courant, in_run. cbn [refs objs nobj]. rewrite A1, A2. cbn [w0 nobj refs].
  split; [reflexivity|]. split; [lia|]. split; [reflexivity|]. destruct (Nat.eqb_spec k (nobj w)); [lia|]. split; [exact A3|].
  rewrite Nat.eqb_refl. unfold fresh, setup, new_diag. cbn. repeat split.
Qed.
Lemma run_end k i n b z w : in_run k i n b z w -> between z w.
Proof.
  intros (R & Hk & N & S & F). exists i, (length (repeat k (Datatypes.S n))). split; [rewrite R, app_length; cbn [length]; lia|].
  split; [rewrite R, last_last; reflexivity|]. split; [lia|exact F].
Qed.
Lemma last_map_flux l x0 : last (map flux (map snd l)) (flux x0) = flux (last_dumped x0 l).
Proof. unfold last_dumped. generalize (map (@snd X X) l) as m. intros m. revert x0. induction m as [|y m IH]; intros x0; [reflexivity|]. cbn [map]. rewrite !last_cons. apply IH. Qed.
(** the value each run after the first sees: that of the last state dumped in the run before, at every step *)
Fixpoint later_values (y : X) (rs : list (X * list (X * X))) : list (list (option V)) :=
  match rs with [] => [] | (x0, l) :: rs => map (fun _ => courant y) l :: later_values (last_dumped x0 l) rs end.
Lemma later_runs rs : forall y w, between (flux y) w -> courant_runs blank flux number rs w = later_values y rs.
Proof.
  induction rs as [|[x0 l] rs IH]; intros y w H; [reflexivity|]. cbn [courant_runs later_values]. unfold courant_run.
  destruct (run_start (flux y) x0 w H) as (k & i & n & H1). destruct (steps_in_run l k i n _ _ _ H1) as [H2 E2].
  destruct (steps _ _ l _) as [w' cs]. cbn [fst snd] in *. rewrite E2. f_equal. apply IH. rewrite <- last_map_flux. apply run_end in H2. exact H2.
Qed.
(** The maximum Courant number handed to the time discretisations: in the first run, that of the current velocity; in every later
    run, at every step, that of the last state of the run before. *)
Theorem courant_max_of_runs : forall x0 l rs,
  courant_runs blank flux number ((x0, l) :: rs) (no_diagnostics blank) = map (fun xy => courant (fst xy)) l :: later_values (last_dumped x0 l) rs.
Proof.
  intros x0 l rs. cbn [courant_runs]. unfold courant_run.
  assert (H1 : in_first_run (flux x0) (dmp x0 (setup_log_courant blank (setup_diagnostics blank (no_diagnostics blank))))).
  { unfold in_first_run, dump, setup_log_courant, setup_diagnostics, no_diagnostics, sorted. cbn. repeat split. }
  destruct (steps_first l _ _ H1) as [(R & N & F) E2]. destruct (steps _ _ l _) as [w' cs]. cbn [fst snd] in *. rewrite E2. f_equal. apply later_runs.
  exists 0, 0. rewrite R, N. split; [reflexivity|]. split; [reflexivity|]. split; [lia|]. rewrite <- last_map_flux. exact F.
Qed.
End CourantProps.
Definition adaptive_steps_see_current_courant : Prop :=
  forall (X B V : Type) (blank : B) (flux : X -> B) (number : B -> V) rs,
  courant_runs blank flux number rs (no_diagnostics blank) = map (fun r => map (fun xy => courant flux number (fst xy)) (snd r)) rs.
Theorem adaptive_steps_see_current_courant_partial : forall (X B V : Type) (blank : B) (flux : X -> B) (number : B -> V) x0 l,
  courant_runs blank flux number [(x0, l)] (no_diagnostics blank) = [map (fun xy => courant flux number (fst xy)) l].
Proof. intros. rewrite courant_max_of_runs. reflexivity. Qed.
(** With states 1, 2 in the first run and 7 in the second, the steps of the second still see 2. *)
Theorem adaptive_steps_see_current_courant_refuted : ~ adaptive_steps_see_current_courant.
Proof. intros H. specialize (H nat nat nat 0 (fun x => x) (fun b => b) [(1, [(1, 2)]); (7, [(7, 8); (8, 9)])]). cbn in H. discriminate H. Qed.

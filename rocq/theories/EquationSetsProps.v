(** C134, C135: equations put together from tracers; boundary conditions. *)
From Coq Require Import String Lra Permutation.
From Verif Require Import Base Vec Transport CommonForms TransportProps EquationsProps DiagFormsProps EquationSets.
From Verif Require Tracers TracersProps.
Open Scope R_scope.
Open Scope list_scope.

(** ** Names *)
Lemma existsb_In n l : existsb (String.eqb n) l = true <-> In n l.
Proof. rewrite existsb_exists. split; [intros (x & H & E); apply String.eqb_eq in E; subst; exact H|intros H; exists n; split; [exact H|apply String.eqb_refl]]. Qed.
Lemma index_of_nth n l i : index_of n l = Some i -> nth_error l i = Some n.
Proof.
  revert i; induction l as [|m l IH]; intros i; cbn [index_of]; [discriminate|]. destruct (String.eqb_spec m n) as [->|]; [intros H; injection H as <-; reflexivity|].
  destruct (index_of n l) as [j|]; [|discriminate]. cbn. intros H. injection H as <-. cbn. apply IH. reflexivity.
Qed.
Lemma index_of_In n l : In n l <-> exists i, index_of n l = Some i.
Proof.
  induction l as [|m l IH]; cbn [index_of In]; [split; [intros []|intros [i H]; discriminate]|]. destruct (String.eqb_spec m n) as [->|Hn].
  - split; [intros _; exists 0%nat; reflexivity|intros _; left; reflexivity].
  - rewrite IH. split; [intros [->|[i E]]; [congruence|exists (S i); rewrite E; reflexivity]|intros [i E]; right; destruct (index_of n l); [eexists; reflexivity|discriminate]].
Qed.
Lemma index_of_NoDup n l i : NoDup l -> nth_error l i = Some n -> index_of n l = Some i.
Proof.
  revert i; induction l as [|m l IH]; intros i HN H; [destruct i; discriminate|]. apply NoDup_cons_iff in HN. destruct HN as [Hm HN]. cbn [index_of]. destruct i as [|i]; cbn in H.
  - injection H as ->. rewrite String.eqb_refl. reflexivity.
  - destruct (String.eqb_spec m n) as [->|]; [exfalso; apply Hm; eapply nth_error_In; exact H|]. rewrite (IH i HN H). reflexivity.
Qed.
Lemma order_step_perm l i : Permutation l (order_step l i).
Proof.
  unfold order_step. destruct (nth_error l i) as [t|] eqn:E; [|reflexivity]. destruct (a_eqn t); try reflexivity. destruct (a_density t) as [dn|]; [|reflexivity].
  destruct (position dn l) as [j|] eqn:Ej; [|reflexivity]. destruct (Nat.ltb i j); [|reflexivity]. apply TracersProps.swap_perm.
  - apply nth_error_Some. congruence.
  - unfold position in Ej. apply index_of_nth in Ej. rewrite <- (map_length a_name l). apply nth_error_Some. congruence.
Qed.
Lemma order_perm l : Permutation l (order l).
Proof.
  unfold order. generalize (seq 0 (Datatypes.length l - 1)). intros is. revert l. induction is as [|i is IH]; intros l; cbn [fold_left]; [reflexivity|].
  etransitivity; [apply order_step_perm|apply IH].
Qed.

(** ** Adding tracers *)
Definition listed (N : names_spaces) : Prop := forall n s, lookup n (space_names N) = Some s -> In n (field_names N).
Lemma lookup_app n l m s : lookup n (l ++ [(m, s)]) = match lookup n l with Some x => Some x | None => if String.eqb m n then Some s else None end.
Proof. induction l as [|[a b] l IH]; cbn [lookup app]; [reflexivity|]. destruct (String.eqb a n); [reflexivity|exact IH]. Qed.
Lemma add_all_ok known l : forall N, listed N ->
  ((exists N', add_all known N l = Ok N') <-> NoDup (map a_name l) /\ (forall t, In t l -> ~ In (a_name t) (field_names N)) /\ (forall t, In t l -> In (a_space t) known)) /\
  forall N', add_all known N l = Ok N' -> field_names N' = field_names N ++ map a_name l /\ spaces N' = spaces N ++ map a_space l.
Proof.
  induction l as [|t l IH]; intros N HL; cbn [add_all map].
  - split; [split; [intros _; repeat split; [constructor|intros t []|intros t []]|intros _; eexists; reflexivity]|]. intros N' H. injection H as <-. rewrite !app_nil_r. split; reflexivity.
  - unfold add_tracer. destruct (existsb (String.eqb (a_name t)) (field_names N)) eqn:E1; cbn [bind].
    { apply existsb_In in E1. split; [|discriminate]. split; [intros [? H]; discriminate|intros (_ & H & _)]. exfalso. exact (H t (or_introl eq_refl) E1). }
    assert (E1' : ~ In (a_name t) (field_names N)) by (intros H; apply existsb_In in H; congruence).
    destruct (lookup (a_name t) (space_names N)) as [s|] eqn:El; [exfalso; apply E1'; eapply HL; exact El|]. cbn [bind].
    destruct (existsb (String.eqb (a_space t)) known) eqn:E2; cbn [bind].
    2:{ split; [|discriminate]. split; [intros [? H]; discriminate|intros (_ & _ & H)]. specialize (H t (or_introl eq_refl)). apply existsb_In in H. congruence. }
    set (N1 := {| field_names := field_names N ++ [a_name t]; space_names := space_names N ++ [(a_name t, a_space t)]; spaces := spaces N ++ [a_space t] |}).
    assert (HL1 : listed N1).
    { intros n s H. cbn in *. rewrite lookup_app in H. apply in_app_iff. destruct (lookup n (space_names N)) eqn:En; [left; eapply HL; exact En|]. destruct (String.eqb_spec (a_name t) n) as [->|]; [right; left; reflexivity|discriminate]. }
    destruct (IH N1 HL1) as [IH1 IH2]. split.
    + rewrite IH1. cbn [N1 field_names]. apply existsb_In in E2. split.
      * intros (H1 & H2 & H3). split; [|split].
        -- constructor; [|exact H1]. intros H. apply in_map_iff in H. destruct H as (t' & Et & Ht). apply (H2 t' Ht). rewrite Et. apply in_app_iff. right. left. reflexivity.
        -- intros t' [<-|Ht]; [exact E1'|]. intros H. apply (H2 t' Ht). apply in_app_iff. left. exact H.
        -- intros t' [<-|Ht]; [exact E2|apply H3; exact Ht].
      * intros (H1 & H2 & H3). apply NoDup_cons_iff in H1. destruct H1 as [H0 H1]. split; [exact H1|]. split; [|intros t' Ht; apply H3; right; exact Ht].
        intros t' Ht H. apply in_app_iff in H. destruct H as [H|[H|[]]]; [apply (H2 t' (or_intror Ht)); exact H|]. apply H0. rewrite H. apply in_map. exact Ht.
    + intros N' H. destruct (IH2 N' H) as [-> ->]. cbn. rewrite <- !app_assoc. split; reflexivity.
Qed.

(** what a tracer needs of the equation set *)
Definition acceptable (names : list string) (t : active_tracer) : Prop :=
  a_eqn t <> OtherEq /\ (a_eqn t = TracerConservative -> exists dn, a_density t = Some dn /\ In dn names).
Definition density_ok (names : list string) (t : active_tracer) : Prop := a_eqn t = TracerConservative -> exists dn, a_density t = Some dn /\ In dn names.
Definition is_mass (i : nat) (n : string) (m : term) : Prop := t_form m = Mass /\ t_comp m = i /\ t_test m = i /\ t_prog m = n /\ t_dt m = true.
Lemma mass_term_fold names i n tracers : forall m0, is_mass i n m0 -> (forall t, In t tracers -> density_ok names t) ->
  exists m, fold_left (fun acc t => do m <- acc;
      if String.eqb n (a_name t) then
        match a_eqn t, a_density t with
        | TracerConservative, Some dn => match index_of dn names with
                                         | Some j => Ok {| t_form := Mass; t_comp := i; t_test := i; t_prog := n; t_dt := true; t_weighted := Some (WeightedMass j) |}
                                         | None => Err ValueError
                                         end
        | TracerConservative, None => Err ValueError
        | _, _ => Ok m
        end
      else Ok m) tracers (Ok m0) = Ok m /\ is_mass i n m.
Proof.
  induction tracers as [|t tracers IH]; intros m0 H0 Hd; cbn [fold_left]; [exists m0; split; [reflexivity|exact H0]|].
  assert (Hd' : forall t, In t tracers -> density_ok names t) by (intros t' Ht; apply Hd; right; exact Ht). cbn [bind].
  destruct (String.eqb n (a_name t)); [|apply IH; assumption]. pose proof (Hd t (or_introl eq_refl)) as Ht. unfold density_ok in Ht.
  destruct (a_eqn t); try (apply IH; assumption). destruct (Ht eq_refl) as (dn & -> & Hin). apply index_of_In in Hin. destruct Hin as [j ->]. apply IH; [repeat split|exact Hd'].
Qed.
Lemma mass_terms_ok names tracers l : forall i, (forall t, In t tracers -> density_ok names t) ->
  exists ms, mass_terms_from names tracers i l = Ok ms /\ Forall2 (fun '(k, n) m => is_mass k n m) (combine (seq i (Datatypes.length l)) l) ms.
Proof.
  induction l as [|n l IH]; intros i Hd; cbn [mass_terms_from]; [exists []; split; [reflexivity|constructor]|].
  destruct (mass_term_fold names i n tracers (plain Mass i n true)) as (m & Em & Hm); [repeat split|exact Hd|]. unfold mass_term. rewrite Em. cbn [bind].
  destruct (IH (S i) Hd) as (ms & -> & Hms). cbn [bind]. exists (m :: ms). split; [reflexivity|]. cbn [Datatypes.length seq combine]. constructor; assumption.
Qed.
Lemma fold_mass_err names i n tracers e : fold_left (fun acc t => do m <- acc;
      if String.eqb n (a_name t) then
        match a_eqn t, a_density t with
        | TracerConservative, Some dn => match index_of dn names with
                                         | Some j => Ok {| t_form := Mass; t_comp := i; t_test := i; t_prog := n; t_dt := true; t_weighted := Some (WeightedMass j) |}
                                         | None => Err ValueError
                                         end
        | TracerConservative, None => Err ValueError
        | _, _ => Ok m
        end
      else Ok m) tracers (Err e) = Err e.
Proof. induction tracers as [|t tracers IH]; cbn [fold_left]; [reflexivity|exact IH]. Qed.
Lemma tracer_terms_ok names u l : (exists ts, tracer_terms names u l = Ok ts) <-> (forall t, In t l -> a_eqn t <> NoTransport -> In (a_name t) names) /\ (forall t, In t l -> acceptable names t).
Proof.
  induction l as [|t l IH]; cbn [tracer_terms]; [split; [intros _; split; intros t []|intros _; eexists; reflexivity]|].
  assert (HT : (exists a, tracer_term names u t = Ok a) <-> (a_eqn t <> NoTransport -> In (a_name t) names) /\ acceptable names t).
  { unfold tracer_term, acceptable. destruct (a_eqn t) eqn:Ee.
    - split; [intros _; split; [intros H; congruence|split; [discriminate|intros H; discriminate]]|intros _; eexists; reflexivity].
    - rewrite index_of_In. destruct (index_of (a_name t) names) as [i|]; split.
      + intros _. split; [intros _; eexists; reflexivity|split; [discriminate|intros H; discriminate]].
      + intros _. eexists; reflexivity.
      + intros [a H]; discriminate.
      + intros [H _]. destruct H as [i H]; [discriminate|discriminate].
    - rewrite index_of_In. destruct (index_of (a_name t) names) as [i|]; split.
      + intros _. split; [intros _; eexists; reflexivity|split; [discriminate|intros H; discriminate]].
      + intros _. eexists; reflexivity.
      + intros [a H]; discriminate.
      + intros [H _]. destruct H as [i H]; [discriminate|discriminate].
    - rewrite index_of_In. destruct (index_of (a_name t) names) as [i|].
      + destruct (a_density t) as [dn|].
        * destruct (index_of dn names) as [j|] eqn:Ej; split.
          -- intros _. split; [intros _; eexists; reflexivity|]. split; [discriminate|]. intros _. exists dn. split; [reflexivity|]. apply index_of_In. exists j. exact Ej.
          -- intros _. eexists; reflexivity.
          -- intros [a H]; discriminate.
          -- intros (_ & _ & H). destruct (H eq_refl) as (dn' & E & Hin). injection E as <-. apply index_of_In in Hin. destruct Hin as [j Hj]. congruence.
        * split; [intros [a H]; discriminate|]. intros (_ & _ & H). destruct (H eq_refl) as (dn' & E & _). discriminate.
      + split; [intros [a H]; discriminate|]. intros [H _]. destruct H as [i H]; [discriminate|discriminate].
    - split; [intros [a H]|intros (_ & H & _); congruence]. destruct (index_of (a_name t) names); discriminate. }
  destruct (tracer_term names u t) as [a|e]; cbn [bind].
  - destruct HT as [HT _]. destruct (HT (ex_intro _ a eq_refl)) as [H1 H2]. destruct (tracer_terms names u l) as [b|e]; cbn [bind].
    + destruct IH as [IH _]. destruct (IH (ex_intro _ b eq_refl)) as [H3 H4]. split; [intros _|intros _; eexists; reflexivity].
      split; intros t' [<-|Ht]; auto.
    + destruct IH as [_ IH]. split; [intros [x H]; discriminate|]. intros [H3 H4]. destruct IH as [b H]; [split; intros t' Ht; [apply H3|apply H4]; right; exact Ht|discriminate].
  - split; [intros [x H]; discriminate|]. intros [H3 H4]. destruct HT as [_ HT]. destruct HT as [a H]; [split; [apply H3|apply H4]; left; reflexivity|discriminate].
Qed.

Lemma perm_names l : Permutation (map a_name l) (map a_name (order l)).
Proof. apply Permutation_map, order_perm. Qed.
Lemma in_order t l : In t (order l) <-> In t l.
Proof. split; apply Permutation_in; [symmetry|]; apply order_perm. Qed.
(** the equation as built, once all is in order *)
Lemma coupled_parts known l E : coupled_transport known (Some l) = Ok E ->
  e_tracers E = order l /\ e_fields E = map a_name (order l) /\ e_spaces E = map a_space (order l) /\ NoDup (map a_name (order l)) /\
  (forall t, In t l -> In (a_space t) known) /\ In "HDiv"%string known /\ l <> [] /\
  exists ms u ts, generate_mass_terms (e_fields E) (order l) = Ok ms /\ transport_velocity (e_fields E) ["u"%string] = Ok u /\ tracer_terms (e_fields E) u (order l) = Ok ts /\ e_residual E = ms ++ ts.
Proof.
  intros H. unfold coupled_transport in H.
  destruct (add_all known {| field_names := []; space_names := []; spaces := [] |} (order l)) as [N|] eqn:EN; [|discriminate]. cbn [bind] in H.
  destruct (add_all_ok known (order l) {| field_names := []; space_names := []; spaces := [] |}) as [A1 A2]; [intros n s Hl; discriminate|].
  destruct (A2 N EN) as [F1 F2]. cbn in F1, F2. destruct A1 as [A1 _]. destruct (A1 (ex_intro _ N EN)) as (HN & _ & HK). rewrite F1, F2 in H.
  destruct (map a_name (order l)) as [|n0 ns] eqn:Em; [discriminate|]. rewrite <- Em in *. destruct (existsb (String.eqb "HDiv") known) eqn:EH; cbn [negb] in H; [|discriminate].
  destruct (generate_mass_terms _ (order l)) as [ms|] eqn:EM; [|discriminate]. cbn [bind] in H. unfold generate_tracer_transport_terms in H.
  destruct (transport_velocity _ _) as [u|] eqn:EU; [|discriminate]. cbn [bind] in H. destruct (tracer_terms _ u (order l)) as [ts|] eqn:ET; [|discriminate]. cbn [bind] in H. injection H as <-. cbn.
  repeat split; try assumption; try reflexivity.
  - intros t Ht. apply HK. apply in_order. exact Ht.
  - apply existsb_In. exact EH.
  - intros ->. discriminate Em.
  - exists ms, u, ts. repeat split; try assumption. destruct ts; reflexivity.
Qed.
(** When a coupled transport equation can be built: at least one tracer, different names, known spaces, a density among the fields for each conservative tracer *)
Theorem coupled_can_be_built : forall known l, is_ok (coupled_transport known (Some l)) <->
  l <> [] /\ NoDup (map a_name l) /\ (forall t, In t l -> In (a_space t) known) /\ In "HDiv"%string known /\ (forall t, In t l -> acceptable (map a_name l) t).
Proof.
  intros known l. assert (Hin : forall n, In n (map a_name (order l)) <-> In n (map a_name l)) by (intros n; split; apply Permutation_in; [symmetry|]; apply perm_names). split.
  - intros [E H]. destruct (coupled_parts known l E H) as (_ & Hf & _ & HN & HK & HD & Hl & ms & u & ts & _ & _ & Ht & _). repeat split; try assumption.
    + eapply Permutation_NoDup; [symmetry; apply perm_names|exact HN].
    + rewrite Hf in Ht. destruct (tracer_terms_ok (map a_name (order l)) u (order l)) as [HT _]. destruct (HT (ex_intro _ ts Ht)) as [_ HA].
      destruct (HA t) as [A1 _]; [apply in_order; assumption|exact A1].
    + rewrite Hf in Ht. destruct (tracer_terms_ok (map a_name (order l)) u (order l)) as [HT _]. destruct (HT (ex_intro _ ts Ht)) as [_ HA].
      intros Ee. destruct (HA t) as [_ A2]; [apply in_order; assumption|]. destruct (A2 Ee) as (dn & E1 & E2). exists dn. split; [exact E1|apply Hin; exact E2].
  - intros (Hl & HN & HK & HD & HA). unfold coupled_transport.
    destruct (add_all_ok known (order l) {| field_names := []; space_names := []; spaces := [] |}) as [A1 A2]; [intros n s H; discriminate|]. destruct A1 as [_ A1].
    destruct A1 as [N EN]; [repeat split; [eapply Permutation_NoDup; [apply perm_names|exact HN]|intros t _ []|intros t Ht; apply HK, in_order; exact Ht]|].
    destruct (A2 N EN) as [F1 F2]. cbn in F1, F2. rewrite EN. cbn [bind]. rewrite F1, F2. destruct (map a_name (order l)) as [|n0 ns] eqn:Em.
    { exfalso. apply Hl. apply Permutation_nil. symmetry. etransitivity; [apply order_perm|]. destruct (order l); [constructor|discriminate]. }
    rewrite <- Em in *. apply existsb_In in HD. rewrite HD. cbn [negb].
    assert (Hd : forall t, In t (order l) -> acceptable (map a_name (order l)) t).
    { intros t Ht. destruct (HA t) as [B1 B2]; [apply in_order; exact Ht|]. split; [exact B1|]. intros Ee. destruct (B2 Ee) as (dn & E1 & E2). exists dn. split; [exact E1|apply Hin; exact E2]. }
    destruct (mass_terms_ok (map a_name (order l)) (order l) (map a_name (order l)) 0) as (ms & EM & _); [intros t Ht; exact (proj2 (Hd t Ht))|]. unfold generate_mass_terms. rewrite EM. cbn [bind].
    unfold generate_tracer_transport_terms. assert (EU : exists u, transport_velocity (map a_name (order l)) ["u"%string] = Ok u) by (unfold transport_velocity; destruct (index_of _ _); eexists; reflexivity).
    destruct EU as [u ->]. cbn [bind]. destruct (tracer_terms_ok (map a_name (order l)) u (order l)) as [_ HT]. destruct HT as [ts ->]; [split; [intros t Ht _; apply in_map; exact Ht|exact Hd]|]. cbn [bind]. eexists. reflexivity.
Qed.
(** Its fields are the tracers, each with its own space *)
Theorem coupled_fields : forall known l E, coupled_transport known (Some l) = Ok E ->
  Permutation (e_fields E) (map a_name l) /\ (forall t, In t l -> exists i, nth_error (e_fields E) i = Some (a_name t) /\ nth_error (e_spaces E) i = Some (a_space t)) /\
  (forall t, In t l -> get_active_tracer E (a_name t) = Ok t) /\ (forall n, ~ In n (map a_name l) -> get_active_tracer E n = Err RuntimeError).
Proof.
  intros known l E H. destruct (coupled_parts known l E H) as (Ht & -> & -> & HN & _). repeat split.
  - symmetry. apply perm_names.
  - intros t Hi. apply in_order in Hi. apply In_nth_error in Hi. destruct Hi as [i Hi]. exists i. rewrite !nth_error_map, Hi. split; reflexivity.
  - intros t Hi. apply in_order in Hi. unfold get_active_tracer. rewrite Ht. assert (F : find (fun t' => String.eqb (a_name t') (a_name t)) (order l) = Some t); [|rewrite F; reflexivity].
    clear - HN Hi. induction (order l) as [|a r IH]; [destruct Hi|]. cbn in HN. apply NoDup_cons_iff in HN. destruct HN as [Ha HN]. cbn [find]. destruct Hi as [->|Hi]; [rewrite String.eqb_refl; reflexivity|].
    destruct (String.eqb_spec (a_name a) (a_name t)) as [Ea|]; [exfalso; apply Ha; rewrite Ea; apply in_map; exact Hi|apply IH; assumption].
  - intros n Hn. unfold get_active_tracer. rewrite Ht. destruct (find _ (order l)) as [t|] eqn:F; [|reflexivity]. apply find_some in F. destruct F as [Hi Eq]. apply String.eqb_eq in Eq. exfalso. apply Hn. rewrite <- Eq. apply in_map, in_order. exact Hi.
Qed.

(** ** The meaning of the coupled equation: every tracer alone *)
Section Meaning.
Variables (G : geometry) (d : nat) (u : velocity -> nat -> vpoint).
(** specification: the tracer's own equation, from the class for it *)
Definition own_equation (t : active_tracer) : list term :=
  match a_eqn t with
  | ConservativeEq => continuity_equation (a_name t)
  | AdvectiveEq | TracerConservative => advection_equation (a_name t)
  | _ => [plain Mass 0 (a_name t) true]
  end.
(** a state and its rate of change solve an equation: the residual vanishes for all test functions *)
Definition solves (X dX : nat -> sfun) (l : list term) : Prop := forall tests, residual_value G d u X dX tests l = 0.
Fixpoint total (i : nat) (l : list active_tracer) (f : nat -> active_tracer -> R) : R :=
  match l with [] => 0 | t :: r => f i t + total (S i) r f end.
Lemma residual_app X dX tests l1 l2 : residual_value G d u X dX tests (l1 ++ l2) = residual_value G d u X dX tests l1 + residual_value G d u X dX tests l2.
Proof. unfold residual_value. induction l1 as [|t l1 IH]; cbn [app fold_right]; [ring|]. rewrite IH. ring. Qed.
Lemma mass_total X dX tests : forall l i ms, Forall2 (fun '(k, n) m => is_mass k n m) (combine (seq i (Datatypes.length (map a_name l))) (map a_name l)) ms ->
  residual_value G d u X dX tests ms = total i l (fun k _ => value G d u X dX k true Mass (tests k)).
Proof.
  induction l as [|t l IH]; intros i ms H; cbn [map Datatypes.length seq combine] in H; inversion H as [|x y lx ly Hm Hms]; subst; [reflexivity|].
  cbn [residual_value fold_right total]. unfold residual_value in IH. rewrite (IH (S i) ly Hms). f_equal. unfold term_value. destruct Hm as (-> & -> & -> & _ & ->). reflexivity.
Qed.
Definition transport_part (v : velocity) X dX (tests : nat -> nat -> R) (k : nat) (t : active_tracer) : R :=
  match a_eqn t with
  | AdvectiveEq | TracerConservative => value G d u X dX k false (Advection v) (tests k)
  | ConservativeEq => value G d u X dX k false (Continuity v) (tests k)
  | _ => 0
  end.
Lemma transport_total names v X dX tests : forall l i ts, tracer_terms names v l = Ok ts -> (forall k t, nth_error l k = Some t -> index_of (a_name t) names = Some (i + k)%nat) ->
  residual_value G d u X dX tests ts = total i l (transport_part v X dX tests).
Proof.
  induction l as [|t l IH]; intros i ts H Hi; cbn [tracer_terms] in H; [injection H as <-; reflexivity|].
  destruct (tracer_term names v t) as [a|] eqn:Ea; [|discriminate]. cbn [bind] in H. destruct (tracer_terms names v l) as [b|] eqn:Eb; [|discriminate]. cbn [bind] in H. injection H as <-.
  rewrite residual_app. cbn [total]. f_equal.
  - pose proof (Hi 0%nat t eq_refl) as E0. rewrite Nat.add_0_r in E0. unfold tracer_term in Ea. rewrite E0 in Ea. unfold transport_part.
    destruct (a_eqn t); try discriminate; try (injection Ea as <-; cbn; unfold term_value; cbn; ring).
    destruct (a_density t) as [dn|]; [|discriminate]. destruct (index_of dn names); [|discriminate]. injection Ea as <-. cbn. unfold term_value. cbn. ring.
  - apply IH; [reflexivity|]. intros k t' Hk. rewrite (Hi (S k) t' Hk). f_equal. lia.
Qed.
Lemma total_add l : forall i f g, total i l f + total i l g = total i l (fun k t => f k t + g k t).
Proof. induction l as [|t l IH]; intros; cbn [total]; [ring|]. rewrite <- IH. ring. Qed.
Lemma total_0 l : forall i f, (forall k t, nth_error l k = Some t -> f (i + k)%nat t = 0) -> total i l f = 0.
Proof.
  induction l as [|t l IH]; intros i f H; cbn [total]; [reflexivity|]. pose proof (H 0%nat t eq_refl) as H0. rewrite Nat.add_0_r in H0. rewrite H0, IH; [ring|].
  intros k t' Hk. specialize (H (S k) t' Hk). rewrite Nat.add_succ_r in H. exact H.
Qed.
Lemma total_one l : forall i f k t, nth_error l k = Some t -> (forall j t', nth_error l j = Some t' -> j <> k -> f (i + j)%nat t' = 0) -> total i l f = f (i + k)%nat t.
Proof.
  induction l as [|a l IH]; intros i f k t Hk H; [destruct k; discriminate|]. cbn [total]. destruct k as [|k]; cbn in Hk.
  - injection Hk as ->. rewrite total_0; [rewrite Nat.add_0_r; ring|]. intros j t' Hj. specialize (H (S j) t' Hj ltac:(lia)). rewrite Nat.add_succ_r in H. exact H.
  - pose proof (H 0%nat a eq_refl ltac:(lia)) as H0. rewrite Nat.add_0_r in H0. rewrite H0. rewrite (IH (S i) f k t Hk); [rewrite Nat.add_succ_r; cbn; ring|].
    intros j t' Hj Hne. specialize (H (S j) t' Hj ltac:(lia)). rewrite Nat.add_succ_r in H. exact H.
Qed.
Definition tracer_part (v : velocity) X dX (tests : nat -> nat -> R) (k : nat) (t : active_tracer) : R := value G d u X dX k true Mass (tests k) + transport_part v X dX tests k t.
Lemma coupled_total known l E X dX : coupled_transport known (Some l) = Ok E -> ~ In "u"%string (map a_name l) ->
  forall tests, residual_value G d u X dX tests (e_residual E) = total 0 (order l) (tracer_part PrescribedU X dX tests).
Proof.
  intros H Hu tests. destruct (coupled_parts known l E H) as (_ & Hf & _ & HN & _ & _ & _ & ms & v & ts & EM & EU & ET & ->).
  assert (Hu' : index_of "u" (e_fields E) = None).
  { destruct (index_of "u" (e_fields E)) eqn:Ei; [|reflexivity]. exfalso. apply Hu. eapply Permutation_in; [symmetry; apply perm_names|]. rewrite <- Hf. apply index_of_In. eexists. exact Ei. }
  unfold transport_velocity in EU. rewrite Hu' in EU. cbn in EU. injection EU as <-. rewrite residual_app. etransitivity; [|apply (total_add (order l) 0)]. f_equal.
  - destruct (mass_terms_ok (e_fields E) (order l) (e_fields E) 0) as (ms' & EM' & HF).
    + destruct (tracer_terms_ok (e_fields E) PrescribedU (order l)) as [HT _]. destruct (HT (ex_intro _ ts ET)) as [_ HA]. intros t Ht. exact (proj2 (HA t Ht)).
    + unfold generate_mass_terms in EM. rewrite EM in EM'. injection EM' as <-. rewrite Hf in HF. apply mass_total. exact HF.
  - eapply transport_total; [exact ET|]. intros k t Hk. rewrite Hf. apply index_of_NoDup; [exact HN|]. cbn [Nat.add]. rewrite nth_error_map, Hk. reflexivity.
Qed.
Definition only (k : nat) (phi : nat -> R) : nat -> nat -> R := fun i c => if Nat.eqb i k then phi c else 0.
Lemma value_0 X dX i dt f : value G d u X dX i dt f (fun _ => 0) = 0.
Proof. destruct f; cbn [value]; apply dx_0; intros c; unfold advection, continuity, tracer_conservative, continuity; ring. Qed.
Lemma tracer_part_own X dX tests k t : a_eqn t <> OtherEq ->
  tracer_part PrescribedU X dX tests k t = residual_value G d u (fun _ => X k) (fun _ => dX k) (fun _ => tests k) (own_equation t).
Proof.
  intros Ho. unfold tracer_part, transport_part, own_equation, residual_value. destruct (a_eqn t); try congruence; cbn [fold_right advection_equation continuity_equation]; unfold term_value; cbn [plain t_comp t_dt t_form t_test value]; ring.
Qed.
(** A coupled transport equation (with a prescribed velocity) is solved if and only if every tracer solves its own transport equation: tracers do not interact, whatever
    their order, number and spaces; conservative tracers are, by default, transported in advective form *)
Theorem coupled_is_independent : forall known l E X dX, coupled_transport known (Some l) = Ok E -> ~ In "u"%string (map a_name l) ->
  solves X dX (e_residual E) <-> forall t i, In t l -> nth_error (e_fields E) i = Some (a_name t) -> solves (fun _ => X i) (fun _ => dX i) (own_equation t).
Proof.
  intros known l E X dX H Hu. pose proof (coupled_total known l E X dX H Hu) as HT. destruct (coupled_parts known l E H) as (_ & Hf & _ & HN & _ & _ & _ & ms & v & ts & _ & _ & ET & _).
  assert (HA : forall t, In t (order l) -> a_eqn t <> OtherEq) by (intros t Ht; destruct (tracer_terms_ok (e_fields E) v (order l)) as [K _]; destruct (K (ex_intro _ ts ET)) as [_ HA]; exact (proj1 (HA t Ht))).
  split.
  - intros HS t i Ht Hi tests. apply in_order in Ht. destruct (In_nth_error _ _ Ht) as [k Hk]. assert (k = i).
    { rewrite Hf in Hi. eapply (proj1 (NoDup_nth_error (map a_name (order l)))); [exact HN|apply nth_error_Some; rewrite nth_error_map, Hk; discriminate|]. rewrite Hi, nth_error_map, Hk. reflexivity. }
    subst k. specialize (HS (only i (tests 0%nat))). rewrite HT in HS. rewrite (total_one (order l) 0 _ i t Hk) in HS.
    + cbn [Nat.add] in HS. rewrite tracer_part_own in HS by (apply HA; exact Ht). rewrite <- HS. unfold own_equation, only. rewrite Nat.eqb_refl.
      destruct (a_eqn t); reflexivity.
    + intros j t' Hj Hne. cbn [Nat.add]. unfold tracer_part, transport_part, only. replace (Nat.eqb j i) with false by (symmetry; apply Nat.eqb_neq; exact Hne). rewrite !value_0. destruct (a_eqn t'); ring.
  - intros HS tests. rewrite HT. apply total_0. intros k t Hk. cbn [Nat.add]. rewrite tracer_part_own by (apply HA; eapply nth_error_In; exact Hk).
    apply HS; [apply in_order; eapply nth_error_In; exact Hk|]. rewrite Hf, nth_error_map, Hk. reflexivity.
Qed.

(** *** The mass-weighted forms *)
Definition weighted_mass_of (names : list string) (t : active_tracer) : option form :=
  match a_eqn t, a_density t with TracerConservative, Some dn => option_map WeightedMass (index_of dn names) | _, _ => None end.
Lemma mass_fold_other names i n tracers m0 : ~ In n (map a_name tracers) -> fold_left (fun acc t => do m <- acc;
      if String.eqb n (a_name t) then
        match a_eqn t, a_density t with
        | TracerConservative, Some dn => match index_of dn names with
                                         | Some j => Ok {| t_form := Mass; t_comp := i; t_test := i; t_prog := n; t_dt := true; t_weighted := Some (WeightedMass j) |}
                                         | None => Err ValueError
                                         end
        | TracerConservative, None => Err ValueError
        | _, _ => Ok m
        end
      else Ok m) tracers (Ok m0) = Ok m0.
Proof.
  revert m0; induction tracers as [|t tracers IH]; intros m0 H; cbn [fold_left]; [reflexivity|]. cbn [bind]. cbn [map] in H. destruct (String.eqb_spec n (a_name t)) as [E|]; [exfalso; apply H; left; symmetry; exact E|].
  apply IH. intros Hi. apply H. right. exact Hi.
Qed.
Lemma mass_term_exact names i tracers : NoDup (map a_name tracers) -> (forall t, In t tracers -> density_ok names t) -> forall t, In t tracers ->
  mass_term names tracers i (a_name t) = Ok {| t_form := Mass; t_comp := i; t_test := i; t_prog := a_name t; t_dt := true; t_weighted := weighted_mass_of names t |}.
Proof.
  intros HN Hd t Ht. apply in_split in Ht. destruct Ht as (l1 & l2 & ->). rewrite map_app in HN. cbn [map] in HN. apply NoDup_remove_2 in HN. unfold mass_term. rewrite fold_left_app.
  rewrite mass_fold_other by (intros H; apply HN, in_app_iff; left; exact H). cbn [fold_left bind]. rewrite String.eqb_refl.
  assert (Hdt : density_ok names t) by (apply Hd, in_app_iff; right; left; reflexivity). unfold density_ok in Hdt. unfold weighted_mass_of.
  assert (H2 : ~ In (a_name t) (map a_name l2)) by (intros H; apply HN, in_app_iff; right; exact H).
  destruct (a_eqn t); try (apply (mass_fold_other names i (a_name t) l2); exact H2). destruct (Hdt eq_refl) as (dn & -> & Hin). apply index_of_In in Hin. destruct Hin as [j ->]. cbn [option_map].
  apply (mass_fold_other names i (a_name t) l2). exact H2.
Qed.
Definition weighted_mass_part names X dX (tests : nat -> nat -> R) (k : nat) (t : active_tracer) : R :=
  value G d u X dX k true (match weighted_mass_of names t with Some f => f | None => Mass end) (tests k).
Lemma weighted_mass_total names tracers X dX tests : NoDup (map a_name tracers) -> (forall t, In t tracers -> density_ok names t) -> forall l i ms,
  incl l tracers -> mass_terms_from names tracers i (map a_name l) = Ok ms -> residual_value G d u X dX tests (map weighted ms) = total i l (weighted_mass_part names X dX tests).
Proof.
  intros HN Hd. induction l as [|t l IH]; intros i ms Hi H; cbn [map mass_terms_from] in H; [injection H as <-; reflexivity|].
  rewrite (mass_term_exact names i tracers HN Hd t) in H by (apply Hi; left; reflexivity). cbn [bind] in H. destruct (mass_terms_from names tracers (S i) (map a_name l)) as [ms'|] eqn:E; [|discriminate].
  cbn [bind] in H. injection H as <-. cbn [map residual_value fold_right total]. unfold residual_value in IH. rewrite (IH (S i) ms'); [|intros x Hx; apply Hi; right; exact Hx|exact E]. f_equal.
  unfold term_value, weighted, weighted_mass_part. cbn [t_weighted]. destruct (weighted_mass_of names t); reflexivity.
Qed.
Definition weighted_transport_part names (v : velocity) X dX (tests : nat -> nat -> R) (k : nat) (t : active_tracer) : R :=
  match a_eqn t, a_density t with
  | TracerConservative, Some dn => match index_of dn names with Some j => value G d u X dX k false (ConservativeTracer j v) (tests k) | None => 0 end
  | _, _ => transport_part v X dX tests k t
  end.
Lemma weighted_transport_total names v X dX tests : forall l i ts, tracer_terms names v l = Ok ts -> (forall k t, nth_error l k = Some t -> index_of (a_name t) names = Some (i + k)%nat) ->
  residual_value G d u X dX tests (map weighted ts) = total i l (weighted_transport_part names v X dX tests).
Proof.
  induction l as [|t l IH]; intros i ts H Hi; cbn [tracer_terms] in H; [injection H as <-; reflexivity|].
  destruct (tracer_term names v t) as [a|] eqn:Ea; [|discriminate]. cbn [bind] in H. destruct (tracer_terms names v l) as [b|] eqn:Eb; [|discriminate]. cbn [bind] in H. injection H as <-.
  rewrite map_app, residual_app. cbn [total]. f_equal.
  - pose proof (Hi 0%nat t eq_refl) as E0. rewrite Nat.add_0_r in E0. unfold tracer_term in Ea. rewrite E0 in Ea. unfold weighted_transport_part, transport_part.
    destruct (a_eqn t); try discriminate; try (injection Ea as <-; cbn; unfold term_value; cbn; ring).
    destruct (a_density t) as [dn|]; [|discriminate]. destruct (index_of dn names); [|discriminate]. injection Ea as <-. cbn. unfold term_value. cbn. ring.
  - apply IH; [reflexivity|]. intros k t' Hk. rewrite (Hi (S k) t' Hk). f_equal. lia.
Qed.
(** With the mass-weighted forms, a conservative tracer q of the density rho has, for every test function, the residual of its own advection equation tested with rho*test plus that of the
    continuity equation of rho tested with q*test: both forms have the same solutions where rho obeys its continuity equation *)
Theorem coupled_weighted : forall known l E X dX t dn i j, coupled_transport known (Some l) = Ok E -> ~ In "u"%string (map a_name l) ->
  In t l -> a_eqn t = TracerConservative -> a_density t = Some dn -> nth_error (e_fields E) i = Some (a_name t) -> nth_error (e_fields E) j = Some dn ->
  forall phi, residual_value G d u X dX (only i phi) (map weighted (e_residual E)) =
    residual_value G d u (fun _ => X i) (fun _ => dX i) (fun _ c => s_val (at_ (X j) c) * phi c) (advection_equation (a_name t))
    + residual_value G d u (fun _ => X j) (fun _ => dX j) (fun _ c => s_val (at_ (X i) c) * phi c) (continuity_equation dn).
Proof.
  intros known l E X dX t dn i j H Hu Ht Ee Ed Hi Hj phi. destruct (coupled_parts known l E H) as (_ & Hf & _ & HN & _ & _ & _ & ms & v & ts & EM & EU & ET & ->).
  assert (Hu' : index_of "u" (e_fields E) = None).
  { destruct (index_of "u" (e_fields E)) eqn:Ei; [|reflexivity]. exfalso. apply Hu. eapply Permutation_in; [symmetry; apply perm_names|]. rewrite <- Hf. apply index_of_In. eexists. exact Ei. }
  unfold transport_velocity in EU. rewrite Hu' in EU. cbn in EU. injection EU as <-.
  assert (HA : forall t, In t (order l) -> acceptable (e_fields E) t) by (destruct (tracer_terms_ok (e_fields E) PrescribedU (order l)) as [K _]; destruct (K (ex_intro _ ts ET)) as [_ HA]; exact HA).
  rewrite map_app, residual_app. unfold generate_mass_terms in EM. rewrite Hf in EM at 2.
  rewrite (weighted_mass_total (e_fields E) (order l) X dX (only i phi)) with (l := order l) (i := 0%nat) (ms := ms); [|exact HN|intros t' Ht'; exact (proj2 (HA t' Ht'))|apply incl_refl|exact EM].
  rewrite (weighted_transport_total (e_fields E) PrescribedU X dX (only i phi)) with (l := order l) (i := 0%nat) (ts := ts); [|exact ET|].
  2:{ intros k t' Hk. rewrite Hf. apply index_of_NoDup; [exact HN|]. cbn [Nat.add]. rewrite nth_error_map, Hk. reflexivity. }
  rewrite total_add. apply in_order in Ht. destruct (In_nth_error _ _ Ht) as [k Hk]. assert (k = i).
  { rewrite Hf in Hi. eapply (proj1 (NoDup_nth_error (map a_name (order l)))); [exact HN|apply nth_error_Some; rewrite nth_error_map, Hk; discriminate|]. rewrite Hi, nth_error_map, Hk. reflexivity. }
  subst k. rewrite (total_one (order l) 0 _ i t Hk).
  - cbn [Nat.add]. assert (Ej : index_of dn (e_fields E) = Some j) by (apply index_of_NoDup; [rewrite Hf; exact HN|exact Hj]).
    unfold weighted_mass_part, weighted_mass_of, weighted_transport_part. rewrite Ee, Ed, Ej. cbn [option_map]. unfold residual_value, advection_equation, continuity_equation. cbn [fold_right]. unfold term_value.
    cbn [plain t_comp t_dt t_form t_test value]. unfold only. rewrite Nat.eqb_refl. rewrite !Rplus_0_r. rewrite <- !dx_plus. apply dx_ext. intros c.
    unfold advection, continuity, tracer_conservative, continuity, sprod. cbn [s_val s_grad].
    replace (rsum d (fun i0 => v_val (u PrescribedU c) i0 * (s_val (at_ (X i) c) * s_grad (at_ (X j) c) i0 + s_val (at_ (X j) c) * s_grad (at_ (X i) c) i0)))
      with (s_val (at_ (X i) c) * rsum d (fun i0 => v_val (u PrescribedU c) i0 * s_grad (at_ (X j) c) i0) + s_val (at_ (X j) c) * rsum d (fun i0 => v_val (u PrescribedU c) i0 * s_grad (at_ (X i) c) i0)); [ring|].
    rewrite <- !rsum_scal, <- rsum_add. apply rsum_ext. intros; ring.
  - intros k t' Hk' Hne. cbn [Nat.add]. unfold weighted_mass_part, weighted_transport_part, transport_part, only. replace (Nat.eqb k i) with false by (symmetry; apply Nat.eqb_neq; exact Hne). rewrite !value_0.
    destruct (a_eqn t'); try ring. destruct (a_density t') as [dn'|]; [|ring]. destruct (index_of dn' (e_fields E)); rewrite ?value_0; ring.
Qed.

(** *** The equations for one field *)
(** u.grad(q), div(q u) *)
Definition along (w : vpoint) (q : spoint) : R := rsum d (fun i => v_val w i * s_grad q i).
Theorem single_equations : forall n k (X dX : sfun),
  (solves (fun _ => X) (fun _ => dX) (advection_equation n) <-> forall test, dx G (fun c => test c * (s_val (at_ dX c) + along (u PrescribedU c) (at_ X c))) = 0) /\
  (solves (fun _ => X) (fun _ => dX) (continuity_equation n) <->
     forall test, dx G (fun c => test c * (s_val (at_ dX c) + (s_val (at_ X c) * v_div d (u PrescribedU c) + along (u PrescribedU c) (at_ X c)))) = 0) /\
  (solves (fun _ => X) (fun _ => dX) (diffusion_equation n k) <-> forall test, dx G (fun c => test c * (s_val (at_ dX c) - k * laplacian X c)) = 0) /\
  (forall l, advection_diffusion_equation n (Some k) = Ok l ->
     (solves (fun _ => X) (fun _ => dX) l <-> forall test, dx G (fun c => test c * (s_val (at_ dX c) + along (u PrescribedU c) (at_ X c) - k * laplacian X c)) = 0)).
Proof.
  intros n k X dX.
  assert (S : forall l g, (forall tests, residual_value G d u (fun _ => X) (fun _ => dX) tests l = dx G (fun c => tests 0%nat c * g c)) ->
    (solves (fun _ => X) (fun _ => dX) l <-> forall test, dx G (fun c => test c * g c) = 0)).
  { intros l g Hl. split; [intros H test; rewrite <- (Hl (fun _ => test)); apply H|intros H tests; rewrite Hl; apply (H (tests 0%nat))]. }
  repeat match goal with |- _ /\ _ => split end.
  - apply S. intros tests. unfold residual_value, advection_equation. cbn [fold_right]. unfold term_value. cbn. rewrite Rplus_0_r, <- dx_plus. apply dx_ext. intros c. unfold advection, along. ring.
  - apply S. intros tests. unfold residual_value, continuity_equation. cbn [fold_right]. unfold term_value. cbn. rewrite Rplus_0_r, <- dx_plus. apply dx_ext. intros c. unfold continuity, along. ring.
  - apply S. intros tests. unfold residual_value, diffusion_equation. cbn [fold_right]. unfold term_value. cbn. rewrite Rplus_0_r, <- dx_plus. apply dx_ext. intros c. ring.
  - intros l H. injection H as <-. apply S. intros tests. unfold residual_value. cbn [fold_right]. unfold term_value. cbn. rewrite Rplus_0_r, <- !dx_plus. apply dx_ext. intros c. unfold advection, along. ring.
Qed.
End Meaning.

(** Refuted: "the velocity is the prescribed one".  With a tracer called u, that tracer is taken as the velocity *)
Definition tracer (n : string) (e : transport_eqn) (dn : option string) : active_tracer := {| a_name := n; a_space := "DG"; a_eqn := e; a_density := dn |}.
Theorem tracer_named_u_refuted : exists E, coupled_transport ["DG"; "HDiv"]%string (Some [tracer "q" AdvectiveEq None; tracer "u" NoTransport None]) = Ok E /\
  exists t, In t (e_residual E) /\ t_prog t = "q"%string /\ t_form t = Advection (Component 1).
Proof. eexists. split; [reflexivity|]. cbn. exists (plain (Advection (Component 1)) 0 "q" false). split; [right; right; left; reflexivity|split; reflexivity]. Qed.
(** Refuted: "the diffusion parameters are optional", as the documentation of AdvectionDiffusionEquation has it *)
Theorem diffusion_parameters_optional_refuted : forall n, advection_diffusion_equation n None = Err AttributeError.
Proof. reflexivity. Qed.
(** three tracers, one of them conservative and given before its density *)
Example coupled_example : exists E, coupled_transport ["DG"; "HDiv"]%string (Some [tracer "q" TracerConservative (Some "rho"%string); tracer "b" NoTransport None; tracer "rho" ConservativeEq None]) = Ok E /\
  e_fields E = ["rho"; "b"; "q"]%string /\ Datatypes.length (e_residual E) = 5%nat /\ ~ In "u"%string (e_fields E).
Proof. eexists. split; [reflexivity|]. cbn. repeat split. intros [H|[H|[H|[]]]]; discriminate. Qed.
(** without tracers, nothing can be built; a conservative tracer needs the name of a density *)
Theorem coupled_needs_tracers : forall known, is_err (coupled_transport known None) /\ is_err (coupled_transport known (Some [])).
Proof. intros. split; eexists; reflexivity. Qed.
Theorem tracer_needs_density : forall n s e dn, is_err (make_tracer n s e dn) <-> e = TracerConservative /\ dn = None.
Proof.
  intros n s e dn. unfold make_tracer. split.
  - intros [x H]. destruct e, dn; try discriminate. split; reflexivity.
  - intros [-> ->]. eexists. reflexivity.
Qed.

(** ** Boundary conditions *)
Lemma concat_longer names n : In n names -> (2 <= Datatypes.length names)%nat -> (String.length n < String.length (full_name names))%nat.
Proof.
  assert (LA : forall a b, String.length (a ++ b)%string = (String.length a + String.length b)%nat) by (induction a as [|c a IH]; intros b; cbn; [reflexivity|rewrite IH; reflexivity]).
  assert (W : forall l, (forall m, In m l -> (String.length m <= String.length (full_name l))%nat)).
  { intros l. unfold full_name. induction l as [|a l IH]; intros m Hm; [destruct Hm|]. destruct l as [|b l]; [destruct Hm as [->|[]]; cbn; lia|].
    change (String.concat "_" (a :: b :: l)) with (a ++ "_" ++ String.concat "_" (b :: l))%string. rewrite !LA. destruct Hm as [->|Hm]; [lia|]. specialize (IH m Hm). lia. }
  intros Hi Hl. destruct names as [|a [|b l]]; cbn in Hl; try lia. unfold full_name. change (String.concat "_" (a :: b :: l)) with (a ++ "_" ++ String.concat "_" (b :: l))%string. rewrite !LA.
  destruct Hi as [->|Hi]; [cbn [String.length]; lia|]. specialize (W (b :: l) n Hi). unfold full_name in W. cbn [String.length]. lia.
Qed.
(** The name of the whole state is not the name of one of its fields, if there are two fields or more *)
Theorem full_name_distinct : forall names, (2 <= Datatypes.length names)%nat -> ~ In (full_name names) names.
Proof. intros names Hl Hi. pose proof (concat_longer names _ Hi Hl). lia. Qed.

(** specification: the walls without normal flow *)
Definition walls (extruded periodic : bool) (ids : list nat) : list wall := (if extruded && negb periodic then [Bottom; Top] else []) ++ map Id ids.
Definition on (s : bc_space) (ws : list wall) : list bc := map (fun w => {| b_space := s; b_wall := w |}) ws.
Lemma fold_full full (F : dict) : forall l D, (forall i n, In (i, n) l -> n <> full) -> (forall n, n <> full -> D n = F n) ->
  forall m, fold_left (fun D '(i, n) => set D full (D full ++ map (fun b => {| b_space := Sub "W" i; b_wall := b_wall b |}) (D n))) l D m =
  if String.eqb m full then D full ++ flat_map (fun '(i, n) => map (fun b => {| b_space := Sub "W" i; b_wall := b_wall b |}) (F n)) l else F m.
Proof.
  induction l as [|[i n] l IH]; intros D Hl HD m; cbn [fold_left flat_map].
  - destruct (String.eqb_spec m full) as [->|H]; [rewrite app_nil_r; reflexivity|apply HD; exact H].
  - rewrite IH.
    + destruct (String.eqb m full); [|reflexivity]. unfold set at 1. rewrite String.eqb_refl, <- app_assoc. f_equal. f_equal. rewrite (HD n) by (apply (Hl i); left; reflexivity). reflexivity.
    + intros i' n' H. apply (Hl i'). right. exact H.
    + intros n' H. unfold set. destruct (String.eqb_spec n' full); [congruence|apply HD; exact H].
Qed.
Lemma in_combine_names (names : list string) i n : In (i, n) (combine (seq 0 (Datatypes.length names)) names) -> In n names.
Proof. apply in_combine_r. Qed.
Lemma flat_map_u (f : nat -> list bc) : forall names k0 i, NoDup names -> nth_error names i = Some "u"%string -> forall g : nat -> string -> list bc,
  (forall k n, In n names -> g k n = if String.eqb n "u" then f k else []) -> flat_map (fun '(k, n) => g k n) (combine (seq k0 (Datatypes.length names)) names) = f (k0 + i)%nat.
Proof.
  induction names as [|m names IH]; intros k0 i HN Hi g Hg; [destruct i; discriminate|]. apply NoDup_cons_iff in HN. destruct HN as [Hm HN]. cbn [Datatypes.length seq combine flat_map]. rewrite Hg by (left; reflexivity).
  assert (Hg' : forall k n, In n names -> g k n = if String.eqb n "u" then f k else []) by (intros k n H; apply Hg; right; exact H). clear Hg. destruct i as [|i]; cbn in Hi.
  - injection Hi as ->. cbn [String.eqb Ascii.eqb Bool.eqb]. assert (E : forall k, flat_map (fun '(k, n) => g k n) (combine (seq k (Datatypes.length names)) names) = []).
    { clear - Hm Hg'. induction names as [|b names IH]; intros k; [reflexivity|]. cbn [Datatypes.length seq combine flat_map]. rewrite Hg' by (left; reflexivity). destruct (String.eqb_spec b "u") as [->|]; [exfalso; apply Hm; left; reflexivity|].
      cbn [app]. apply IH; [intros H; apply Hm; right; exact H|]. intros k' n' H. apply Hg'. right. exact H. }
    rewrite E, app_nil_r, Nat.add_0_r. reflexivity.
  - destruct (String.eqb_spec m "u") as [->|]; [exfalso; apply Hm; eapply nth_error_In; exact Hi|]. cbn [app]. rewrite (IH (S k0) i HN Hi g Hg'). f_equal. lia.
Qed.
(** For an equation set of two or more fields with a velocity: the conditions of u are those of the walls, the conditions of the whole state are the same on the component of u,
    and a scheme gets the same walls whatever its wrapper: on the component u of its mixed space, or on the whole of its space if it is for u; the other fields have none *)
Theorem bcs_reach_all_schemes : forall names extruded periodic ids i, NoDup names -> (2 <= Datatypes.length names)%nat -> nth_error names i = Some "u"%string ->
  exists D, set_no_normal_flow_bcs names extruded periodic ids no_bcs = Ok D /\
    let ws := walls extruded periodic ids in
    D "u"%string = on (Own "HDiv") ws /\ D (full_name names) = on (Sub "W" i) ws /\ (forall n, In n names -> n <> "u"%string -> D n = []) /\
    (forall w, (w = NoWrapper \/ w = Supg) -> scheme_bcs names D (full_name names) true w = Some (on (Sub "W" i) ws) /\ scheme_bcs names D "u" true w = Some (on (Own "HDiv") ws)) /\
    (forall fs, scheme_bcs names D (full_name names) true (MixedOptions fs) = Some (on (Sub fs i) ws) /\ scheme_bcs names D "u" true (Other fs) = Some (on (Own fs) ws)).
Proof.
  intros names ex pe ids i HN Hl Hi. unfold set_no_normal_flow_bcs.
  assert (Hu : In "u"%string names) by (eapply nth_error_In; exact Hi). pose proof Hu as Hu'. apply existsb_In in Hu'. rewrite Hu'. cbn [negb]. eexists. split; [reflexivity|].
  set (full := full_name names). set (ws := walls ex pe ids). assert (Hfull : ~ In full names) by (apply full_name_distinct; exact Hl).
  set (F := set no_bcs "u" (no_bcs "u"%string ++ map (fun w => {| b_space := Own "HDiv"; b_wall := w |}) ((if ex && negb pe then [Bottom; Top] else []) ++ map Id ids))).
  assert (Huf : "u"%string <> full) by (intros E; apply Hfull; rewrite <- E; exact Hu).
  assert (HD : forall m, fold_left (fun D '(i, n) => set D full (D full ++ map (fun b => {| b_space := Sub "W" i; b_wall := b_wall b |}) (D n))) (combine (seq 0 (Datatypes.length names)) names) (set F full []) m =
    if String.eqb m full then on (Sub "W" i) ws else if String.eqb m "u" then on (Own "HDiv") ws else []).
  { intros m. rewrite (fold_full full F).
    - destruct (String.eqb m full); [|unfold F, set; destruct (String.eqb m "u"); reflexivity]. unfold set at 1. rewrite String.eqb_refl. cbn [app].
      rewrite (flat_map_u (fun k => on (Sub "W" k) ws) names 0 i HN Hi); [reflexivity|]. intros k n _. unfold F, set. destruct (String.eqb n "u"); [|reflexivity].
      cbn [no_bcs app]. unfold on, ws, walls. rewrite map_map. reflexivity.
    - intros k n H E. apply Hfull. rewrite <- E. eapply in_combine_names. exact H.
    - intros n H. unfold set at 1. destruct (String.eqb_spec n full); [congruence|reflexivity]. }
  cbv zeta. change ((if ex && negb pe then [Bottom; Top] else []) ++ map Id ids) with ws in *.
  assert (E1 : String.eqb "u" full = false) by (apply String.eqb_neq; exact Huf).
  split; [rewrite HD, E1; reflexivity|]. split; [rewrite HD, String.eqb_refl; reflexivity|]. split.
  { intros n Hn Hne. rewrite HD. destruct (String.eqb_spec n full) as [->|]; [contradiction|]. destruct (String.eqb_spec n "u"); [contradiction|reflexivity]. }
  split.
  - intros w Hw. unfold scheme_bcs. cbn [negb]. destruct Hw as [-> | ->]; rewrite !HD, E1, !String.eqb_refl; split; reflexivity.
  - intros fs. unfold scheme_bcs. cbn [negb]. split.
    + f_equal. rewrite (flat_map_u (fun k => on (Sub fs k) ws) names 0 i HN Hi); [reflexivity|]. intros k n Hn. rewrite HD.
      replace (String.eqb n full) with false by (symmetry; apply String.eqb_neq; intros ->; contradiction). destruct (String.eqb n "u"); [|reflexivity]. unfold on. rewrite map_map. reflexivity.
    + rewrite HD, E1. cbn [String.eqb Ascii.eqb Bool.eqb]. unfold on. rewrite map_map. reflexivity.
Qed.

(** Without a velocity an equation set of this kind cannot be built, even if there are no walls *)
Theorem bcs_need_velocity : forall names extruded periodic ids D, ~ In "u"%string names -> set_no_normal_flow_bcs names extruded periodic ids D = Err NotImplementedError.
Proof. intros names ex pe ids D H. unfold set_no_normal_flow_bcs. destruct (existsb (String.eqb "u") names) eqn:E; [apply existsb_In in E; contradiction|reflexivity]. Qed.
(** Refuted for an equation set whose only field is u: its name is also that of the whole state, and l.293 empties the list that has just been filled *)
Theorem bcs_single_field_refuted : exists D, set_no_normal_flow_bcs ["u"%string] true false [1%nat] no_bcs = Ok D /\ D "u"%string = [] /\ walls true false [1%nat] = [Bottom; Top; Id 1].
Proof. eexists. repeat split. Qed.
Example bcs_example : NoDup ["u"; "rho"; "theta"]%string /\ nth_error ["u"; "rho"; "theta"]%string 0 = Some "u"%string /\ walls true false [] = [Bottom; Top] /\ walls false false [1; 2]%nat = [Id 1; Id 2].
Proof. split; [repeat constructor; cbn; intuition discriminate|]. repeat split. Qed.

(** The prescribed velocity is in the space asked for, or else in the HDiv space of the domain; other spaces of the domain stay *)
Theorem velocity_in_its_space : forall D Vu D' v, velocity_space D Vu = Ok (D', v) ->
  (match Vu with Some v' => v = v' | None => D "HDiv"%string = Some v /\ D' = D end) /\ forall n, n <> "HDiv"%string -> D' n = D n.
Proof.
  intros D Vu D' v H. unfold velocity_space in H. destruct Vu as [v'|].
  - cbn in H. injection H as <- <-. split; [reflexivity|]. intros n Hn. destruct (String.eqb_spec n "HDiv"); [contradiction|reflexivity].
  - destruct (D "HDiv"%string) as [w|] eqn:E; [|discriminate]. injection H as <- <-. split; [split; reflexivity|]. intros n _. reflexivity.
Qed.
(** Refuted: "the space asked for by one equation does not matter for others on the domain": the HDiv space of the domain is replaced, and the next equation (or the
    diagnostics and time discretisations that ask for it) gets the new one *)
Theorem velocity_space_shared_refuted : exists D D1 D2, D "HDiv"%string = Some 1%nat /\ velocity_space D (Some 7%nat) = Ok (D1, 7%nat) /\ velocity_space D1 None = Ok (D2, 7%nat).
Proof. exists (fun n => if String.eqb n "HDiv" then Some 1%nat else None). eexists. eexists. repeat split. Qed.

(** What the equation sets for dynamics share: a tracer that is added to fields with spaces of their own.  It is added if and only if its name is new, its space is known and the
    name is not already tied to another space; the fields before it are kept, in their order *)
Theorem tracer_is_added : forall known N t, is_ok (add_tracer known N t) <->
  ~ In (a_name t) (field_names N) /\ In (a_space t) known /\ (forall s, lookup (a_name t) (space_names N) = Some s -> s = a_space t).
Proof.
  intros known N t. unfold add_tracer. destruct (existsb (String.eqb (a_name t)) (field_names N)) eqn:E1.
  { apply existsb_In in E1. split; [intros [? H]; discriminate|intros (H & _)]. contradiction. }
  assert (E1' : ~ In (a_name t) (field_names N)) by (intros H; apply existsb_In in H; congruence).
  assert (K : existsb (String.eqb (a_space t)) known = true <-> In (a_space t) known) by apply existsb_In.
  destruct (lookup (a_name t) (space_names N)) as [s|]; [destruct (String.eqb_spec s (a_space t)) as [->|Es]|]; cbn [bind];
    destruct (existsb (String.eqb (a_space t)) known); split; intros H; try (destruct H as [? H]; discriminate); try (eexists; reflexivity);
    try (split; [exact E1'|split; [apply K; reflexivity|intros s' Hs; congruence]]);
    destruct H as (_ & H2 & H3); try (apply K in H2; discriminate); try (exfalso; apply Es; apply (H3 s eq_refl)).
Qed.
Theorem tracer_fields_kept : forall known N t N', add_tracer known N t = Ok N' ->
  field_names N' = field_names N ++ [a_name t] /\ spaces N' = spaces N ++ [a_space t] /\ lookup (a_name t) (space_names N') = Some (a_space t) /\
  forall n s, lookup n (space_names N) = Some s -> lookup n (space_names N') = Some s.
Proof.
  intros known N t N' H. unfold add_tracer in H. destruct (existsb (String.eqb (a_name t)) (field_names N)); [discriminate|].
  destruct (lookup (a_name t) (space_names N)) as [s|] eqn:El; [destruct (String.eqb_spec s (a_space t)) as [->|Es]; [|discriminate]|]; cbn [bind] in H;
    destruct (existsb (String.eqb (a_space t)) known); try discriminate; injection H as <-; cbn; repeat split; auto.
  - rewrite lookup_app, El, String.eqb_refl. reflexivity.
  - intros n s Hn. rewrite lookup_app, Hn. reflexivity.
Qed.
(** The transport terms of tracers use the velocity of the equation set if there is one, otherwise a prescribed one, and cannot be made without either *)
Theorem tracers_need_a_velocity : forall names prescribed l ts, generate_tracer_transport_terms names prescribed l = Ok ts ->
  In "u"%string names \/ In "u"%string prescribed.
Proof.
  intros names prescribed l ts H. unfold generate_tracer_transport_terms, transport_velocity in H.
  destruct (index_of "u" names) as [i|] eqn:E; [left; apply index_of_In; exists i; exact E|].
  destruct (existsb (String.eqb "u") prescribed) eqn:E2; [right; apply existsb_In; exact E2|discriminate].
Qed.
Example tracer_added_example : exists N', add_tracer ["DG"%string; "theta"%string] {| field_names := ["u"%string; "rho"%string]; space_names := [("water_vapour"%string, "theta"%string)]; spaces := ["HDiv"%string; "DG"%string] |}
  {| a_name := "water_vapour"; a_space := "theta"; a_eqn := AdvectiveEq; a_density := None |} = Ok N' /\ field_names N' = ["u"; "rho"; "water_vapour"]%string.
Proof. eexists. split; reflexivity. Qed.

(** Property C145: physics that is split from the dynamics: every parametrisation acts once per step. *)
From Coq Require Import String Lra Reals.
From Verif Require Import Base Terms TermsProps SplitPhysicsSpec SplitPhysics.
Close Scope Q_scope.
Open Scope string_scope.

Definition has_not (l : string) (ts : list lterm) : Prop := forall t, In t ts -> has l t = false.
(** The other labels of an object's terms (source_label) *)
Definition extras (o : pobject) : list string := flat_map (fun f => snd f) (o_forms o).

(** The dynamics: an equation without physics. *)
Definition dynamics_only (r : list lterm) : Prop := has_not "physics" r.
(** The objects: labels that are used for nothing else. *)
Record well_labelled (r : list lterm) (objs : list pobject) : Prop := {
  wl_distinct : NoDup (map o_label objs);
  wl_private : forall o, In o objs -> has_not (o_label o) r /\ (forall o', In o' objs -> ~ In (o_label o) (extras o')) /\
    ~ In (o_label o) ["physics"; "dynamics"; td];
  wl_extras : forall o, In o objs -> ~ In td (extras o) /\ ~ In "dynamics" (extras o) }.

Section Facts.
  Lemma has_In l t : has l t = true <-> In l (labels t).
  Proof.
    unfold has. rewrite existsb_exists. split.
    - intros (m & Hm & E). apply String.eqb_eq in E. subst. exact Hm.
    - intros H. exists l. split; [exact H|apply String.eqb_refl].
  Qed.
  Lemma has_not_In l t : has l t = false <-> ~ In l (labels t).
  Proof. rewrite <- has_In. destruct (has l t); split; congruence. Qed.

  Lemma select_one l r : setup_terms WholeSystem [l] r = filter (fun t => has td t || has l t) r.
  Proof. unfold setup_terms, select_active, select_prognostic. apply filter_ext. intros t. cbn. rewrite orb_false_r. reflexivity. Qed.

  Lemma physics_term_labels o f : labels (physics_term o f) = "physics" :: o_label o :: snd f.
  Proof. destruct f as [[i p] ls]. reflexivity. Qed.
  Lemma extras_In o f l : In f (o_forms o) -> In l (snd f) -> In l (extras o).
  Proof. intros H1 H2. apply in_flat_map. exists f. auto. Qed.

  Lemma filter_all {A} (p : A -> bool) (l : list A) : (forall x, In x l -> p x = true) -> filter p l = l.
  Proof. induction l as [|a l IH]; intros H; [reflexivity|]. cbn. rewrite (H a (or_introl eq_refl)), IH; [reflexivity|]. intros; apply H; right; assumption. Qed.
  Lemma filter_nothing {A} (p : A -> bool) (l : list A) : (forall x, In x l -> p x = false) -> filter p l = [].
  Proof. induction l as [|a l IH]; intros H; [reflexivity|]. cbn. rewrite (H a (or_introl eq_refl)), IH; [reflexivity|]. intros; apply H; right; assumption. Qed.

  Lemma label_dynamics_physics : forall objs, label_dynamics (flat_map physics_terms objs) = flat_map physics_terms objs.
  Proof.
    intros objs. unfold label_dynamics. apply map_id_ext_in || (rewrite <- map_id; apply map_ext_in).
    intros t Ht. apply in_flat_map in Ht as (o & _ & Ht). apply in_map_iff in Ht as (f & <- & _).
    cbn [has_label map py_any existsb]. replace (has "physics" (physics_term o f)) with true.
    - cbn. rewrite orb_true_r. reflexivity.
    - symmetry. apply has_In. rewrite physics_term_labels. left. reflexivity.
  Qed.
  Lemma label_dynamics_app r s : label_dynamics (r ++ s)%list = (label_dynamics r ++ label_dynamics s)%list.
  Proof. apply map_app. Qed.

  Lemma filter_label_dynamics p r : (forall t, p (add_label "dynamics" t) = p t) ->
    filter p (label_dynamics r) = label_dynamics (filter p r).
  Proof.
    intros H. unfold label_dynamics. induction r as [|t r IH]; [reflexivity|]. cbn [map filter].
    assert (E : p (if py_any (has_label [td; "physics"] t) then t else add_label "dynamics" t) = p t)
      by (destruct (py_any _); [reflexivity|apply H]).
    rewrite E. destruct (p t); cbn [map]; rewrite IH; reflexivity.
  Qed.
  Lemma label_dynamics_td r : (forall t, In t r -> has td t = true) -> label_dynamics r = r.
  Proof.
    intros H. unfold label_dynamics. rewrite <- (map_id r) at 2. apply map_ext_in. intros t Ht.
    cbn [has_label map py_any existsb]. rewrite (H t Ht). reflexivity.
  Qed.
  Lemma has_add l t : l <> "dynamics" -> has l (add_label "dynamics" t) = has l t.
  Proof. intros H. unfold has, add_label. cbn [labels existsb]. destruct (String.eqb_spec l "dynamics"); [contradiction|reflexivity]. Qed.

  Lemma td_physics : forall objs, (forall o, In o objs -> ~ In td (extras o) /\ o_label o <> td) ->
    forall t, In t (flat_map physics_terms objs) -> has td t = false.
  Proof.
    intros objs H t Ht. apply in_flat_map in Ht as (o & Ho & Ht). apply in_map_iff in Ht as (f & <- & Hf).
    apply has_not_In. rewrite physics_term_labels. destruct (H o Ho) as [H1 H2]. intros [E|[E|E]].
    - discriminate.
    - apply H2. exact E.
    - apply H1. exact (extras_In o f td Hf E).
  Qed.
End Facts.

Lemma own_selection : forall r objs l1 o l2, objs = (l1 ++ o :: l2)%list -> well_labelled r objs ->
  setup_terms WholeSystem [o_label o] (label_dynamics (residual_with r objs)) = (filter (has td) r ++ physics_terms o)%list.
Proof.
  intros r objs l1 o l2 E W. assert (Ho : In o objs) by (rewrite E; apply in_or_app; right; left; reflexivity).
  destruct (wl_private _ _ W o Ho) as (Hr & He & Hn).
  assert (Nd : o_label o <> "dynamics") by (intros Q; apply Hn; rewrite Q; right; left; reflexivity).
  assert (Nt : forall o', In o' objs -> o_label o' <> td).
  { intros o' Ho' Q. destruct (wl_private _ _ W o' Ho') as (_ & _ & Hn'). apply Hn'. rewrite Q. right; right; left; reflexivity. }
  rewrite select_one. unfold residual_with. rewrite label_dynamics_app, label_dynamics_physics, filter_app. f_equal.
  - rewrite filter_label_dynamics.
    2: { intros t. rewrite !has_add; [reflexivity|exact Nd|discriminate]. }
    assert (F : filter (fun t => has td t || has (o_label o) t) r = filter (has td) r).
    { apply filter_ext_in. intros t Ht. rewrite (Hr t Ht), orb_false_r. reflexivity. }
    rewrite F. apply label_dynamics_td. intros t Ht. apply filter_In in Ht. apply Ht.
  - rewrite E, flat_map_app. cbn [flat_map]. rewrite !filter_app.
    assert (Z : forall l, (forall o', In o' l -> In o' objs /\ o_label o' <> o_label o) ->
      filter (fun t => has td t || has (o_label o) t) (flat_map physics_terms l) = []).
    { intros l Hl. apply filter_nothing. intros t Ht. rewrite (td_physics l) with (t := t); [|intros o' Ho'; split; [apply (wl_extras _ _ W), Hl, Ho'|apply Nt, Hl, Ho']|exact Ht].
      apply in_flat_map in Ht as (o' & Ho' & Ht). apply in_map_iff in Ht as (f & <- & Hf). cbn [orb].
      apply has_not_In. rewrite physics_term_labels. destruct (Hl o' Ho') as [Hin Hne]. intros [Q|[Q|Q]].
      - apply Hn. left. exact Q.
      - apply Hne. exact Q.
      - apply (He o' Hin). exact (extras_In o' f _ Hf Q). }
    pose proof (wl_distinct _ _ W) as ND. rewrite E, map_app in ND. cbn [map] in ND. apply NoDup_remove_2 in ND.
    rewrite Z, Z; [rewrite app_nil_l, app_nil_r|..].
    + apply filter_all. intros t Ht. apply in_map_iff in Ht as (f & <- & _). apply orb_true_iff. right.
      apply has_In. rewrite physics_term_labels. right; left; reflexivity.
    + intros o' Ho'. split; [rewrite E; apply in_or_app; right; right; exact Ho'|].
      intros Q. apply ND. apply in_or_app. right. rewrite <- Q. apply in_map. exact Ho'.
    + intros o' Ho'. split; [rewrite E; apply in_or_app; left; exact Ho'|].
      intros Q. apply ND. apply in_or_app. left. rewrite <- Q. apply in_map. exact Ho'.
Qed.

Lemma raw_selection : forall r objs l1 o l2, objs = (l1 ++ o :: l2)%list -> well_labelled r objs ->
  setup_terms WholeSystem [o_label o] (residual_with r objs) = (filter (has td) r ++ physics_terms o)%list.
Proof.
  intros r objs l1 o l2 E W. assert (Ho : In o objs) by (rewrite E; apply in_or_app; right; left; reflexivity).
  destruct (wl_private _ _ W o Ho) as (Hr & He & Hn).
  assert (Nd : o_label o <> "dynamics") by (intros Q; apply Hn; rewrite Q; right; left; reflexivity).
  assert (Nt : forall o', In o' objs -> o_label o' <> td).
  { intros o' Ho' Q. destruct (wl_private _ _ W o' Ho') as (_ & _ & Hn'). apply Hn'. rewrite Q. right; right; left; reflexivity. }
  rewrite select_one. unfold residual_with. rewrite filter_app. f_equal.
  - assert (F : filter (fun t => has td t || has (o_label o) t) r = filter (has td) r).
    { apply filter_ext_in. intros t Ht. rewrite (Hr t Ht), orb_false_r. reflexivity. }
    exact F.
  - rewrite E, flat_map_app. cbn [flat_map]. rewrite !filter_app.
    assert (Z : forall l, (forall o', In o' l -> In o' objs /\ o_label o' <> o_label o) ->
      filter (fun t => has td t || has (o_label o) t) (flat_map physics_terms l) = []).
    { intros l Hl. apply filter_nothing. intros t Ht. rewrite (td_physics l) with (t := t); [|intros o' Ho'; split; [apply (wl_extras _ _ W), Hl, Ho'|apply Nt, Hl, Ho']|exact Ht].
      apply in_flat_map in Ht as (o' & Ho' & Ht). apply in_map_iff in Ht as (f & <- & Hf). cbn [orb].
      apply has_not_In. rewrite physics_term_labels. destruct (Hl o' Ho') as [Hin Hne]. intros [Q|[Q|Q]].
      - apply Hn. left. exact Q.
      - apply Hne. exact Q.
      - apply (He o' Hin). exact (extras_In o' f _ Hf Q). }
    pose proof (wl_distinct _ _ W) as ND. rewrite E, map_app in ND. cbn [map] in ND. apply NoDup_remove_2 in ND.
    rewrite Z, Z; [rewrite app_nil_l, app_nil_r|..].
    + apply filter_all. intros t Ht. apply in_map_iff in Ht as (f & <- & _). apply orb_true_iff. right.
      apply has_In. rewrite physics_term_labels. right; left; reflexivity.
    + intros o' Ho'. split; [rewrite E; apply in_or_app; right; right; exact Ho'|].
      intros Q. apply ND. apply in_or_app. right. rewrite <- Q. apply in_map. exact Ho'.
    + intros o' Ho'. split; [rewrite E; apply in_or_app; left; exact Ho'|].
      intros Q. apply ND. apply in_or_app. left. rewrite <- Q. apply in_map. exact Ho'.
Qed.

Lemma dynamics_selection : forall r objs, dynamics_only r ->
  (forall o, In o objs -> ~ In td (extras o) /\ ~ In "dynamics" (extras o) /\ ~ In (o_label o) ["dynamics"; td]) ->
  setup_terms WholeSystem ["dynamics"] (label_dynamics (residual_with r objs)) = label_dynamics r.
Proof.
  intros r objs Hr Ho. rewrite select_one. unfold residual_with.
  rewrite label_dynamics_app, label_dynamics_physics, filter_app.
  rewrite (filter_nothing _ (flat_map physics_terms objs)).
  - rewrite app_nil_r. apply filter_all. intros t Ht. apply in_map_iff in Ht as (u & <- & Hu).
    cbn [has_label map py_any existsb]. rewrite (Hr u Hu), orb_false_r. cbn [orb].
    destruct (has td u) eqn:E; [rewrite E; reflexivity|]. apply orb_true_iff. right. apply has_In. left. reflexivity.
  - intros t Ht. apply orb_false_iff. split.
    + apply (td_physics objs); [|exact Ht]. intros o Hin. destruct (Ho o Hin) as (A & _ & B). split; [exact A|].
      intros Q. apply B. right; left. symmetry. exact Q.
    + apply in_flat_map in Ht as (o & Hin & Ht). apply in_map_iff in Ht as (f & <- & Hf).
      apply has_not_In. rewrite physics_term_labels. destruct (Ho o Hin) as (_ & A & B). intros [Q|[Q|Q]].
      * discriminate.
      * apply B. left. symmetry. exact Q.
      * apply A. exact (extras_In o f _ Hf Q).
Qed.

(** C145.  For every equation and all parametrisations with labels of their own: a step is the step of the dynamics scheme with
    all terms of the equation without physics (and nothing else), followed by the steps of the schemes of the list, in its order,
    each with the terms of its own parametrisation and the time derivatives. *)
Theorem split_physics_acts_once : forall (X : Type) (r : list lterm) objs (dynamics : @stepper_scheme X) schemes x,
  dynamics_only r -> well_labelled r objs -> (forall ps, In ps schemes -> In (fst ps) objs) ->
  split_physics_step dynamics schemes (residual_with r objs) x =
  in_turn (dynamics (label_dynamics r) :: map (fun ps => snd ps (filter (has td) r ++ physics_terms (fst ps))%list) schemes) x.
Proof.
  intros X r objs dyn schemes x Hr W Hs. unfold split_physics_step, in_turn. cbv zeta. cbn [fold_left].
  rewrite dynamics_selection; [|exact Hr|].
  2: { intros o Ho. destruct (wl_extras _ _ W o Ho). destruct (wl_private _ _ W o Ho) as (_ & _ & N).
       repeat split; try assumption. intros Q. apply N. right. exact Q. }
  generalize (dyn (label_dynamics r) x). clear x.
  induction schemes as [|ps l IH]; intros x; [reflexivity|]. cbn [fold_left map].
  destruct (in_split (fst ps) objs (Hs ps (or_introl eq_refl))) as (l1 & l2 & E).
  pose proof (own_selection r objs l1 (fst ps) l2 E W) as Q. unfold stepper_scheme in *. rewrite Q. apply IH. intros q Hq; apply Hs; right; exact Hq.
Qed.
Print Assumptions split_physics_acts_once.

(** The terms that the dynamics scheme has are those of the equation: only the label is new. *)
Theorem dynamics_terms_unchanged : forall r, map form_id (label_dynamics r) = map form_id r /\
  map prognostic (label_dynamics r) = map prognostic r /\ map mass_weighted (label_dynamics r) = map mass_weighted r.
Proof.
  intros r. unfold label_dynamics. rewrite !map_map.
  repeat split; apply map_ext; intros t; destruct (py_any _); reflexivity.
Qed.
Print Assumptions dynamics_terms_unchanged.

(** C145.  A parametrisation that was created but is not in the list has no effect - and there is no message. *)
Theorem unlisted_physics_ignored : forall (X : Type) (r : list lterm) l1 o l2 (dynamics : @stepper_scheme X) schemes x,
  dynamics_only r -> well_labelled r (l1 ++ o :: l2)%list -> (forall ps, In ps schemes -> In (fst ps) (l1 ++ l2)%list) ->
  split_physics_step dynamics schemes (residual_with r (l1 ++ o :: l2)%list) x =
  split_physics_step dynamics schemes (residual_with r (l1 ++ l2)%list) x.
Proof.
  intros X r l1 o l2 dyn schemes x Hr W Hs.
  assert (S : forall o', In o' (l1 ++ l2)%list -> In o' (l1 ++ o :: l2)%list).
  { intros o' H. apply in_app_iff in H. apply in_or_app. destruct H; [left|right; right]; assumption. }
  rewrite !split_physics_acts_once; auto.
  constructor.
  - pose proof (wl_distinct _ _ W) as N. rewrite map_app in *. cbn [map] in N. exact (NoDup_remove_1 _ _ _ N).
  - intros o' Ho'. destruct (wl_private _ _ W o' (S o' Ho')) as (A & B & C). split; [exact A|]. split; [|exact C].
    intros o'' H. apply B. apply S. exact H.
  - intros o' Ho'. exact (wl_extras _ _ W o' (S o' Ho')).
Qed.
Print Assumptions unlisted_physics_ignored.

(** C145.  The same for every other time stepper that sets up a scheme with the label of a parametrisation (SplitTimestepper, semi-implicit
    quasi-Newton, TR-BDF2: C140): the scheme holds the time derivatives and the terms of that parametrisation. *)
Theorem physics_scheme_terms : forall r objs o, well_labelled r objs -> In o objs ->
  setup_terms WholeSystem [o_label o] (residual_with r objs) = (filter (has td) r ++ physics_terms o)%list.
Proof.
  intros r objs o W H. destruct (in_split o objs H) as (l1 & l2 & E). exact (raw_selection r objs l1 o l2 E W).
Qed.
Print Assumptions physics_scheme_terms.

(** What happens with two objects that share a label: both schemes have the terms of both. *)
Theorem shared_label_terms : forall (X : Type) (r : list lterm) a b (dynamics sa sb : @stepper_scheme X) x,
  dynamics_only r -> o_label a = o_label b -> well_labelled r [a] -> well_labelled r [b] ->
  ~ In (o_label a) (extras a ++ extras b)%list ->
  split_physics_step dynamics [(a, sa); (b, sb)] (residual_with r [a; b]) x =
  in_turn [dynamics (label_dynamics r); sa (filter (has td) r ++ physics_terms a ++ physics_terms b)%list;
           sb (filter (has td) r ++ physics_terms a ++ physics_terms b)%list] x.
Proof.
  intros X r a b dyn sa sb x Hr E Wa Wb Hx. unfold split_physics_step, in_turn. cbv zeta. cbn [fold_left fst snd].
  destruct (wl_private _ _ Wa a (or_introl eq_refl)) as (Hra & _ & Hna). destruct (wl_extras _ _ Wa a (or_introl eq_refl)) as [Ta Da].
  destruct (wl_private _ _ Wb b (or_introl eq_refl)) as (_ & _ & Hnb). destruct (wl_extras _ _ Wb b (or_introl eq_refl)) as [Tb Db].
  rewrite dynamics_selection; [|exact Hr|].
  2: { intros o [<-|[<-|[]]]; repeat split; try assumption; intros Q; [apply Hna|apply Hnb]; right; exact Q. }
  rewrite <- E.
  assert (SEL : setup_terms WholeSystem [o_label a] (label_dynamics (residual_with r [a; b])) =
                (filter (has td) r ++ physics_terms a ++ physics_terms b)%list).
  { rewrite select_one. unfold residual_with. rewrite label_dynamics_app, label_dynamics_physics, filter_app. f_equal.
    - rewrite filter_label_dynamics.
      2: { intros t. rewrite !has_add; [reflexivity| |discriminate]. intros Q. apply Hna. rewrite Q. right; left; reflexivity. }
      assert (F : filter (fun t => has td t || has (o_label a) t) r = filter (has td) r).
      { apply filter_ext_in. intros t Ht. rewrite (Hra t Ht), orb_false_r. reflexivity. }
      rewrite F. apply label_dynamics_td. intros t Ht. apply filter_In in Ht. apply Ht.
    - cbn [flat_map]. rewrite app_nil_r. apply filter_all. intros t Ht. apply orb_true_iff. right. apply has_In.
      apply in_app_iff in Ht. destruct Ht as [Ht|Ht]; apply in_map_iff in Ht as (f & <- & _); rewrite physics_term_labels; right; left; congruence. }
  rewrite SEL. reflexivity.
Qed.
Print Assumptions shared_label_terms.

(** Forward Euler for one number: the residual of each term is a constant. *)
Definition euler (dt : R) (value : nat -> R) : @stepper_scheme R := fun ts x =>
  (x - dt * fold_right (fun t s => (if has td t then 0 else value (form_id t)) + s) 0 ts)%R.
Definition sink (i : nat) (id v : string) : pobject := mk_pobject id (label_name (LSourceSink v)) [(i, "", ["source_label"])].
Definition mass (v : string) : lterm := mk_lterm 0 v [td] None None.

(** C145 fails.  Two SourceSink objects for the same variable have the same label: each scheme applies both, so that every source is
    counted twice. *)
Theorem shared_label_doubled_refuted : forall (dt a b x : R) (v : string),
  let value i := match i with 1%nat => a | 2%nat => b | _ => 0%R end in
  let o1 := sink 1 "first" v in let o2 := sink 2 "second" v in
  split_physics_step (fun _ x => x) [(o1, euler dt value); (o2, euler dt value)] (residual_with [mass v] [o1; o2]) x
    = (x - 2 * dt * (a + b))%R /\
  in_turn [euler dt value (mass v :: physics_terms o1); euler dt value (mass v :: physics_terms o2)] x = (x - dt * (a + b))%R.
Proof.
  intros dt a b x v value o1 o2.
  assert (W : forall i id, well_labelled [mass v] [sink i id v]).
  { intros i id. constructor.
    - constructor; [intros []|constructor].
    - intros o [<-|[]]. split; [|split].
      + intros t [<-|[]]. cbn. reflexivity.
      + intros o' [<-|[]]. cbn. intros [Q|[]]. discriminate.
      + cbn. intros [Q|[Q|[Q|[]]]]; discriminate.
    - intros o [<-|[]]. cbn. split; intros [Q|[]]; discriminate. }
  split.
  - rewrite (shared_label_terms R [mass v] o1 o2); [|intros t [<-|[]]; reflexivity|reflexivity|apply W|apply W|].
    + unfold in_turn, euler. cbn. lra.
    + cbn. intros [Q|[Q|[]]]; discriminate.
  - unfold in_turn, euler. cbn. lra.
Qed.
Print Assumptions shared_label_doubled_refuted.

(** C145.  Which parametrisations of the package share a label: two of the same class and, where the name of the label contains it, for
    the same variable; and the two saturation adjustments, which are for different equations. *)
Definition same_key (c d : library) : Prop :=
  match c, d with
  | LSourceSink v, LSourceSink w | LFallout v, LFallout w | LBoundaryLayerMixing v, LBoundaryLayerMixing w | LRelaxation v, LRelaxation w => v = w
  | LCoalescence a b, LCoalescence a' b' => a = a' /\ b = b'
  | LSaturationAdjustment, LSWSaturationAdjustment | LSWSaturationAdjustment, LSaturationAdjustment
  | LSaturationAdjustment, LSaturationAdjustment | LSWSaturationAdjustment, LSWSaturationAdjustment
  | LEvaporationOfRain, LEvaporationOfRain | LInstantRain, LInstantRain | LSurfaceFluxes, LSurfaceFluxes | LWindDrag, LWindDrag
  | LStaticAdjustment, LStaticAdjustment | LSuppressVerticalWind, LSuppressVerticalWind | LTerminatorToy, LTerminatorToy
  | LRayleighFriction, LRayleighFriction => True
  | _, _ => False
  end.
Theorem library_labels : forall c d, label_name c = label_name d <-> same_key c d.
Proof.
  intros c d. destruct c as [v| |v|[] []| | | | | | | |v| |v|], d as [w| |w|[] []| | | | | | | |w| |w|]; cbn; split; intros H;
    try reflexivity; try discriminate; try contradiction; try (destruct H; discriminate); try (split; reflexivity); auto;
    try (injection H; intros; assumption); try (subst; reflexivity).
Qed.
Print Assumptions library_labels.

(** The labels of parametrisations are never labels of the dynamics (labels.py l.90-127). *)
Theorem library_labels_private : forall c, ~ In (label_name c)
  ["dynamics"; "physics"; "time_derivative"; "implicit"; "explicit"; "horizontal_transport"; "vertical_transport"; "source_label";
   "transporting_velocity"; "prognostic"; "linearisation"; "mass_weighted"; "ibp"; "all_but_last"; "nonlinear_time_derivative"; "transport";
   "diffusion"; "pressure_gradient"; "coriolis"; "divergence"; "gravity"; "hydrostatic"; "incompressible"; "sponge"; "subject"].
Proof.
  intros c. destruct c as [v| |v|[] []| | | | | | | |v| |v|]; cbn; intros H;
    repeat (destruct H as [H|H]; [discriminate|]); exact H.
Qed.
Print Assumptions library_labels_private.

(** C145 fails.  A scheme for one field: the terms of six classes carry no prognostic, and the scheme has only the time derivative. *)
Theorem one_field_scheme_drops_sources_refuted : forall r o f, f <> "" ->
  (forall g, In g (o_forms o) -> snd (fst g) = "") -> has_not (o_label o) r -> o_label o <> td ->
  setup_terms (OneField f) [o_label o] (residual_with r [o]) = filter (has td) (filter (fun t => String.eqb (prognostic t) f) r).
Proof.
  intros r o f Hf Ho Hr Ht. unfold setup_terms, select_active, select_prognostic, residual_with.
  rewrite filter_app, (filter_nothing _ (flat_map physics_terms [o])).
  - rewrite app_nil_r. apply filter_ext_in. intros t Hin. apply filter_In in Hin as [Hin _].
    cbn. rewrite (Hr t Hin), !orb_false_r. reflexivity.
  - intros t Hin. apply in_flat_map in Hin as (o' & [<-|[]] & Hin). apply in_map_iff in Hin as (g & <- & Hg).
    pose proof (Ho g Hg) as E. destruct g as [[i p] ls]. cbn in *. subst p. destruct (String.eqb_spec "" f); [congruence|reflexivity].
Qed.
Print Assumptions one_field_scheme_drops_sources_refuted.
(** Those classes. *)
Theorem terms_without_prognostic : forall c, has_prognostic c = false <->
  (exists v, c = LSourceSink v) \/ (exists a b, c = LCoalescence a b) \/
  In c [LSaturationAdjustment; LEvaporationOfRain; LInstantRain; LSWSaturationAdjustment].
Proof.
  intros c. destruct c; cbn; split; intros H; try discriminate; try reflexivity;
    try (left; eexists; reflexivity); try (right; left; do 2 eexists; reflexivity); try (right; right; tauto).
  all: destruct H as [[v H]|[(a & b & H)|H]]; try discriminate; repeat (destruct H as [H|H]; try discriminate); contradiction.
Qed.
Print Assumptions terms_without_prognostic.

(** The hypotheses are met: transport and a Coriolis term, a source of D and a relaxation. *)
Example split_physics_hypotheses :
  let r := [mass "u"; mass "D"; mk_lterm 3 "u" ["coriolis"; "dynamics"] None None; mk_lterm 4 "D" ["transport"] None None] in
  let objs := [sink 1 "a" "D"; mk_pobject "b" (label_name (LRelaxation "theta")) [(2, "theta", [])]] in
  dynamics_only r /\ well_labelled r objs.
Proof.
  cbv zeta. split.
  - intros t Ht. cbn in Ht. repeat (destruct Ht as [<-|Ht]; [reflexivity|]). contradiction.
  - constructor.
    + repeat constructor; cbn; intros H; repeat (destruct H as [H|H]; [discriminate|]); exact H.
    + intros o Ho. cbn in Ho. destruct Ho as [<-|[<-|[]]]; (split; [|split]).
      1, 4: intros t Ht; cbn in Ht; repeat (destruct Ht as [<-|Ht]; [reflexivity|]); contradiction.
      1, 3: intros o' Ho'; cbn in Ho'; destruct Ho' as [<-|[<-|[]]]; cbn; intros H; repeat (destruct H as [H|H]; [discriminate|]); exact H.
      1, 2: cbn; intros H; repeat (destruct H as [H|H]; [discriminate|]); exact H.
    + intros o Ho. cbn in Ho. destruct Ho as [<-|[<-|[]]]; cbn; split; intros H; repeat (destruct H as [H|H]; [discriminate|]); exact H.
Qed.

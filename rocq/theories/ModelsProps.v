(** C113: the model classes discretise every prognostic of the equation set, once. *)
From Coq Require Import List String Bool Arith Lia.
Import ListNotations.
From Verif Require Import Base Transport SpatialSetup SpatialSetupProps Models.
Open Scope string_scope.

Section Props.
Context {F V L : Type}.
Variables (form_of : string -> built -> F * V) (mass_form_of : string -> F * V) (diffusion_form : string -> F) (limiters : string -> option L).
Notation E_ := (equation_set F V).
Notation setup_siqn := (setup_siqn form_of mass_form_of diffusion_form limiters).
Notation setup_lowest := (setup_lowest form_of mass_form_of diffusion_form limiters).

(** ** Specification *)
(** v has exactly one transport term, of type ty; exactly one diffusion term *)
Definition transported_as (E : E_) (v : string) (ty : eqn_type) : Prop :=
  exists t, filter (fun t => (match t_transport t with Some _ => true | None => false end) && (t_prog t =? v)) (e_residual E) = [t] /\
            (t_mass t <> None -> ty = TracerConservative) /\ (t_mass t = None -> t_transport t = Some ty).
Definition has_diffusion (E : E_) (v : string) : Prop :=
  exists t, filter (fun t => t_diffusion t && (t_prog t =? v)) (e_residual E) = [t].
Definition requested (options : kwarg (list string)) (fields : list string) : Prop := (options = Absent /\ fields = []) \/ options = Given fields.

(** ** Proofs *)
Lemma mapM_ok {A B} (f : A -> res B) l : (forall a, In a l -> is_ok (f a)) -> exists bs, mapM f l = Ok bs.
Proof.
  induction l as [|a l IH]; intros H; [eexists; reflexivity|]. destruct (H a (or_introl eq_refl)) as [b Hb]. destruct IH as [bs Hbs]; [intros; apply H; right; assumption|].
  exists (b :: bs). cbn. rewrite Hb, Hbs. reflexivity.
Qed.
Lemma mapM_inv {A B} (f : A -> res B) l : forall bs, mapM f l = Ok bs -> Forall2 (fun a b => f a = Ok b) l bs.
Proof.
  induction l as [|a l IH]; cbn; intros bs H; [injection H as <-; constructor|]. apply bind_ok in H as (b & Hb & H). apply bind_ok in H as (bs' & Hbs & H).
  injection H as <-. constructor; [exact Hb|apply IH; exact Hbs].
Qed.
Lemma type_of_spec (t : term F V) ty : type_of t = Ok ty <-> (t_mass t <> None -> ty = TracerConservative) /\ (t_mass t = None -> t_transport t = Some ty).
Proof.
  unfold type_of. destruct (t_mass t) eqn:M.
  - split; [intros H; injection H as <-; split; congruence|]. intros [H _]. rewrite H by congruence. reflexivity.
  - destruct (t_transport t) eqn:T; (split; [intros H; try discriminate; try (injection H as <-); split; congruence|]); intros [_ H]; specialize (H eq_refl); congruence.
Qed.
Lemma dg_upwind_ok ty atf : (exists b, dg_upwind false ty false false atf = Ok (Some b)) <-> (atf = true -> ty = Conservative).
Proof. destruct ty, atf; cbn; split; try (intros [b H]; discriminate H); try (intros H; specialize (H eq_refl); discriminate H); try (intros; eauto; fail); intros; congruence. Qed.
Lemma new_dg_ok E v atf : (exists m, new_dg_upwind form_of mass_form_of false (e_residual E) v false false atf = Ok m) <->
  exists ty, transported_as E v ty /\ (atf = true -> ty = Conservative).
Proof.
  unfold new_dg_upwind, transported_as, the_term, of. cbn [has_label]. split.
  - intros [m H]. apply bind_ok in H as (t & H1 & H). apply bind_ok in H as (ty & H2 & H). apply bind_ok in H as (b & H3 & H). destruct b as [b|]; [|discriminate].
    exists ty. split; [|apply dg_upwind_ok; exists b; exact H3]. exists t. split; [|apply type_of_spec; exact H2].
    destruct (filter _ (e_residual E)) as [|t1 [|t2 r]]; try discriminate. injection H1 as ->. reflexivity.
  - intros (ty & (t & H1 & H2) & H3). rewrite H1. cbn [bind]. rewrite (proj2 (type_of_spec t ty) H2). cbn [bind]. apply dg_upwind_ok in H3 as [b H3]. rewrite H3. cbn. eauto.
Qed.
Lemma new_diff_ok E v : (exists m, new_diffusion diffusion_form (e_residual E) v = Ok m) <-> has_diffusion E v.
Proof.
  unfold new_diffusion, has_diffusion, the_term, of. cbn [has_label]. destruct (filter _ (e_residual E)) as [|t [|t2 r]]; cbn; split; try (intros [m H]; discriminate); try (intros [t0 H]; discriminate); eauto.
Qed.
Lemma new_dg_shape o R v a b c (m : method F V) : new_dg_upwind form_of mass_form_of o R v a b c = Ok m -> m_variable m = v /\ m_label m = L_transport /\ for_transport m = true.
Proof.
  unfold new_dg_upwind. intros H. apply bind_ok in H as (t & _ & H). apply bind_ok in H as (ty & _ & H). apply bind_ok in H as (bb & _ & H). destruct bb; [|discriminate]. injection H as <-. repeat split.
Qed.
Lemma new_diff_shape R v (m : method F V) : new_diffusion diffusion_form R v = Ok m -> m_variable m = v /\ m_label m = L_diffusion /\ for_transport m = false.
Proof. unfold new_diffusion. intros H. apply bind_ok in H as (t & _ & H). injection H as <-. repeat split. Qed.
Lemma Forall2_in_r {A B} (P : A -> B -> Prop) l r b : Forall2 P l r -> In b r -> exists a, In a l /\ P a b.
Proof. induction 1 as [|x y l r Hxy _ IH]; intros Hb; [contradiction|]. destruct Hb as [<-|Hb]; [exists x; split; [left; reflexivity|exact Hxy]|]. destruct (IH Hb) as (a & Ia & Pa). exists a. split; [right|]; assumption. Qed.
Lemma Forall2_in_l {A B} (P : A -> B -> Prop) l r a : Forall2 P l r -> In a l -> exists b, In b r /\ P a b.
Proof. induction 1 as [|x y l r Hxy _ IH]; intros Ha; [contradiction|]. destruct Ha as [<-|Ha]; [exists y; split; [left; reflexivity|exact Hxy]|]. destruct (IH Ha) as (b & Ib & Pb). exists b. split; [right|]; assumption. Qed.
Lemma filter_all {A} (p : A -> bool) l : (forall a, In a l -> p a = true) -> filter p l = l.
Proof. induction l as [|a l IH]; intros H; [reflexivity|]. cbn. rewrite (H a (or_introl eq_refl)), IH; [reflexivity|]. intros; apply H; right; assumption. Qed.
Lemma flat_map_single {A B} (f : A -> list B) (g : A -> B) l : (forall a, In a l -> f a = [g a]) -> flat_map f l = map g l.
Proof. induction l as [|a l IH]; intros H; [reflexivity|]. cbn. rewrite (H a (or_introl eq_refl)), IH; [reflexivity|]. intros; apply H; right; assumption. Qed.
Lemma siqn_schemes_plain sp names : siqn_schemes limiters false sp names = map (fun v => (v, siqn_scheme limiters sp v)) names.
Proof. unfold siqn_schemes. cbn [app andb]. apply flat_map_single. intros v _. destruct ((sp v =? "L2") || (sp v =? "theta")); reflexivity. Qed.
Lemma siqn_methods_plain E : siqn_methods form_of mass_form_of false false E = mapM (siqn_method form_of mass_form_of false E) (e_names E).
Proof.
  unfold siqn_methods. cbn [bind andb]. rewrite filter_all by (intros; cbn [negb]; apply orb_true_r). destruct (mapM _ (e_names E)); reflexivity.
Qed.
Lemma one_each (names fields : list string) (ms ds : list (method F V)) :
  NoDup names -> NoDup fields ->
  Forall2 (fun v m => m_variable m = v /\ m_label m = L_transport /\ for_transport m = true) names ms ->
  Forall2 (fun v m => m_variable m = v /\ m_label m = L_diffusion /\ for_transport m = false) fields ds ->
  one_method_each (ms ++ ds) /\ (forall m, In m (ms ++ ds)%list -> m_label m = L_transport -> for_transport m = true).
Proof.
  intros Nn Nf Hm Hd. split.
  - unfold one_method_each. rewrite map_app.
    assert (A : map (fun m => (m_variable m, for_transport m)) ms = map (fun v => (v, true)) names).
    { clear - Hm. induction Hm as [|v m l r (H1 & H2 & H3) _ IH]; [reflexivity|]. cbn. rewrite H1, H3, IH. reflexivity. }
    assert (B : map (fun m => (m_variable m, for_transport m)) ds = map (fun v => (v, false)) fields).
    { clear - Hd. induction Hd as [|v m l r (H1 & H2 & H3) _ IH]; [reflexivity|]. cbn. rewrite H1, H3, IH. reflexivity. }
    rewrite A, B.
    assert (N : forall (b : bool) (l : list string), NoDup l -> NoDup (map (fun v : string => (v, b)) l)).
    { clear. intros b l H. induction H as [|x l H _ IH]; cbn; constructor; [|exact IH]. intros I. apply in_map_iff in I as (y & Ey & Iy). injection Ey as <-. contradiction. }
    assert (D : forall x, In x (map (fun v : string => (v, true)) names) -> ~ In x (map (fun v : string => (v, false)) fields)).
    { clear. intros x H1 H2. apply in_map_iff in H1 as (a & <- & _). apply in_map_iff in H2 as (c & E & _). discriminate. }
    revert D. generalize (N true names Nn) (N false fields Nf). generalize (map (fun v : string => (v, true)) names) (map (fun v : string => (v, false)) fields). clear.
    intros l r Hl Hr D. induction l as [|a l IH]; [exact Hr|]. cbn. inversion Hl; subst. constructor.
    + intros I. apply in_app_iff in I as [I|I]; [contradiction|]. apply (D a); [left; reflexivity|exact I].
    + apply IH; [assumption|]. intros x Hx. apply D. right. exact Hx.
  - intros m Hi El. apply in_app_iff in Hi as [Hi|Hi].
    + destruct (Forall2_in_r _ _ _ _ Hm Hi) as (v & _ & _ & _ & H). exact H.
    + destruct (Forall2_in_r _ _ _ _ Hd Hi) as (v & _ & _ & H & _). congruence.
Qed.

(** ** C113 *)
(** When SIQNModel can be set up (mesh of more than one dimension): exactly if every prognostic has one transport term, the one of every
    prognostic in L2 being in conservative form, and diffusion has been asked for only where there is one diffusion term. *)
Theorem siqn_model_sets_up : forall (E : E_) options,
  (exists r, setup_siqn false false E options = Ok r) <->
  (forall v, In v (e_names E) -> exists ty, transported_as E v ty /\ (e_space E v = "L2" -> ty = Conservative)) /\
  (exists fields, requested options fields /\ forall v, In v fields -> has_diffusion E v).
Proof.
  intros E options. unfold Models.setup_siqn. rewrite siqn_methods_plain, siqn_schemes_plain. split.
  - intros [r H]. apply bind_ok in H as (ms & H1 & H). apply bind_ok in H as (fields & H2 & H). apply bind_ok in H as (ds & H3 & H). split.
    + intros v Hv. apply mapM_inv in H1. destruct (Forall2_in_l _ _ _ _ H1 Hv) as (m & _ & Hm). unfold siqn_method in Hm.
      destruct (proj1 (new_dg_ok E v (e_space E v =? "L2")) (ex_intro _ m Hm)) as (ty & T1 & T2). exists ty. split; [exact T1|]. intros Hs. apply T2. apply String.eqb_eq. exact Hs.
    + exists fields. split.
      * unfold diffused in H2. unfold requested. destruct options; try discriminate; injection H2 as <-; auto.
      * intros v Hv. apply mapM_inv in H3. destruct (Forall2_in_l _ _ _ _ H3 Hv) as (m & _ & Hm). apply new_diff_ok. eauto.
  - intros (HT & fields & HO & HD).
    destruct (mapM_ok (siqn_method form_of mass_form_of false E) (e_names E)) as [ms Hms].
    { intros v Hv. unfold siqn_method. apply new_dg_ok. destruct (HT v Hv) as (ty & T1 & T2). exists ty. split; [exact T1|]. intros Hs. apply T2, String.eqb_eq, Hs. }
    destruct (mapM_ok (fun v => new_diffusion diffusion_form (e_residual E) v) fields) as [ds Hds]; [intros v Hv; apply new_diff_ok, HD, Hv|].
    assert (Hdf : diffused options = Ok fields) by (destruct HO as [[-> ->]| ->]; reflexivity).
    rewrite Hms. cbn [bind]. rewrite Hdf. cbn [bind]. unfold diffusion_methods. rewrite Hds. cbn [bind].
    destruct (proj2 (schemes_accepted (e_names E) (ms ++ ds)%list (map (fun v => (v, siqn_scheme limiters (e_space E) v)) (e_names E)))) as [a Ha].
    + intros v s Hv. apply in_map_iff in Hv as (w & Ew & Hv). injection Ew as -> _. split; [exact Hv|]. apply mapM_inv in Hms. destruct (Forall2_in_l _ _ _ _ Hms Hv) as (m & Im & Hm).
      apply new_dg_shape in Hm as (A1 & A2 & _). exists m. split; [apply in_app_iff; left; exact Im|]. split; assumption.
    + rewrite Ha. cbn. eauto.
Qed.
(** Then, in every outer iteration, each prognostic is transported once, in the order of the equation set. *)
Theorem siqn_model_transports_each_once : forall (E : E_) options a ms,
  NoDup (e_names E) -> (forall fields, options = Given fields -> NoDup fields) -> setup_siqn false false E options = Ok (a, ms) ->
  map fst a = e_names E /\ (forall v s, In (v, s) a -> s = siqn_scheme limiters (e_space E) v) /\ one_method_each ms.
Proof.
  intros E options a ms Nn Nf H. unfold Models.setup_siqn in H. rewrite siqn_methods_plain, siqn_schemes_plain in H.
  apply bind_ok in H as (m1 & H1 & H). apply bind_ok in H as (fields & H2 & H). apply bind_ok in H as (ds & H3 & H). apply bind_ok in H as (a' & H4 & H). injection H as <- <-.
  assert (NF : NoDup fields) by (unfold diffused in H2; destruct options; try discriminate; injection H2 as <-; [constructor|apply Nf; reflexivity]).
  apply mapM_inv in H1. apply mapM_inv in H3.
  assert (A : Forall2 (fun v m => m_variable m = v /\ m_label m = L_transport /\ for_transport m = true) (e_names E) m1).
  { clear - H1. induction H1 as [|v m l r Hm _ IH]; constructor; [|exact IH]. unfold siqn_method in Hm. apply new_dg_shape in Hm. exact Hm. }
  assert (B : Forall2 (fun v m => m_variable m = v /\ m_label m = L_diffusion /\ for_transport m = false) fields ds).
  { clear - H3. induction H3 as [|v m l r Hm _ IH]; constructor; [|exact IH]. apply new_diff_shape in Hm. exact Hm. }
  destruct (one_each _ _ _ _ Nn NF A B) as [O1 O2].
  rewrite (schemes_applied_once _ _ _ _ O1 O2 H4). split; [rewrite map_map; cbn; apply map_id|]. split; [|exact O1].
  intros v s Hv. apply in_map_iff in Hv as (w & Ew & _). injection Ew as <- <-. reflexivity.
Qed.
(** The conservative transport of the prognostics in L2 is then done in the advective-then-flux form, for which the scheme is the linear
    one: the transport term gets the flux form, and the advective form for the stages before the last. *)
Theorem siqn_model_advective_then_flux : forall (E : E_) options a ms,
  sensible (e_residual E) -> NoDup (e_names E) -> (forall fields, options = Given fields -> NoDup fields) ->
  setup_siqn false false E options = Ok (a, ms) ->
  exists R', setup_equation (e_residual E) ms = Ok R' /\
  forall v s t', In (v, s) a -> In t' R' -> t_transport t' <> None -> t_prog t' = v ->
    (s_linear s = true <-> e_space E v = "L2") /\
    (e_space E v = "L2" -> t_form t' = fst (form_of v (B_continuity false true)) /\ t_vel t' = Some (snd (form_of v (B_continuity false true))) /\
                           t_abl t' = Some (fst (form_of v (B_advection false)))).
Proof.
  intros E options a ms Hs Nn Nf H. destruct (siqn_model_transports_each_once E options a ms Nn Nf H) as (A1 & A2 & A3).
  unfold Models.setup_siqn in H. rewrite siqn_methods_plain, siqn_schemes_plain in H.
  apply bind_ok in H as (m1 & H1 & H). apply bind_ok in H as (fields & H2 & H). apply bind_ok in H as (ds & H3 & H). apply bind_ok in H as (a' & H4 & H). injection H as <- <-.
  apply mapM_inv in H1. apply mapM_inv in H3.
  assert (C : Forall (constructed form_of mass_form_of (fun v => (form_of v B_circulation, form_of v B_circulation)) diffusion_form false (e_residual E)) (m1 ++ ds)%list).
  { apply Forall_forall. intros m Hm. apply in_app_iff in Hm as [Hm|Hm].
    - destruct (Forall2_in_r _ _ _ _ H1 Hm) as (v & _ & Hv). left. unfold siqn_method in Hv. eauto.
    - destruct (Forall2_in_r _ _ _ _ H3 Hm) as (v & _ & Hv). right. right. right. eauto. }
  destruct (setup_replaces_exactly _ _ _ _ _ (e_residual E) (m1 ++ ds)%list Hs C A3) as (R' & S1 & S2). exists R'. split; [exact S1|].
  intros v s t' Ha Ht' Htr Hp. split.
  - rewrite (A2 v s Ha). unfold siqn_scheme. destruct (e_space E v =? "L2") eqn:Q; [apply String.eqb_eq in Q; cbn; tauto|]. apply String.eqb_neq in Q.
    destruct (e_space E v =? "theta"); cbn; split; congruence.
  - intros HL. assert (Hv : In v (e_names E)) by (rewrite <- A1; apply in_map_iff; exists (v, s); auto).
    destruct (Forall2_in_l _ _ _ _ H1 Hv) as (m & Hm & Em). unfold siqn_method in Em. rewrite HL in Em. cbn [String.eqb Ascii.eqb Bool.eqb] in Em.
    destruct (Forall2_in_r _ _ _ _ S2 Ht') as (t & Ht & [(m' & Hm' & Hc & Hd)|[Hno ->]]).
    2:{ exfalso. apply (Hno m); [apply in_app_iff; left; exact Hm|]. apply new_dg_shape in Em as (Ev & El & Ef). unfold concerns. rewrite Ev. split; [exact Hp|].
        destruct (m_forms m) eqn:K; try exact Htr; [|unfold for_transport in Ef; rewrite K in Ef; discriminate].
        exfalso. clear - El K A3 H1 Hm. destruct (Forall2_in_r _ _ _ _ H1 Hm) as (w & _ & Hw). unfold siqn_method, new_dg_upwind in Hw.
        apply bind_ok in Hw as (? & _ & Hw). apply bind_ok in Hw as (? & _ & Hw). apply bind_ok in Hw as (bb & _ & Hw). destruct bb; [|discriminate]. injection Hw as <-. discriminate. }
    assert (m' = m).
    { assert (X : forall (l : list (method F V)) a b, NoDup (map (fun m => (m_variable m, for_transport m)) l) -> In a l -> In b l -> (m_variable a, for_transport a) = (m_variable b, for_transport b) -> a = b).
      { clear. induction l as [|x l IH]; intros a b N Ha Hb Eab; [contradiction|]. cbn in N. inversion N as [|? ? N1 N2]; subst. destruct Ha as [<-|Ha], Hb as [<-|Hb]; try reflexivity.
        - exfalso. apply N1. rewrite Eab. apply in_map_iff. exists b. auto.
        - exfalso. apply N1. rewrite <- Eab. apply in_map_iff. exists a. auto.
        - apply IH; assumption. }
      apply (X (m1 ++ ds)%list); [exact A3|exact Hm'|apply in_app_iff; left; exact Hm|]. pose proof (new_dg_shape _ _ _ _ _ _ _ Em) as (Ev & El & Ef).
      destruct Hd as [(L1 & L2 & _) _]. destruct Hc as [Hc1 Hc2]. f_equal; [rewrite Ev, <- Hc1, <- L1; exact Hp|]. rewrite Ef.
      apply in_app_iff in Hm' as [Hm'|Hm'].
      - destruct (Forall2_in_r _ _ _ _ H1 Hm') as (w & _ & Hw). unfold siqn_method in Hw. apply new_dg_shape in Hw. apply Hw.
      - exfalso. destruct (Forall2_in_r _ _ _ _ H3 Hm') as (w & _ & Hw). apply new_diff_shape in Hw as (_ & _ & Hw). unfold for_transport in Hw. destruct (m_forms m'); try discriminate.
        rewrite L2 in Htr. destruct (Hs t Ht) as (D & _). rewrite (D Htr) in Hc2. discriminate. }
    subst m'. destruct Hd as [_ Hd]. unfold new_dg_upwind in Em. apply bind_ok in Em as (t0 & _ & Em). apply bind_ok in Em as (ty & _ & Em). apply bind_ok in Em as (bb & Eb & Em).
    destruct ty; try discriminate Eb. injection Eb as <-. injection Em as <-. cbn [m_forms] in Hd. destruct Hd as (D1 & D2 & D3 & _). auto.
Qed.

(** *** The equation sets that cannot be used with SIQNModel *)
(** A prognostic in L2 which is transported in advective form (buoyancy of the thermal shallow water equations, pressure of the compressible
    Boussinesq equations), or one without transport term (pressure of the incompressible Boussinesq equations, tracers that are not transported). *)
Theorem siqn_model_equation_sets_refuted : forall (E : E_) options v, In v (e_names E) ->
  (e_space E v = "L2" /\ transported_as E v Advective) \/ (forall ty, ~ transported_as E v ty) ->
  forall r, setup_siqn false false E options <> Ok r.
Proof.
  intros E options v Hv H r Hr. destruct (proj1 (siqn_model_sets_up E options) (ex_intro _ r Hr)) as [HT _]. destruct (HT v Hv) as (ty & T1 & T2).
  destruct H as [[HL (t & F1 & F2)]|H]; [|apply (H ty T1)]. specialize (T2 HL). subst ty. destruct T1 as (t' & F1' & F2'). rewrite F1 in F1'. injection F1' as <-.
  destruct F2 as [A B], F2' as [A' B']. destruct (t_mass t) as [p|]; [specialize (A ltac:(discriminate)); discriminate|]. specialize (B eq_refl). specialize (B' eq_refl). congruence.
Qed.
(** diffusion_options=None, the documented default, is refused when given *)
Theorem diffusion_options_none_refuted : forall cm od (E : E_) r, setup_siqn cm od E IsNone <> Ok r.
Proof. intros cm od E r H. unfold Models.setup_siqn in H. apply bind_ok in H as (ms & _ & H). discriminate. Qed.
(** *** The consistent metric *)
(** The list of active tracers given by the user is changed; None, the documented default, is refused when given. *)
Theorem consistent_metric_tracers_refuted : forall (A : Type) (z : A),
  (forall l, exists eqn, model_tracers z true (Given l) = Ok (eqn, Given (l ++ [z])%list)) /\ model_tracers z true IsNone = Err AttributeError.
Proof. intros A z. split; [intros l; eexists; reflexivity|reflexivity]. Qed.
(** z, in the space theta, is transported twice in every outer iteration: first by forward Euler, then, with the other prognostics, by SSPRK3. *)
Theorem siqn_model_consistent_metric_refuted : forall (E : E_) options a ms,
  NoDup (e_names E) -> In "z" (e_names E) -> e_space E "z" = "theta" -> setup_siqn true false E options = Ok (a, ms) ->
  count_occ string_dec (map fst a) "z" >= 2.
Proof.
  intros E options a ms Nn Hz Hsp H. unfold Models.setup_siqn in H. apply bind_ok in H as (m1 & H1 & H). apply bind_ok in H as (fields & H2 & H). apply bind_ok in H as (ds & H3 & H). apply bind_ok in H as (a' & H4 & H). injection H as <- <-.
  unfold siqn_schemes in H4. cbn [app] in H4.
  assert (G : forall (ms : list (method F V)) schemes (a : list (string * scheme L)), active_transport (e_names E) ms schemes = Ok a -> count_occ string_dec (map fst schemes) "z" <= count_occ string_dec (map fst a) "z").
  { clear. intros ms. induction schemes as [|[v s] l IH]; intros a H; cbn [active_transport] in H; [injection H as <-; apply le_n|].
    destruct (existsb (String.eqb v) (e_names E)); [|discriminate]. destruct (filter _ ms) as [|m f] eqn:Ef; [discriminate|]. apply bind_ok in H as (b & Hb & H). injection H as <-.
    specialize (IH b Hb). cbn [map fst app]. rewrite map_app, !map_map. cbn [fst]. destruct (string_dec v "z") as [->|N].
    - rewrite !count_occ_cons_eq by reflexivity. rewrite count_occ_app. lia.
    - rewrite !count_occ_cons_neq by exact N. rewrite count_occ_app. lia. }
  apply G in H4. cbn [map fst] in H4. rewrite count_occ_cons_eq in H4 by reflexivity.
  assert (P : In "z" (map fst (flat_map (fun v => if (e_space E v =? "L2") || (e_space E v =? "theta") then [(v, siqn_scheme limiters (e_space E) v)]
            else if true && (v =? "z") then [] else [(v, siqn_scheme limiters (e_space E) v)]) (e_names E)))).
  { apply in_map_iff. exists ("z", siqn_scheme limiters (e_space E) "z"). split; [reflexivity|]. apply in_flat_map. exists "z". split; [exact Hz|]. rewrite Hsp. cbn. left. reflexivity. }
  apply (count_occ_In string_dec) in P. lia.
Qed.

(** *** The lowest order model *)
(** never works on a mesh that is not extruded *)
Theorem lowest_order_needs_extruded_refuted : forall cm od (E : E_) options, setup_lowest cm false od E options = Err AttributeError.
Proof. reflexivity. Qed.
(** on an extruded mesh it transports each prognostic in one of the three spaces once, ... *)
Theorem lowest_order_transports_each_once_partial : forall (E : E_) options a ms,
  NoDup (e_names E) -> (forall fields, options = Given fields -> NoDup fields) ->
  (forall v, In v (e_names E) -> In (e_space E v) ["HDiv"; "L2"; "theta"]) ->
  setup_lowest false true false E options = Ok (a, ms) -> map fst a = e_names E /\ one_method_each ms.
Proof.
  intros E options a ms Nn Nf Hsp H. unfold Models.setup_lowest, lowest_schemes, lowest_methods in H. cbn [negb bind andb app] in H.
  rewrite filter_all in H by reflexivity. apply bind_ok in H as (m1 & H1 & H). apply bind_ok in H as (fields & H2 & H). apply bind_ok in H as (ds & H3 & H). apply bind_ok in H as (a' & H4 & H). injection H as <- <-.
  assert (NF : NoDup fields) by (unfold diffused in H2; destruct options; try discriminate; injection H2 as <-; [constructor|apply Nf; reflexivity]).
  apply bind_ok in H1 as (m2 & H1 & H5). injection H5 as <-. apply mapM_inv in H1. apply mapM_inv in H3.
  assert (A : Forall2 (fun v m => m_variable m = v /\ m_label m = L_transport /\ for_transport m = true) (e_names E) m2).
  { clear - H1. induction H1 as [|v m l r Hm _ IH]; constructor; [|exact IH]. apply new_dg_shape in Hm. exact Hm. }
  assert (B : Forall2 (fun v m => m_variable m = v /\ m_label m = L_diffusion /\ for_transport m = false) fields ds).
  { clear - H3. induction H3 as [|v m l r Hm _ IH]; constructor; [|exact IH]. apply new_diff_shape in Hm. exact Hm. }
  destruct (one_each _ _ _ _ Nn NF A B) as [O1 O2]. rewrite (schemes_applied_once _ _ _ _ O1 O2 H4). split; [|exact O1]. clear - Hsp.
  induction (e_names E) as [|v l IH]; [reflexivity|]. cbn [flat_map]. rewrite map_app, IH by (intros; apply Hsp; right; assumption).
  destruct (Hsp v (or_introl eq_refl)) as [Q|[Q|[Q|[]]]]; rewrite <- Q; reflexivity.
Qed.
(** ... but a prognostic in any other space (a tracer in the space DG, say) is not transported at all, although it has a transport method. *)
Theorem lowest_order_other_spaces_refuted : forall (E : E_) options a ms v,
  setup_lowest false true false E options = Ok (a, ms) -> In v (e_names E) -> ~ In (e_space E v) ["HDiv"; "L2"; "theta"] ->
  ~ In v (map fst a) /\ exists m, In m ms /\ m_variable m = v /\ m_label m = L_transport.
Proof.
  intros E options a ms v H Hv Hsp. unfold Models.setup_lowest, lowest_schemes, lowest_methods in H. cbn [negb bind andb app] in H.
  rewrite filter_all in H by reflexivity. apply bind_ok in H as (m1 & H1 & H). apply bind_ok in H as (fields & H2 & H). apply bind_ok in H as (ds & H3 & H). apply bind_ok in H as (a' & H4 & H). injection H as <- <-.
  apply bind_ok in H1 as (m2 & H1 & H5). injection H5 as <-. apply mapM_inv in H1. split.
  - assert (G : forall (ms : list (method F V)) schemes (a : list (string * scheme L)), active_transport (e_names E) ms schemes = Ok a -> In v (map fst a) -> In v (map fst schemes)).
    { clear. intros ms. induction schemes as [|[w s] l IH]; intros a H Ha; cbn [active_transport] in H; [injection H as <-; exact Ha|].
      destruct (existsb (String.eqb w) (e_names E)); [|discriminate]. destruct (filter _ ms) as [|m f]; [discriminate|]. apply bind_ok in H as (b & Hb & H). injection H as <-.
      cbn [map fst] in Ha. destruct Ha as [Ha|Ha]; [left; exact Ha|]. rewrite map_app, map_map in Ha. apply in_app_iff in Ha as [Ha|Ha]; [|right; apply (IH b Hb Ha)]. apply in_map_iff in Ha as (x & <- & _). left. reflexivity. }
    intros Ha. apply (G _ _ _ H4) in Ha. apply in_map_iff in Ha as ([w s] & Ew & Ha). cbn in Ew. subst w. apply in_flat_map in Ha as (w & _ & Ha).
    destruct (e_space E w =? "HDiv") eqn:Q1; [|destruct (e_space E w =? "L2") eqn:Q2; [|destruct (e_space E w =? "theta") eqn:Q3; [|contradiction]]];
      destruct Ha as [Ha|[]]; injection Ha as <- _; apply Hsp; cbn; [apply String.eqb_eq in Q1|apply String.eqb_eq in Q2|apply String.eqb_eq in Q3]; auto.
  - destruct (Forall2_in_l _ _ _ _ H1 Hv) as (m & Hm & Em). exists m. apply new_dg_shape in Em as (E1 & E2 & _). split; [apply in_app_iff; left; exact Hm|]. auto.
Qed.
(** *** Which scheme each prognostic gets *)
Lemma active_in {S} names (ms : list (method F V)) (schemes : list (string * S)) : forall a x, active_transport names ms schemes = Ok a -> In x a -> In x schemes.
Proof.
  induction schemes as [|[v s] rest IH]; intros a x H Hx; [injection H as <-; destruct Hx|]. cbn in H. destruct (existsb (String.eqb v) names); [|discriminate].
  destruct (filter _ ms) as [|m l]; [discriminate|]. apply bind_ok in H as (more & Hm & H). injection H as <-.
  change (In x (map (fun _ => (v, s)) (m :: l) ++ more)) in Hx. apply in_app_iff in Hx as [Hx|Hx]; [|right; exact (IH _ _ Hm Hx)].
  apply in_map_iff in Hx as (y & <- & _). left. reflexivity.
Qed.
(** Every prognostic is transported with the three-stage SSP scheme, with its own limiter; fields in the density space in the linear formulation,
    fields in the temperature space embedded in a discontinuous space *)
Theorem siqn_model_scheme_of_each : forall (E : E_) options a ms, setup_siqn false false E options = Ok (a, ms) -> forall v s, In (v, s) a ->
  In v (e_names E) /\ s_euler s = false /\ s_limiter s = limiters v /\ (s_linear s = true <-> e_space E v = "L2") /\
  (s_wrapper s = EmbeddedDG <-> e_space E v = "theta") /\ (s_wrapper s = Unwrapped <-> e_space E v <> "theta").
Proof.
  intros E options a ms H v s Hin. unfold Models.setup_siqn in H. apply bind_ok in H as (m1 & H1 & H). apply bind_ok in H as (fields & H2 & H). apply bind_ok in H as (ds & H3 & H). apply bind_ok in H as (a' & H4 & H). injection H as <- <-.
  rewrite siqn_schemes_plain in H4. apply (active_in _ _ _ _ _ H4) in Hin. apply in_map_iff in Hin as (w & Ew & Hw). injection Ew as -> <-. split; [exact Hw|]. unfold siqn_scheme.
  destruct (String.eqb_spec (e_space E v) "L2") as [Q|Q]; [rewrite Q|destruct (String.eqb_spec (e_space E v) "theta") as [Q2|Q2]]; cbn; repeat split; intros; try reflexivity; try discriminate; try assumption; try congruence.
Qed.
Theorem lowest_order_scheme_of_each : forall (E : E_) options a ms, setup_lowest false true false E options = Ok (a, ms) -> forall v s, In (v, s) a ->
  In v (e_names E) /\ s_euler s = false /\ s_linear s = false /\ s_limiter s = limiters v /\
  s_wrapper s = Recovered (if e_space E v =? "L2" then "DG" else e_space E v).
Proof.
  intros E options a ms H v s Hin. unfold Models.setup_lowest, lowest_schemes in H. cbn [negb bind andb app] in H.
  apply bind_ok in H as (m1 & H1 & H). apply bind_ok in H as (fields & H2 & H). apply bind_ok in H as (ds & H3 & H). apply bind_ok in H as (a' & H4 & H). injection H as <- <-.
  apply (active_in _ _ _ _ _ H4) in Hin. apply in_flat_map in Hin as (w & Hw & Hin).
  destruct (String.eqb_spec (e_space E w) "HDiv") as [Q|Q]; [|destruct (String.eqb_spec (e_space E w) "L2") as [Q2|Q2]; [|destruct (String.eqb_spec (e_space E w) "theta") as [Q3|Q3]; [|destruct Hin]]];
    destruct Hin as [Hin|[]]; injection Hin as <- <-; (split; [exact Hw|]); cbn; repeat split; [rewrite Q|rewrite Q2|rewrite Q3]; reflexivity.
Qed.
(** *** The other choices of the models *)
(** Every prognostic but the velocity is relaxed, with the same weight *)
Theorem model_tau : forall (E : E_), (forall v n, In (v, n) (tau_values E) <-> In v (e_names E) /\ v <> "u" /\ n = 1) /\ (NoDup (e_names E) -> NoDup (map fst (tau_values E))).
Proof.
  intros E. unfold tau_values. split.
  - intros v n. rewrite in_map_iff. split.
    + intros (w & Ew & Hw). injection Ew as -> <-. apply filter_In in Hw as [Hw N]. split; [exact Hw|]. split; [|reflexivity]. intros ->. discriminate.
    + intros (Hv & N & ->). exists v. split; [reflexivity|]. apply filter_In. split; [exact Hv|]. apply negb_true_iff, String.eqb_neq. exact N.
  - intros N. rewrite map_map. cbn. rewrite map_id. apply NoDup_filter. exact N.
Qed.
(** The default family of velocity spaces by the shape of the (base) cells; the height field is an active tracer of the equation if and only if
    (apart from tracers the user gave) the metric is to be consistent *)
Theorem model_defaults : default_family "interval" = Ok "CG" /\ default_family "quadrilateral" = Ok "RTCF" /\ default_family "triangle" = Ok "BDM" /\
  (forall cell, ~ In cell ["interval"; "quadrilateral"; "triangle"] -> default_family cell = Err ValueError) /\
  (forall (A : Type) (z : A) cm tracers t user, model_tracers z cm tracers = Ok (t, user) ->
     t = match tracers with Given l => Given (if cm then l ++ [z] else l)%list | Absent => if cm then Given [z] else Absent | IsNone => IsNone end).
Proof.
  split; [reflexivity|]. split; [reflexivity|]. split; [reflexivity|]. split.
  - intros cell H. unfold default_family. destruct (String.eqb_spec cell "interval"); [subst; exfalso; apply H; cbn; tauto|].
    destruct (String.eqb_spec cell "quadrilateral"); [subst; exfalso; apply H; cbn; tauto|]. destruct (String.eqb_spec cell "triangle"); [subst; exfalso; apply H; cbn; tauto|]. reflexivity.
  - intros A z cm tracers t user H. unfold model_tracers in H. destruct cm, tracers; try discriminate; injection H as <- _; reflexivity.
Qed.
End Props.

(** ** Examples *)
Section Examples.
Let mk (p : string) (ty : option eqn_type) : term string nat :=
  {| t_form := p; t_prog := p; t_transport := ty; t_diffusion := false; t_hor := false; t_ver := false; t_mass := None;
     t_vel := match ty with Some _ => Some 0 | None => None end; t_abl := None; t_other := [] |}.
Let fo (v : string) (b : built) : string * nat :=
  (match b with B_continuity _ _ => v ++ " flux" | B_advection _ => v ++ " advective" | _ => v ++ " other" end, 1).
Definition compressible_set : equation_set string nat :=
  {| e_names := ["u"; "rho"; "theta"]; e_space := fun v => if v =? "u" then "HDiv" else if v =? "rho" then "L2" else "theta";
     e_residual := [mk "u" (Some VectorInvariant); mk "rho" (Some Conservative); mk "theta" (Some Advective); mk "u" None] |}.
Definition thermal_set : equation_set string nat :=
  {| e_names := ["u"; "D"; "b"]; e_space := fun v => if v =? "u" then "HDiv" else "L2";
     e_residual := [mk "u" (Some VectorInvariant); mk "D" (Some Conservative); mk "b" (Some Advective)] |}.
Definition boussinesq_set : equation_set string nat :=
  {| e_names := ["u"; "p"; "b"]; e_space := fun v => if v =? "u" then "HDiv" else if v =? "p" then "L2" else "theta";
     e_residual := [mk "u" (Some VectorInvariant); mk "b" (Some Advective)] |}.
Let setup (E : equation_set string nat) := setup_siqn (L := nat) fo (fun _ => ("", 0)) (fun v => v) (fun _ => None) false false E Absent.
Example models_examples :
  (exists a ms R', setup compressible_set = Ok (a, ms) /\ map fst a = ["u"; "rho"; "theta"] /\ map (fun x => s_linear (snd x)) a = [false; true; false] /\
     setup_equation (e_residual compressible_set) ms = Ok R' /\ map t_form R' = ["u other"; "rho flux"; "theta advective"; "u"] /\ map t_abl R' = [None; Some "rho advective"; None; None]) /\
  setup thermal_set = Err ValueError /\ setup boussinesq_set = Err AssertionError.
Proof. split; [|split; reflexivity]. eexists. eexists. eexists. repeat split; reflexivity. Qed.
End Examples.

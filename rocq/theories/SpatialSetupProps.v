(** C112: the discretisations the user chooses are put into exactly the terms they are chosen for. *)
From Coq Require Import List String Bool Arith Lia Permutation.
Import ListNotations.
From Verif Require Import Base Transport SpatialSetup.
Open Scope string_scope.

Section Props.
Context {F V S : Type}.
Notation term := (term F V). Notation method := (method F V).
Variables (form_of : string -> built -> F * V) (mass_form_of : string -> F * V) (split_forms : string -> (F * V) * (F * V)) (diffusion_form : string -> F).
Variable one_d : bool.

(** ** Specification *)
(** a method made by one of the constructors for the residual R *)
Definition constructed (R : list term) (m : method) : Prop :=
  (exists v manifold outflow atf, new_dg_upwind form_of mass_form_of one_d R v manifold outflow atf = Ok m) \/
  (exists v, new_split_dg_upwind split_forms one_d R v = Ok m) \/
  (exists v, new_default R v = Ok m) \/
  (exists v, new_diffusion diffusion_form R v = Ok m).
(** is the method for transport, or for diffusion? *)
Definition for_transport (m : method) : bool := match m_forms m with Plain _ => false | _ => true end.
(** the terms a method is for *)
Definition concerns (m : method) (t : term) : Prop :=
  t_prog t = m_variable m /\
  match m_forms m with
  | Single _ _ _ _ | Default => t_transport t <> None
  | Split _ _ _ _ => t_transport t <> None /\ (t_hor t = true \/ t_ver t = true)
  | Plain _ => t_diffusion t = true
  end.
Definition same_labels (t t' : term) : Prop :=
  t_prog t' = t_prog t /\ t_transport t' = t_transport t /\ t_diffusion t' = t_diffusion t /\ t_hor t' = t_hor t /\ t_ver t' = t_ver t /\ t_other t' = t_other t.
(** t' is the term t with the form of the method m *)
Definition discretised (m : method) (t t' : term) : Prop :=
  same_labels t t' /\
  match m_forms m with
  | Single f vel abl mass =>
      t_form t' = f /\ t_vel t' = Some vel /\ t_abl t' = (match abl with Some g => Some g | None => t_abl t end) /\
      t_mass t' = (match t_mass t with Some _ => mass | None => None end)
  | Split fh vh fv vv =>
      (t_hor t = true -> t_form t' = fh /\ t_vel t' = Some vh) /\ (t_ver t = true -> t_form t' = fv /\ t_vel t' = Some vv) /\
      t_abl t' = t_abl t /\ t_mass t' = None
  | Default => t' = t
  | Plain f => t_form t' = f /\ t_vel t' = t_vel t /\ t_abl t' = t_abl t /\ t_mass t' = t_mass t
  end.
(** the residuals of the equation sets: a term is not both a transport and a diffusion term; horizontal and vertical transport are
    different transport terms, which are not mass weighted *)
Definition sensible (R : list term) : Prop :=
  forall t, In t R -> (t_transport t <> None -> t_diffusion t = false) /\ (t_hor t = true \/ t_ver t = true -> t_transport t <> None) /\
                      (t_hor t = true -> t_ver t = false) /\ (t_hor t = true \/ t_ver t = true -> t_mass t = None).
(** at most one method per variable for transport, and one for diffusion *)
Definition one_method_each (ms : list method) : Prop := NoDup (map (fun m => (m_variable m, for_transport m)) ms).

(** ** Proofs *)
Definition skel (t : term) := (t_prog t, t_transport t, t_diffusion t, t_hor t, t_ver t, match t_mass t with Some _ => true | None => false end).
Definition concernsb (m : method) (t : term) : bool :=
  (t_prog t =? m_variable m) &&
  match m_forms m with
  | Single _ _ _ _ | Default => has_label L_transport t
  | Split _ _ _ _ => has_label L_transport t && (t_hor t || t_ver t)
  | Plain _ => t_diffusion t
  end.
Lemma has_transport (t : term) : has_label L_transport t = true <-> t_transport t <> None.
Proof. cbn. destruct (t_transport t); split; congruence. Qed.
Lemma concernsb_spec m t : concernsb m t = true <-> concerns m t.
Proof.
  unfold concernsb, concerns. rewrite andb_true_iff, String.eqb_eq. destruct (m_forms m); rewrite ?andb_true_iff, ?orb_true_iff, ?has_transport; tauto.
Qed.
Definition repl (m : method) (t : term) : term :=
  if concernsb m t then
    match m_forms m with
    | Single f vel abl mass => set_transport t f vel abl (match t_mass t with Some _ => mass | None => None end)
    | Split fh vh fv vv => if t_hor t then set_transport t fh vh None None else set_transport t fv vv None None
    | Default => t
    | Plain f => set_form t f
    end
  else t.
Definition fits (m : method) (R : list term) : Prop :=
  match m_forms m with
  | Single _ _ _ mass => exists t, filter (of L_transport (m_variable m)) R = [t] /\ (t_mass t <> None -> mass <> None)
  | Split _ _ _ _ => exists h w, filter (of2 L_transport L_horizontal (m_variable m)) R = [h] /\ filter (of2 L_transport L_vertical (m_variable m)) R = [w] /\
                       t_mass h = None /\ t_mass w = None /\ h <> w
  | Default => True
  | Plain _ => m_label m = L_diffusion
  end.
Lemma repl_skel m t R : fits m R -> In t R -> skel (repl m t) = skel t.
Proof.
  intros Hf Ht. unfold repl. destruct (concernsb m t) eqn:E; [|reflexivity]. unfold fits in Hf. unfold concernsb in E. apply andb_true_iff in E as [E1 E2].
  destruct (m_forms m) as [f vel abl mass|fh vh fv vv| |f]; try reflexivity.
  - destruct Hf as (t0 & Hf & Hm). assert (I : In t (filter (of L_transport (m_variable m)) R)) by (apply filter_In; split; [exact Ht|]; unfold of; rewrite E2; exact E1).
    rewrite Hf in I. destruct I as [<-|[]]. unfold skel, set_transport. cbn. destruct (t_mass t0); [|reflexivity]. destruct mass; [reflexivity|]. destruct Hm; [discriminate|reflexivity].
  - apply andb_true_iff in E2 as [E2 E3]. destruct Hf as (h & w & Hh & Hw & M1 & M2 & _).
    assert (t_mass t = None).
    { apply orb_true_iff in E3 as [E3|E3].
      - assert (I : In t (filter (of2 L_transport L_horizontal (m_variable m)) R)) by (apply filter_In; split; [exact Ht|]; unfold of2; rewrite E2, E1; cbn; rewrite E3; reflexivity).
        rewrite Hh in I. destruct I as [<-|[]]. exact M1.
      - assert (I : In t (filter (of2 L_transport L_vertical (m_variable m)) R)) by (apply filter_In; split; [exact Ht|]; unfold of2; rewrite E2, E1; cbn; rewrite E3; reflexivity).
        rewrite Hw in I. destruct I as [<-|[]]. exact M2. }
    destruct (t_hor t); unfold skel, set_transport; cbn; rewrite H; reflexivity.
Qed.
Lemma filter_map_skel (p : term -> bool) (f : term -> term) R : (forall t, In t R -> p (f t) = p t) -> filter p (map f R) = map f (filter p R).
Proof.
  induction R as [|t R IH]; intros H; [reflexivity|]. cbn. rewrite (H t (or_introl eq_refl)). destruct (p t); cbn; rewrite IH; try reflexivity; intros; apply H; right; assumption.
Qed.
Lemma of_skel l v t t' : skel t' = skel t -> of l v t' = of l v t.
Proof. unfold skel, of. intros H. injection H as H1 H2 H3 H4 H5 _. destruct l; cbn; rewrite H1, ?H2, ?H3, ?H4, ?H5; reflexivity. Qed.
Lemma of2_skel l l' v t t' : skel t' = skel t -> of2 l l' v t' = of2 l l' v t.
Proof. unfold skel, of2. intros H. injection H as H1 H2 H3 H4 H5 _. destruct l, l'; cbn; rewrite H1, ?H2, ?H3, ?H4, ?H5; reflexivity. Qed.
Lemma mass_skel (t t' : term) : skel t' = skel t -> t_mass t' = None <-> t_mass t = None.
Proof. unfold skel. intros H. injection H as _ _ _ _ _ H. destruct (t_mass t), (t_mass t'); split; congruence. Qed.
Lemma concernsb_skel m t t' : skel t' = skel t -> concernsb m t' = concernsb m t.
Proof. unfold skel, concernsb. intros H. injection H as H1 H2 H3 H4 H5 _. cbn. rewrite H1, H2, H3, H4, H5. reflexivity. Qed.
Lemma fits_map m f R : sensible R -> (forall t, In t R -> skel (f t) = skel t) -> fits m R -> fits m (map f R).
Proof.
  intros Hs Hf. unfold fits. destruct (m_forms m) as [g vel abl mass|fh vh fv vv| |g]; trivial.
  - intros (t & Ht & Hm). exists (f t). rewrite filter_map_skel by (intros; apply of_skel, Hf; assumption). rewrite Ht. split; [reflexivity|]. intros M. apply Hm. intros N.
    apply M. apply (mass_skel t); [|exact N]. apply Hf. apply (proj1 (filter_In (of L_transport (m_variable m)) t R)). rewrite Ht. left. reflexivity.
  - intros (h & w & Hh & Hw & M1 & M2 & Hn). exists (f h), (f w). rewrite !filter_map_skel by (intros; apply of2_skel, Hf; assumption). rewrite Hh, Hw.
    assert (Ih : In h R /\ of2 L_transport L_horizontal (m_variable m) h = true) by (apply filter_In; rewrite Hh; left; reflexivity).
    assert (Iw : In w R /\ of2 L_transport L_vertical (m_variable m) w = true) by (apply filter_In; rewrite Hw; left; reflexivity).
    pose proof (Hf h (proj1 Ih)) as Sh. pose proof (Hf w (proj1 Iw)) as Sw.
    repeat split; [apply (mass_skel h); assumption|apply (mass_skel w); assumption|]. intros E. rewrite E in Sh.
    destruct (Hs h (proj1 Ih)) as (_ & _ & Hhv & _). unfold of2 in Ih, Iw. destruct Ih as [_ Ih], Iw as [_ Iw]. rewrite !andb_true_iff in Ih, Iw. cbn in Ih, Iw.
    unfold skel in Sh, Sw. injection Sw as _ _ _ A1 A2 _. injection Sh as _ _ _ B1 B2 _. rewrite B2 in A2. destruct Ih as [[_ Ih] _], Iw as [[_ Iw] _].
    specialize (Hhv Ih). congruence.
Qed.
Lemma label_map_ext p f g R : (forall t, In t R -> p t = true -> f t = g t) -> @label_map F V p f R = label_map p g R.
Proof. intros H. unfold label_map. apply map_ext_in. intros t Ht. destruct (p t) eqn:E; [apply H; assumption|reflexivity]. Qed.
Lemma length2 {A} (l : list A) h w : In h l -> In w l -> h <> w -> exists a b r, l = a :: b :: r.
Proof. destruct l as [|a [|b r]]; cbn; intros H1 H2 H3; [contradiction| |eauto]. destruct H1 as [<-|[]], H2 as [<-|[]]. contradiction. Qed.
Lemma replace_form_map m R : sensible R -> fits m R -> replace_form m R = Ok (map (repl m) R).
Proof.
  intros Hs Hf. unfold fits in Hf. unfold replace_form. destruct (m_forms m) as [f vel abl mass|fh vh fv vv| |f] eqn:K.
  - destruct Hf as (t & Ht & Hm). rewrite Ht.
    assert (G : label_map (of L_transport (m_variable m)) (fun _ => set_transport t f vel abl (match t_mass t with Some _ => mass | None => None end)) R = map (repl m) R).
    { unfold label_map. apply map_ext_in. intros t1 H1. unfold repl, concernsb. rewrite K. unfold of. rewrite andb_comm. destruct ((t_prog t1 =? m_variable m) && has_label L_transport t1) eqn:E; [|reflexivity].
      assert (I : In t1 (filter (of L_transport (m_variable m)) R)) by (apply filter_In; split; [exact H1|]; unfold of; rewrite andb_comm; exact E).
      rewrite Ht in I. destruct I as [<-|[]]. reflexivity. }
    destruct (t_mass t) eqn:M; [|rewrite <- G; reflexivity]. destruct mass as [mw|]; [|destruct Hm; [discriminate|reflexivity]]. rewrite <- G. reflexivity.
  - destruct Hf as (h & w & Hh & Hw & M1 & M2 & Hn).
    assert (Ih : In h R /\ of2 L_transport L_horizontal (m_variable m) h = true) by (apply filter_In; rewrite Hh; left; reflexivity).
    assert (Iw : In w R /\ of2 L_transport L_vertical (m_variable m) w = true) by (apply filter_In; rewrite Hw; left; reflexivity).
    assert (of2_of : forall l (t : term), of2 L_transport l (m_variable m) t = true -> of L_transport (m_variable m) t = true).
    { intros l t. unfold of2, of. rewrite !andb_true_iff. tauto. }
    destruct (length2 (filter (of L_transport (m_variable m)) R) h w) as (a & b & r & E).
    { apply filter_In; split; [apply Ih|apply (of2_of _ _ (proj2 Ih))]. }
    { apply filter_In; split; [apply Iw|apply (of2_of _ _ (proj2 Iw))]. }
    { exact Hn. }
    rewrite E, Hh, Hw, M1, M2. f_equal. unfold label_map. rewrite map_map. apply map_ext_in. intros t Ht. unfold repl, concernsb. rewrite K.
    destruct (of2 L_transport L_horizontal (m_variable m) t) eqn:Eh.
    + assert (I : In t (filter (of2 L_transport L_horizontal (m_variable m)) R)) by (apply filter_In; split; assumption). rewrite Hh in I. destruct I as [<-|[]].
      unfold of2 in Eh. rewrite !andb_true_iff in Eh. destruct Eh as [[E1 E2] E3]. cbn [has_label] in E2.
      destruct (Hs h Ht) as (_ & _ & Hv & _). specialize (Hv E2).
      assert (Z : of2 L_transport L_vertical (m_variable m) (set_transport h fh vh None None) = false) by (unfold of2, set_transport; cbn; rewrite Hv, andb_false_r; reflexivity).
      rewrite Z, E1, E3, E2. reflexivity.
    + destruct (of2 L_transport L_vertical (m_variable m) t) eqn:Ev.
      * assert (I : In t (filter (of2 L_transport L_vertical (m_variable m)) R)) by (apply filter_In; split; assumption). rewrite Hw in I. destruct I as [<-|[]].
        unfold of2 in Ev, Eh. rewrite !andb_true_iff in Ev. destruct Ev as [[E1 E2] E3]. cbn [has_label] in E2, Eh. rewrite E3, andb_true_r in Eh. cbn [has_label] in E1. rewrite E1 in Eh. cbn in Eh.
        cbn [has_label]. rewrite E1, E3, E2, Eh. reflexivity.
      * unfold of2 in Eh, Ev. cbn [has_label] in *. destruct (t_prog t =? m_variable m); [|reflexivity]. rewrite andb_true_r in Eh, Ev. cbn [andb].
        destruct (t_transport t); [|reflexivity]. cbn [andb] in *. rewrite Eh, Ev. reflexivity.
  - f_equal. rewrite <- (map_id R) at 1. apply map_ext. intros t. unfold repl. rewrite K. destruct (concernsb m t); reflexivity.
  - f_equal. unfold label_map. apply map_ext. intros t. unfold repl, concernsb, of. rewrite K, Hf. cbn [has_label]. rewrite andb_comm. reflexivity.
Qed.
Lemma the_term_ok l v (R : list term) t : the_term l v R = Ok t -> filter (of l v) R = [t].
Proof. unfold the_term. destruct (filter (of l v) R) as [|a [|b r]]; try discriminate. intros H. injection H as ->. reflexivity. Qed.
Lemma constructed_fits R m : sensible R -> constructed R m -> fits m R.
Proof.
  intros Hs [(v & mf & o & atf & H)|[(v & H)|[(v & H)|(v & H)]]].
  - unfold new_dg_upwind in H. apply bind_ok in H as (t & H1 & H). apply bind_ok in H as (ty & H2 & H). apply bind_ok in H as (b & H3 & H).
    destruct b as [b|]; [|discriminate]. injection H as <-. unfold fits. cbn [m_forms m_variable]. exists t. split; [apply the_term_ok; exact H1|].
    intros M. unfold type_of in H2. destruct (t_mass t); [|congruence]. injection H2 as <-. unfold dg_upwind in H3.
    rewrite andb_true_r in H3. destruct atf; [discriminate|]. destruct one_d; [destruct mf; discriminate|]. injection H3 as <-. discriminate.
  - unfold new_split_dg_upwind in H. apply bind_ok in H as (h & H1 & H). apply bind_ok in H as (w & H2 & H). apply bind_ok in H as (ty & H3 & H).
    destruct one_d; [discriminate|]. destruct ty; try discriminate. destruct (split_forms v) as [[fh vh] [fv vv]]. injection H as <-.
    apply the_term_ok in H1. apply the_term_ok in H2.
    assert (Ih : In h R /\ of L_horizontal v h = true) by (apply filter_In; rewrite H1; left; reflexivity).
    assert (Iw : In w R /\ of L_vertical v w = true) by (apply filter_In; rewrite H2; left; reflexivity).
    assert (EQ : forall l, l = L_horizontal \/ l = L_vertical -> filter (of2 L_transport l v) R = filter (of l v) R).
    { intros l Hl. apply filter_ext_in. intros t Ht. unfold of2, of. destruct (Hs t Ht) as (_ & A & _). destruct (has_label l t) eqn:E; [|rewrite andb_false_r; reflexivity].
      assert (T : has_label L_transport t = true). { apply has_transport, A. destruct Hl as [-> | ->]; cbn in E; auto. } rewrite T. reflexivity. }
    unfold fits. cbn [m_forms m_variable]. exists h, w. rewrite !EQ by auto.
    unfold of in Ih, Iw. rewrite !andb_true_iff in Ih, Iw. cbn in Ih, Iw.
    destruct (Hs h (proj1 Ih)) as (_ & _ & A1 & A2). destruct (Hs w (proj1 Iw)) as (_ & _ & _ & B2).
    repeat split; [exact H1|exact H2|apply A2; left; apply Ih|apply B2; right; apply Iw|]. intros ->. rewrite A1 in Iw by apply Ih. destruct Iw as (_ & C & _). discriminate.
  - unfold new_default in H. apply bind_ok in H as (t & H1 & H). apply bind_ok in H as (ty & H2 & H). injection H as <-. exact I.
  - unfold new_diffusion in H. apply bind_ok in H as (t & H1 & H). injection H as <-. reflexivity.
Qed.
Lemma sensible_map f R : sensible R -> (forall t, In t R -> skel (f t) = skel t) -> sensible (map f R).
Proof.
  intros Hs Hf t' Ht'. apply in_map_iff in Ht' as (t & <- & Ht). specialize (Hs t Ht). specialize (Hf t Ht). pose proof (mass_skel t (f t) Hf) as M.
  unfold skel in Hf. injection Hf as _ H2 H3 H4 H5 _. rewrite H2, H3, H4, H5. destruct Hs as (A & B & C & D). repeat split; auto. intros H. apply M. auto.
Qed.
Definition replace_all (ms : list method) (t : term) : term := fold_left (fun t m => repl m t) ms t.
Lemma setup_map ms : forall R, sensible R -> Forall (fun m => fits m R) ms ->
  setup_equation R ms = Ok (map (replace_all ms) R) /\ (forall t, In t R -> skel (replace_all ms t) = skel t).
Proof.
  induction ms as [|m ms IH]; intros R Hs Hf; [cbn; rewrite map_id; split; reflexivity|]. inversion Hf as [|? ? H1 H2]; subst. cbn [setup_equation]. rewrite replace_form_map by assumption. cbn [bind].
  assert (K : forall t, In t R -> skel (repl m t) = skel t) by (intros; apply (repl_skel m t R); assumption).
  destruct (IH (map (repl m) R)) as [A B].
  - apply sensible_map; assumption.
  - rewrite Forall_forall in *. intros m' Hm'. apply fits_map; [assumption|assumption|apply H2; exact Hm'].
  - rewrite A, map_map. split; [reflexivity|]. intros t Ht. cbn. rewrite B by (apply in_map; exact Ht). apply K. exact Ht.
Qed.
Lemma repl_not m t : concernsb m t = false -> repl m t = t.
Proof. unfold repl. intros ->. reflexivity. Qed.
Lemma replace_all_not ms : forall t, (forall m, In m ms -> concernsb m t = false) -> replace_all ms t = t.
Proof. induction ms as [|m ms IH]; intros t H; [reflexivity|]. cbn. rewrite repl_not by (apply H; left; reflexivity). apply IH. intros; apply H; right; assumption. Qed.
Lemma concern_class (t : term) m : (t_transport t <> None -> t_diffusion t = false) -> concernsb m t = true ->
  (m_variable m, for_transport m) = (t_prog t, has_label L_transport t).
Proof.
  intros Hs H. unfold concernsb in H. apply andb_true_iff in H as [H1 H2]. apply String.eqb_eq in H1. rewrite H1. f_equal. unfold for_transport.
  destruct (m_forms m); rewrite ?andb_true_iff in H2; try (rewrite H2; reflexivity); try (rewrite (proj1 H2); reflexivity).
  destruct (has_label L_transport t) eqn:E; [|reflexivity]. apply has_transport in E. specialize (Hs E). congruence.
Qed.
Lemma replace_all_one ms : forall t R, (t_transport t <> None -> t_diffusion t = false) -> one_method_each ms -> Forall (fun m => fits m R) ms -> In t R ->
  forall m, In m ms -> concernsb m t = true -> replace_all ms t = repl m t.
Proof.
  induction ms as [|m0 ms IH]; intros t R Hs Hn Hf Ht m Hm Hc; [contradiction|]. unfold one_method_each in Hn. cbn [map] in Hn. inversion Hn as [|? ? N1 N2]; subst. inversion Hf as [|? ? F1 F2]; subst.
  cbn [replace_all fold_left]. fold (replace_all ms (repl m0 t)). destruct Hm as [<-|Hm].
  - pose proof (repl_skel m0 t R F1 Ht) as K. apply replace_all_not. intros m' Hm'. rewrite (concernsb_skel m' t _ K). destruct (concernsb m' t) eqn:E; [|reflexivity].
    exfalso. apply N1. rewrite (concern_class t m0 Hs Hc), <- (concern_class t m' Hs E). apply in_map_iff. exists m'. split; [reflexivity|exact Hm'].
  - destruct (concernsb m0 t) eqn:E; [|rewrite repl_not by exact E; apply (IH t R); assumption].
    exfalso. apply N1. rewrite (concern_class t m0 Hs E), <- (concern_class t m Hs Hc). apply in_map_iff. exists m. split; [reflexivity|exact Hm].
Qed.
Lemma repl_discretised m t R : sensible R -> fits m R -> In t R -> concerns m t -> discretised m t (repl m t).
Proof.
  intros Hs Hf Ht Hc. unfold repl. pose proof Hc as Hb. apply concernsb_spec in Hb. rewrite Hb. unfold discretised. destruct (Hs t Ht) as (_ & _ & S3 & _).
  destruct Hc as [_ Hc]. destruct (m_forms m) as [f vel abl mass|fh vh fv vv| |f].
  - repeat split.
  - destruct (t_hor t) eqn:E; (split; [repeat split|]).
    + specialize (S3 eq_refl). cbn. repeat split; congruence.
    + cbn. repeat split; congruence.
  - repeat split.
  - repeat split.
Qed.

(** ** C112 *)
(** Whatever the methods and their order: the set-up succeeds, keeps the terms in place, gives every term that a method is for
    the form of that method, keeping its labels, and does not touch any other term. *)
Theorem setup_replaces_exactly : forall R ms, sensible R -> Forall (constructed R) ms -> one_method_each ms ->
  exists R', setup_equation R ms = Ok R' /\
    Forall2 (fun t t' => (exists m, In m ms /\ concerns m t /\ discretised m t t') \/ ((forall m, In m ms -> ~ concerns m t) /\ t' = t)) R R'.
Proof.
  intros R ms Hs Hc Hn. assert (Hf : Forall (fun m => fits m R) ms) by (eapply Forall_impl; [|exact Hc]; intros m; apply constructed_fits; exact Hs).
  destruct (setup_map ms R Hs Hf) as [A B]. eexists. split; [exact A|]. clear A.
  assert (G : forall l, (forall t, In t l -> In t R) ->
    Forall2 (fun t t' => (exists m, In m ms /\ concerns m t /\ discretised m t t') \/ ((forall m, In m ms -> ~ concerns m t) /\ t' = t)) l (map (replace_all ms) l)).
  { induction l as [|t l IH]; intros Hl; cbn; constructor; [|apply IH; intros; apply Hl; right; assumption].
    assert (Ht : In t R) by (apply Hl; left; reflexivity).
    destruct (existsb (fun m => concernsb m t) ms) eqn:E.
    - apply existsb_exists in E as (m & Hm & E). left. exists m. assert (C : concerns m t) by (apply concernsb_spec; exact E). split; [exact Hm|]. split; [exact C|].
      rewrite (replace_all_one ms t R) with (m := m); try assumption; [|apply (Hs t Ht)]. apply (repl_discretised m t R); try assumption. rewrite Forall_forall in Hf. apply Hf. exact Hm.
    - right. assert (E' : forall m, In m ms -> concernsb m t = false).
      { intros m Hm. destruct (concernsb m t) eqn:E1; [|reflexivity]. assert (existsb (fun m => concernsb m t) ms = true) by (apply existsb_exists; eauto). congruence. }
      split; [|apply replace_all_not; exact E']. intros m Hm C. apply concernsb_spec in C. rewrite (E' m Hm) in C. discriminate. }
  apply G. auto.
Qed.
(** The order in which the methods are given does not matter. *)
Theorem setup_order_irrelevant : forall R ms ms', sensible R -> Forall (constructed R) ms -> one_method_each ms -> Permutation ms ms' ->
  setup_equation R ms' = setup_equation R ms.
Proof.
  intros R ms ms' Hs Hc Hn P. assert (Hf : Forall (fun m => fits m R) ms) by (eapply Forall_impl; [|exact Hc]; intros m; apply constructed_fits; exact Hs).
  assert (Hf' : Forall (fun m => fits m R) ms') by (rewrite Forall_forall in *; intros m Hm; apply Hf; apply (Permutation_in _ (Permutation_sym P)); exact Hm).
  assert (Hn' : one_method_each ms') by (unfold one_method_each in *; eapply Permutation_NoDup; [apply Permutation_map; exact P|exact Hn]).
  rewrite (proj1 (setup_map ms R Hs Hf)), (proj1 (setup_map ms' R Hs Hf')). f_equal. apply map_ext_in. intros t Ht. destruct (Hs t Ht) as (D & _).
  destruct (existsb (fun m => concernsb m t) ms) eqn:E.
  - apply existsb_exists in E as (m & Hm & E). rewrite (replace_all_one ms t R) with (m := m) by assumption. apply (replace_all_one ms' t R); try assumption. apply (Permutation_in _ P). exact Hm.
  - assert (E' : forall m, In m ms -> concernsb m t = false).
    { intros m Hm. destruct (concernsb m t) eqn:E1; [|reflexivity]. assert (existsb (fun m => concernsb m t) ms = true) by (apply existsb_exists; eauto). congruence. }
    rewrite !replace_all_not; [reflexivity|exact E'|]. intros m Hm. apply E'. apply (Permutation_in _ (Permutation_sym P)). exact Hm.
Qed.
(** Doing it again (a second time stepper for the same equation) changes nothing.  (Mass weighted terms are left out: whether
    replace_form can be applied to them twice depends on what firedrake's Label.update_value returns.) *)
Theorem setup_idempotent : forall R ms R', sensible R -> (forall t, In t R -> t_mass t = None) -> Forall (constructed R) ms -> one_method_each ms ->
  setup_equation R ms = Ok R' -> setup_equation R' ms = Ok R'.
Proof.
  intros R ms R' Hs _ Hc Hn H. assert (Hf : Forall (fun m => fits m R) ms) by (eapply Forall_impl; [|exact Hc]; intros m; apply constructed_fits; exact Hs).
  destruct (setup_map ms R Hs Hf) as [A B]. rewrite A in H. injection H as <-.
  assert (Hs' : sensible (map (replace_all ms) R)) by (apply sensible_map; assumption).
  assert (Hf' : Forall (fun m => fits m (map (replace_all ms) R)) ms) by (rewrite Forall_forall in *; intros m Hm; apply fits_map; auto).
  rewrite (proj1 (setup_map ms _ Hs' Hf')). f_equal. rewrite map_map. apply map_ext_in. intros t Ht. destruct (Hs t Ht) as (D & _ & S3 & _).
  assert (D' : t_transport (replace_all ms t) <> None -> t_diffusion (replace_all ms t) = false) by (apply Hs', in_map; exact Ht).
  destruct (existsb (fun m => concernsb m t) ms) eqn:E.
  - apply existsb_exists in E as (m & Hm & E). assert (E1 : concernsb m (replace_all ms t) = true) by (rewrite (concernsb_skel m t _ (B t Ht)); exact E).
    rewrite (replace_all_one ms (replace_all ms t) (map (replace_all ms) R)) with (m := m); try assumption; [|apply in_map; exact Ht].
    rewrite (replace_all_one ms t R) with (m := m) in * by assumption. unfold repl at 1. rewrite E1. unfold repl. rewrite E. destruct (m_forms m) as [f vel abl mass|fh vh fv vv| |f] eqn:K.
    + destruct abl, mass; cbn; destruct (t_mass t); reflexivity.
    + destruct (t_hor t) eqn:Eh; cbn; rewrite Eh; reflexivity.
    + reflexivity.
    + reflexivity.
  - assert (E' : forall m, In m ms -> concernsb m t = false).
    { intros m Hm. destruct (concernsb m t) eqn:E1; [|reflexivity]. assert (existsb (fun m => concernsb m t) ms = true) by (apply existsb_exists; eauto). congruence. }
    rewrite (replace_all_not ms t E'). apply replace_all_not. exact E'.
Qed.
(** A warning is given for every transport (or diffusion) term without a method. *)
Theorem uncovered_terms_are_reported : forall l R (ms : list method) t, l = L_transport \/ l = L_diffusion -> In t R -> has_label l t = true ->
  (forall m, In m ms -> m_variable m = t_prog t -> m_label m <> l) -> In (t_prog t) (warnings l R ms).
Proof.
  intros l R ms t Hl Ht Hh Hm. unfold warnings. apply filter_In. split; [apply in_map, filter_In; split; assumption|]. apply negb_true_iff.
  destruct (existsb _ _) eqn:E; [|reflexivity]. apply existsb_exists in E as (v & Hv & E). apply String.eqb_eq in E. subst v. apply in_map_iff in Hv as (m & Em & Hm').
  apply filter_In in Hm' as [Hm' El]. destruct (Hm m Hm' Em). destruct (m_label m), l; try discriminate; reflexivity.
Qed.
(** ... and for a variable with one of the other transport methods, or a diffusion method, none is given *)
Theorem covered_terms_are_not_reported : forall l R (ms : list method) m, In m ms -> m_label m = l -> ~ In (m_variable m) (warnings l R ms).
Proof.
  intros l R ms m Hm Hl H. unfold warnings in H. apply filter_In in H as [_ H]. apply negb_true_iff in H.
  assert (existsb (String.eqb (m_variable m)) (map m_variable (filter (fun m => label_eqb (m_label m) l) ms)) = true).
  { apply existsb_exists. exists (m_variable m). split; [|apply String.eqb_refl]. apply in_map, filter_In. split; [exact Hm|]. rewrite Hl. destruct l; reflexivity. }
  congruence.
Qed.
(** A variable with SplitDGUpwind is reported as having no method ... *)
Theorem covered_terms_are_not_reported_refuted : forall R v m, sensible R -> new_split_dg_upwind split_forms one_d R v = Ok m -> In v (warnings L_transport R [m]).
Proof.
  intros R v m Hs H. unfold new_split_dg_upwind in H. apply bind_ok in H as (h & H1 & H). apply bind_ok in H as (w & H2 & H). apply bind_ok in H as (ty & H3 & H).
  destruct one_d; [discriminate|]. destruct ty; try discriminate. destruct (split_forms v) as [[fh vh] [fv vv]] eqn:Esf. injection H as <-.
  apply the_term_ok in H1. assert (Ih : In h R /\ of L_horizontal v h = true) by (apply filter_In; rewrite H1; left; reflexivity). unfold of in Ih. rewrite andb_true_iff in Ih.
  destruct Ih as (Ih & Il & Iv). apply String.eqb_eq in Iv. subst v.
  assert (T : t_transport h <> None) by (apply (Hs h Ih); left; exact Il).
  apply uncovered_terms_are_reported; [left; reflexivity|exact Ih|apply has_transport; exact T|].
  intros m' [<-|[]] Ev El. discriminate.
Qed.

(** ** The semi-implicit steppers *)
(** They accept the schemes exactly if every scheme is for a prognostic with a transport method, ... *)
Theorem schemes_accepted : forall names (ms : list method) (schemes : list (string * S)),
  (exists a, active_transport names ms schemes = Ok a) <->
  (forall v s, In (v, s) schemes -> In v names /\ exists m, In m ms /\ m_variable m = v /\ m_label m = L_transport).
Proof.
  intros names ms schemes. induction schemes as [|[v s] l IH]; cbn [active_transport]; [split; [intros _ v s []|eexists; reflexivity]|].
  set (found := filter _ ms).
  assert (Fd : (exists x, In x found) <-> exists m, In m ms /\ m_variable m = v /\ m_label m = L_transport).
  { unfold found. split; intros (m & H); exists m.
    - apply filter_In in H as [H E]. apply andb_true_iff in E as [E1 E2]. apply String.eqb_eq in E1. repeat split; [exact H|congruence|destruct (m_label m); try discriminate; reflexivity].
    - destruct H as (H & E1 & E2). apply filter_In. split; [exact H|]. rewrite E1, E2, String.eqb_refl. reflexivity. }
  split.
  - intros [a Ha] v0 s0 [E|H].
    + injection E as <- <-. destruct (existsb (String.eqb v) names) eqn:E; [|discriminate]. apply existsb_exists in E as (n & Hn & E). apply String.eqb_eq in E. subst n.
      split; [exact Hn|]. apply Fd. destruct found as [|m f]; [discriminate|]. exists m. left. reflexivity.
    + apply (proj1 IH) with (s := s0); [|exact H]. destruct (existsb (String.eqb v) names); [|discriminate]. destruct found; [discriminate|]. apply bind_ok in Ha as (b & Hb & _). eauto.
  - intros H. destruct (H v s (or_introl eq_refl)) as [H1 H2]. assert (E : existsb (String.eqb v) names = true) by (apply existsb_exists; exists v; split; [exact H1|apply String.eqb_refl]).
    rewrite E. apply Fd in H2 as [m Hm]. destruct found as [|m' f]; [contradiction|]. destruct (proj2 IH) as [b Hb]; [intros v0 s0 H0; apply (H v0 s0); right; exact H0|].
    rewrite Hb. cbn. eauto.
Qed.
(** ... and then, with one method each, apply each scheme once, in the order given. *)
Theorem schemes_applied_once : forall names (ms : list method) (schemes : list (string * S)) a,
  one_method_each ms -> (forall m, In m ms -> m_label m = L_transport -> for_transport m = true) ->
  active_transport names ms schemes = Ok a -> a = schemes.
Proof.
  intros names ms schemes. induction schemes as [|[v s] l IH]; intros a Hn Ht H; cbn [active_transport] in H; [injection H as <-; reflexivity|].
  destruct (existsb (String.eqb v) names); [|discriminate]. set (found := filter _ ms) in H.
  assert (L : length found <= 1).
  { unfold found. clear H found IH. unfold one_method_each in Hn. induction ms as [|m ms IHm]; [cbn; lia|]. cbn [map] in Hn. inversion Hn as [|? ? N1 N2]; subst.
    cbn [filter]. destruct ((v =? m_variable m) && label_eqb (m_label m) L_transport) eqn:E.
    - apply andb_true_iff in E as [E1 E2]. apply String.eqb_eq in E1. assert (Em : for_transport m = true) by (apply Ht; [left; reflexivity|destruct (m_label m); try discriminate; reflexivity]).
      enough (Z : filter (fun m => (v =? m_variable m) && label_eqb (m_label m) L_transport) ms = []) by (rewrite Z; cbn; lia).
      destruct (filter _ ms) as [|m' f] eqn:Ef; [reflexivity|]. exfalso. assert (I : In m' (filter (fun m => (v =? m_variable m) && label_eqb (m_label m) L_transport) ms)) by (rewrite Ef; left; reflexivity).
      apply filter_In in I as [I J]. apply andb_true_iff in J as [J1 J2]. apply String.eqb_eq in J1. apply N1. apply in_map_iff. exists m'. split; [|exact I].
      f_equal; [congruence|]. rewrite Em. apply Ht; [right; exact I|destruct (m_label m'); try discriminate; reflexivity].
    - apply IHm; [exact N2|]. intros m' Hm'. apply Ht. right. exact Hm'. }
  destruct found as [|m [|m' f]]; [discriminate| |cbn in L; lia]. apply bind_ok in H as (b & Hb & H). injection H as <-. cbn. f_equal. apply IH; assumption.
Qed.
(** Schemes for a variable discretised with SplitDGUpwind are never accepted, although it is a transport method. *)
Theorem every_transport_method_accepted_refuted : forall R v m names ms (s : S), new_split_dg_upwind split_forms one_d R v = Ok m ->
  In m ms -> one_method_each ms -> (forall m', In m' ms -> m_label m' = L_transport -> for_transport m' = true) ->
  forall schemes, In (v, s) schemes -> forall a, active_transport names ms schemes <> Ok a.
Proof.
  intros R v m names ms s H Hm Hn Ht schemes Hs a Ha.
  assert (E : m_variable m = v /\ m_label m = L_horizontal /\ for_transport m = true).
  { unfold new_split_dg_upwind in H. apply bind_ok in H as (h & _ & H). apply bind_ok in H as (w & _ & H). apply bind_ok in H as (ty & _ & H).
    destruct one_d; [discriminate|]. destruct ty; try discriminate. destruct (split_forms v) as [[fh vh] [fv vv]]. injection H as <-. repeat split. }
  destruct E as (E1 & E2 & E3). destruct (proj1 (schemes_accepted names ms schemes) (ex_intro _ a Ha) v s Hs) as (_ & m' & I' & V' & L').
  assert (X : forall (l : list method) a b, NoDup (map (fun m => (m_variable m, for_transport m)) l) -> In a l -> In b l -> (m_variable a, for_transport a) = (m_variable b, for_transport b) -> a = b).
  { clear. induction l as [|x l IH]; intros a b N Ha Hb Eab; [contradiction|]. cbn in N. inversion N as [|? ? N1 N2]; subst. destruct Ha as [<-|Ha], Hb as [<-|Hb]; try reflexivity.
    - exfalso. apply N1. rewrite Eab. apply in_map_iff. exists b. auto.
    - exfalso. apply N1. rewrite <- Eab. apply in_map_iff. exists a. auto.
    - apply IH; assumption. }
  assert (m' = m) by (apply (X ms); try assumption; rewrite V', E1, E3, (Ht m' I' L'); reflexivity). subst m'. congruence.
Qed.
(** A method made for an equation in which the tracer is not mass weighted is refused for one in which it is. *)
Theorem mass_weighted_needs_mass_form : forall R v t m f vel abl, filter (of L_transport v) R = [t] -> t_mass t <> None ->
  m_variable m = v -> m_forms m = Single f vel abl None -> replace_form (F := F) (V := V) m R = Err KeyError.
Proof. intros R v t m f vel abl H1 H2 Hv H3. unfold replace_form. rewrite Hv, H3, H1. destruct (t_mass t); [reflexivity|congruence]. Qed.
End Props.

(** Examples: an equation set with velocity, density and a tracer that has horizontal and vertical transport terms and is diffused; forms are
    names, velocities numbers. *)
Section Example.
Let mk (f p : string) (ty : option eqn_type) (diff h w : bool) : term string nat :=
  {| t_form := f; t_prog := p; t_transport := ty; t_diffusion := diff; t_hor := h; t_ver := w; t_mass := None; t_vel := match ty with Some _ => Some 0 | None => None end; t_abl := None; t_other := ["subject"] |}.
Definition example_residual : list (term string nat) :=
  [mk "mass u" "u" None false false false; mk "mass rho" "rho" None false false false; mk "mass q" "q" None false false false;
   mk "(u.grad)u" "u" (Some VectorInvariant) false false false; mk "div(rho u)" "rho" (Some Conservative) false false false;
   mk "uh.grad q" "q" (Some Advective) false true false; mk "w dq/dz" "q" (Some Advective) false false true;
   mk "laplace q" "q" None true false false; mk "grad p" "u" None false false false].
Lemma example_sensible : sensible example_residual.
Proof. intros t H. cbn [In example_residual] in H. decompose [or] H; subst; try contradiction; cbn; intuition discriminate. Qed.
Let fo (v : string) (b : built) : string * nat := (v ++ " upwind", 1).
Let sf (v : string) : (string * nat) * (string * nat) := ((v ++ " upwind h", 2), (v ++ " upwind v", 3)).
Definition example_methods : res (list (method string nat)) :=
  do a <- new_dg_upwind fo (fun _ => ("mass weighted", 4)) false example_residual "u" false false false;
  do b <- new_dg_upwind fo (fun _ => ("mass weighted", 4)) false example_residual "rho" false false true;
  do c <- new_split_dg_upwind sf false example_residual "q";
  do d <- new_diffusion (fun v => v ++ " penalty") example_residual "q"; Ok [a; b; c; d].
Example setup_example : exists ms R', example_methods = Ok ms /\ setup_equation example_residual ms = Ok R' /\
  map t_form R' = ["mass u"; "mass rho"; "mass q"; "u upwind"; "rho upwind"; "q upwind h"; "q upwind v"; "q penalty"; "grad p"] /\
  map t_abl R' = [None; None; None; None; Some "rho upwind"; None; None; None; None] /\
  warnings L_transport example_residual ms = ["q"; "q"] /\
  active_transport ["u"; "rho"; "q"] ms [("u", 1); ("rho", 2)] = Ok [("u", 1); ("rho", 2)] /\
  active_transport ["u"; "rho"; "q"] ms [("u", 1); ("q", 2)] = Err AssertionError.
Proof. eexists. eexists. repeat split; reflexivity. Qed.
End Example.

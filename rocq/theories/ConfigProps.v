(** Property C11: option objects. *)
From Verif Require Import Base Config.
Local Open Scope string_scope.

(** C11.  Setting an option, exactly: it succeeds iff the option is declared and
    the value is not a bare number, or the option is one of the six names allowed
    to hold numbers; otherwise AttributeError. *)
Theorem setting_an_option :
  forall o n v,
  (hasattr o n = false -> config_setattr o n v = Err AttributeError) /\
  (hasattr o n = true -> is_number v = false \/ In n non_constants ->
     exists o', config_setattr o n v = Ok o' /\ getattr o' n = Some v /\
       forall m, m <> n -> getattr o' m = getattr o m) /\
  (hasattr o n = true -> is_number v = true -> ~ In n non_constants ->
     config_setattr o n v = Err AttributeError).
Proof.
  intros o n v. unfold config_setattr.
  assert (Hin : in_strs n non_constants = true <-> In n non_constants).
  { unfold in_strs. rewrite existsb_exists. split.
    - intros (x & Hx & E); apply String.eqb_eq in E; subst; exact Hx.
    - intros H; exists n; split; [exact H|apply String.eqb_refl]. }
  repeat split.
  - intros ->; reflexivity.
  - intros -> H. cbn [negb]. exists (store o n v). split.
    + destruct H as [-> | H]; [reflexivity|]. apply Hin in H; rewrite H, andb_false_r; reflexivity.
    + split.
      * unfold getattr, store; cbn. rewrite String.eqb_refl; reflexivity.
      * intros m Hm. unfold getattr, store; cbn.
        destruct (String.eqb_spec m n); [contradiction|reflexivity].
  - intros -> Hv Hn. cbn [negb]. rewrite Hv. destruct (in_strs n non_constants) eqn:E.
    + exfalso; apply Hn, Hin; reflexivity.
    + reflexivity.
Qed.
Print Assumptions setting_an_option.

Lemma store_hasattr o n v m : hasattr o m = true -> hasattr (store o n v) m = true.
Proof.
  unfold hasattr, getattr, store; cbn. destruct (String.eqb m n); [reflexivity|tauto].
Qed.

(** C11.  An object built from keyword arguments (distinct names): creation either
    fails, or every given option reads back as given and every other option keeps
    its class default. *)
Theorem option_object_reads_back :
  forall c kw o, NoDup (map fst kw) -> config_new c kw = Ok o ->
  (forall n v, In (n, v) kw -> getattr o n = Some v) /\
  (forall n, ~ In n (map fst kw) -> getattr o n = assoc n c).
Proof.
  intros c kw o. unfold config_new.
  assert (G : forall kw o0 o1, config_set_all o0 kw = Ok o1 -> NoDup (map fst kw) ->
     (forall n v, In (n, v) kw -> getattr o1 n = Some v) /\
     (forall n, ~ In n (map fst kw) -> getattr o1 n = getattr o0 n)).
  { clear. induction kw as [|[n v] kw IH]; intros o0 o1 H Hnd.
    - injection H as <-. split; [intros n v []|reflexivity].
    - cbn in H. apply bind_ok in H as (o' & H1 & H2). cbn in Hnd. inversion Hnd as [|? ? Hnin Hnd']; subst.
      destruct (IH _ _ H2 Hnd') as [G1 G2].
      assert (Eo : o' = store o0 n v).
      { unfold config_setattr in H1. destruct (negb (hasattr o0 n)); [discriminate|].
        destruct (is_number v && negb (in_strs n non_constants)); [discriminate|]. congruence. }
      subst o'. split.
      + intros m w [E|Hin].
        * injection E as <- <-. rewrite G2 by exact Hnin. unfold getattr, store; cbn. rewrite String.eqb_refl; reflexivity.
        * exact (G1 m w Hin).
      + intros m Hm. cbn in Hm. rewrite G2 by tauto. unfold getattr, store; cbn.
        destruct (String.eqb_spec m n); [subst; tauto|reflexivity]. }
  intros Hnd H. destruct (G kw _ o H Hnd) as [G1 G2]. split; [exact G1|].
  intros n Hn. rewrite G2 by exact Hn. reflexivity.
Qed.
Print Assumptions option_object_reads_back.

(** C11.  A keyword that the class does not declare always raises. *)
Theorem undeclared_option_raises :
  forall c kw n v, In (n, v) kw -> assoc n c = None -> exists e, config_new c kw = Err e.
Proof.
  intros c kw n v. unfold config_new.
  assert (G : forall kw o0, In (n, v) kw -> hasattr o0 n = false -> exists e, config_set_all o0 kw = Err e).
  { clear. induction kw as [|[m w] kw IH]; intros o0 Hin Ha; [destruct Hin|].
    cbn. destruct (config_setattr o0 m w) as [o'|e] eqn:E; [|exists e; reflexivity]. cbn.
    assert (Ho' : o' = store o0 m w /\ hasattr o0 m = true).
    { unfold config_setattr in E. destruct (hasattr o0 m); cbn [negb] in E; [|discriminate].
      destruct (is_number w && negb (in_strs m non_constants)); [discriminate|]. split; congruence. }
    destruct Ho' as [-> Hm]. destruct Hin as [E'|Hin].
    - injection E' as -> ->. congruence.
    - apply IH; [exact Hin|]. unfold hasattr, getattr, store in *; cbn in *.
      destruct (String.eqb_spec n m); [subst; rewrite Ha in Hm; discriminate|exact Ha]. }
  intros Hin Ha. apply G; [exact Hin|]. unfold hasattr, getattr; cbn. rewrite Ha; reflexivity.
Qed.
Print Assumptions undeclared_option_raises.

(** C11 refuted: declared options whose default is a number, or which are
    documented as numbers, cannot be set to any number. *)
Theorem numeric_option_rejected_refuted :
  (forall z, config_new OutputParameters [("diagfreq", VInt z)] = Err AttributeError) /\
  (forall q, config_new OutputParameters [("tolerance", VFloat q)] = Err AttributeError) /\
  (forall q, config_new SUPGOptions [("tau", VFloat q)] = Err AttributeError) /\
  (forall q, config_new RexiParameters [("h", VFloat q)] = Err AttributeError) /\
  (forall z, config_new RexiParameters [("M", VInt z)] = Err AttributeError).
Proof. repeat match goal with |- _ /\ _ => split end; intros; reflexivity. Qed.
Print Assumptions numeric_option_rejected_refuted.

(** ... not even to the class default itself. *)
Theorem default_value_rejected_refuted :
  exists c n v, assoc n c = Some v /\ config_new c [(n, v)] = Err AttributeError.
Proof. exists OutputParameters, "diagfreq", (VInt 1). split; reflexivity. Qed.
Print Assumptions default_value_rejected_refuted.

(** C11.  check_options raises iff both ways of subcycling were chosen. *)
Theorem subcycling_options_check :
  forall kw o, NoDup (map fst kw) -> config_new SubcyclingOptions kw = Ok o ->
  (check_options o = Err ValueError <->
     (exists v, In ("fixed_subcycles", v) kw /\ v <> VNone) /\
     (exists v, In ("subcycle_by_courant", v) kw /\ v <> VNone)) /\
  (check_options o = Ok tt \/ check_options o = Err ValueError).
Proof.
  intros kw o Hnd H. destruct (option_object_reads_back _ _ _ Hnd H) as [G1 G2].
  unfold check_options.
  assert (K : forall n, assoc n SubcyclingOptions = Some VNone ->
     (is_none (getattr o n) = false <-> exists v, In (n, v) kw /\ v <> VNone)).
  { intros n Hn. destruct (in_dec string_dec n (map fst kw)) as [Hin|Hin].
    - apply in_map_iff in Hin as ([n' v] & E & Hin). cbn in E; subst n'.
      rewrite (G1 n v Hin). split.
      + intros Hv. exists v; split; [exact Hin|]. intros ->; discriminate.
      + intros (w & Hw & Hne). specialize (G1 n w Hw) as E1. rewrite (G1 n v Hin) in E1. injection E1 as ->.
        cbn. destruct w; try reflexivity. congruence.
    - rewrite G2 by exact Hin. rewrite Hn. cbn. split; [discriminate|].
      intros (v & Hv & _). exfalso; apply Hin. apply in_map_iff. exists (n, v); auto. }
  pose proof (K "fixed_subcycles" eq_refl) as K1.
  pose proof (K "subcycle_by_courant" eq_refl) as K2.
  destruct (is_none (getattr o "fixed_subcycles")), (is_none (getattr o "subcycle_by_courant")); cbn;
    (split; [|tauto]); split; intros HH; try discriminate; try reflexivity; try tauto.
  - destruct HH as [HH _]; apply K1 in HH; discriminate.
  - destruct HH as [HH _]; apply K1 in HH; discriminate.
  - destruct HH as [_ HH]; apply K2 in HH; discriminate.
Qed.
Print Assumptions subcycling_options_check.

Example subcycling_options_example :
  exists o, config_new SubcyclingOptions [("fixed_subcycles", VInt 3); ("max_subcycles", VInt 5)] = Ok o /\
    getattr o "fixed_subcycles" = Some (VInt 3) /\ getattr o "subcycle_by_courant" = Some VNone /\
    check_options o = Ok tt.
Proof. eexists; split; [reflexivity|]. repeat split. Qed.

(** C11, equation parameters: assigning a number (or a Constant) stores that
    value as a function on the real space; anything else is stored as is;
    undeclared names raise. *)
Theorem setting_an_equation_parameter :
  forall o n v,
  (hasattr o n = false -> eqp_setattr true o n v = Err AttributeError) /\
  (hasattr o n = true -> exists o', eqp_setattr true o n v = Ok o' /\
     getattr o' n = Some (match to_real v with Some q => VRealFunction q | None => v end) /\
     forall m, m <> n -> getattr o' m = getattr o m).
Proof.
  intros o n v. unfold eqp_setattr. split.
  - intros ->; reflexivity.
  - intros ->. cbn [negb].
    assert (S : forall w, getattr (store o n w) n = Some w /\
      forall m, m <> n -> getattr (store o n w) m = getattr o m).
    { intros w. unfold getattr, store; cbn. rewrite String.eqb_refl. split; [reflexivity|].
      intros m Hm. destruct (String.eqb_spec m n); [contradiction|reflexivity]. }
    destruct (to_real v); (eexists; split; [reflexivity|]); apply S.
Qed.
Print Assumptions setting_an_equation_parameter.

Lemma assoc_dict_set d n v m :
  assoc m (dict_set d n v) = if String.eqb m n then Some v else assoc m d.
Proof.
  induction d as [|[k w] d IH]; cbn.
  - destruct (String.eqb m n); reflexivity.
  - destruct (String.eqb_spec n k); cbn.
    + subst k. destruct (String.eqb m n); reflexivity.
    + destruct (String.eqb_spec m k); [subst m|exact IH].
      destruct (String.eqb_spec k n); [congruence|reflexivity].
Qed.

Lemma dict_set_keys d n v : NoDup (map fst d) -> NoDup (map fst (dict_set d n v)) /\
  (forall m, In m (map fst (dict_set d n v)) <-> m = n \/ In m (map fst d)).
Proof.
  induction d as [|[k w] d IH]; cbn; intros Hnd.
  - split; [repeat constructor; tauto|]. intros m; split; intros [|]; auto.
  - inversion Hnd as [|? ? Hk Hd]; subst. destruct (String.eqb_spec n k); cbn.
    + subst k. split; [constructor; assumption|]. intros m; split; intros [|]; auto.
    + destruct (IH Hd) as [I1 I2]. split.
      * constructor; [|exact I1]. rewrite I2. intros [E|E]; congruence.
      * intros m. rewrite I2. tauto.
Qed.

Lemma dict_update_keys kw : forall d, NoDup (map fst d) -> NoDup (map fst (dict_update d kw)).
Proof.
  unfold dict_update. induction kw as [|[n v] kw IH]; intros d H; [exact H|].
  cbn. apply IH. apply dict_set_keys; exact H.
Qed.

Lemma assoc_dict_update kw : forall d m, NoDup (map fst kw) ->
  assoc m (dict_update d kw) = match assoc m kw with Some v => Some v | None => assoc m d end.
Proof.
  unfold dict_update. induction kw as [|[n v] kw IH]; intros d m Hnd; [reflexivity|].
  cbn in Hnd; inversion Hnd as [|? ? Hn Hk]; subst. cbn [fold_left fst snd].
  rewrite IH by exact Hk. rewrite assoc_dict_set. cbn.
  destruct (String.eqb_spec m n); [|reflexivity]. subst m.
  assert (assoc n kw = None) as ->; [|reflexivity].
  clear - Hn. induction kw as [|[k w] kw IH]; [reflexivity|]. cbn in *.
  destruct (String.eqb_spec n k); [subst; tauto|apply IH; tauto].
Qed.

Definition conv (v : value) : value := match to_real v with Some q => VRealFunction q | None => v end.

Lemma assoc_in n v l : NoDup (map fst l) -> (assoc n l = Some v <-> In (n, v) l).
Proof.
  induction l as [|[k w] l IH]; cbn; intros Hnd; [split; [discriminate|tauto]|].
  inversion Hnd as [|? ? Hk Hl]; subst. destruct (String.eqb_spec n k).
  - subst k. split; [intros H; injection H as ->; auto|].
    intros [E|E]; [congruence|]. exfalso; apply Hk. apply in_map_iff; exists (n, v); auto.
  - rewrite (IH Hl). split; [auto|]. intros [E|E]; [congruence|exact E].
Qed.

Lemma eqp_set_all_spec : forall kw o o', NoDup (map fst kw) -> eqp_set_all true o kw = Ok o' ->
  (forall n v, In (n, v) kw -> getattr o' n = Some (conv v)) /\
  (forall n, ~ In n (map fst kw) -> getattr o' n = getattr o n).
Proof.
  induction kw as [|[n v] kw IH]; intros o o' Hnd H.
  - injection H as <-. split; [intros ? ? []|reflexivity].
  - cbn in H. apply bind_ok in H as (o1 & H1 & H2). cbn in Hnd; inversion Hnd as [|? ? Hn Hk]; subst.
    destruct (IH _ _ Hk H2) as [G1 G2].
    assert (E : o1 = store o n (conv v)).
    { unfold eqp_setattr in H1. destruct (negb (hasattr o n)); [discriminate|]. unfold conv.
      destruct (to_real v); congruence. }
    subst o1. split.
    + intros m w [E|Hin]; [|exact (G1 m w Hin)]. injection E as <- <-.
      rewrite G2 by exact Hn. unfold getattr, store; cbn. rewrite String.eqb_refl; reflexivity.
    + intros m Hm; cbn in Hm. rewrite G2 by tauto. unfold getattr, store; cbn.
      destruct (String.eqb_spec m n); [subst; tauto|reflexivity].
Qed.

Lemma eqp_set_all_ok : forall kw o, (forall n, In n (map fst kw) -> hasattr o n = true) ->
  exists o', eqp_set_all true o kw = Ok o'.
Proof.
  induction kw as [|[n v] kw IH]; intros o H; [exists o; reflexivity|]. cbn.
  unfold eqp_setattr at 1. rewrite (H n) by (left; reflexivity). cbn [negb].
  assert (S : forall w, exists o', eqp_set_all true (store o n w) kw = Ok o').
  { intros w. apply IH. intros m Hm. apply store_hasattr, H. right; exact Hm. }
  destruct (to_real v); cbn; apply S.
Qed.

Lemma assoc_filter_num n c : NoDup (map fst c) ->
  assoc n (filter (fun e => match to_real (snd e) with Some _ => true | None => false end) c) =
  match assoc n c with Some v => match to_real v with Some _ => Some v | None => None end | None => None end.
Proof.
  induction c as [|[k w] c IH]; cbn; intros Hnd; [reflexivity|].
  inversion Hnd as [|? ? Hk Hc]; subst. destruct (to_real w) eqn:E; cbn.
  - destruct (String.eqb_spec n k); [rewrite E; reflexivity|exact (IH Hc)].
  - destruct (String.eqb_spec n k); [subst k|exact (IH Hc)]. rewrite E, (IH Hc).
    assert (assoc n c = None) as ->; [|reflexivity].
    clear - Hk. induction c as [|[k' w'] c IHc]; [reflexivity|]. cbn in *.
    destruct (String.eqb_spec n k'); [subst; tauto|apply IHc; tauto].
Qed.

Lemma filter_keys {P : string * value -> bool} c : NoDup (map fst c) -> NoDup (map fst (filter P c)).
Proof.
  induction c as [|e c IH]; cbn; intros H; [exact H|]. inversion H as [|? ? H1 H2]; subst.
  destruct (P e); cbn; [|auto]. constructor; [|auto].
  intros Hin; apply H1. apply in_map_iff in Hin as (e' & E & Hin). apply filter_In in Hin as [Hin _].
  apply in_map_iff; exists e'; auto.
Qed.

(** C11.  A parameter object built with declared keyword arguments: construction
    succeeds; every numeric parameter - given or default - is a real function with
    that value, non-numeric ones are as given. *)
Theorem equation_parameters_become_constants :
  forall c kw, NoDup (map fst c) -> NoDup (map fst kw) ->
  (forall n, In n (map fst kw) -> assoc n c <> None) ->
  exists o, eqp_new c kw = Ok o /\
    (forall n v, In (n, v) kw -> getattr o n = Some (conv v)) /\
    (forall n v, ~ In n (map fst kw) -> assoc n c = Some v -> getattr o n = Some (conv v)).
Proof.
  intros c kw Hc Hkw Hdecl. unfold eqp_new.
  set (params := filter _ c). set (d := dict_update params kw).
  assert (Hp : NoDup (map fst params)) by (apply filter_keys; exact Hc).
  assert (Hd : NoDup (map fst d)) by (apply dict_update_keys; exact Hp).
  assert (A : forall m, assoc m d = match assoc m kw with Some v => Some v | None => assoc m params end)
    by (intros m; apply assoc_dict_update; exact Hkw).
  assert (None_iff : forall m l, assoc m l = None <-> ~ In m (map fst l)).
  { clear. intros m l; induction l as [|[k w] l IH]; cbn; [tauto|].
    destruct (String.eqb_spec m k); [subst; split; [discriminate|tauto]|]. rewrite IH. intuition congruence. }
  destruct (eqp_set_all_ok d (mk_obj c [])) as [o Ho].
  { intros n Hn. unfold hasattr, getattr; cbn.
    destruct (assoc n c) eqn:E; [reflexivity|]. exfalso.
    assert (Hnone : assoc n d = None).
    { rewrite A. destruct (assoc n kw) eqn:E2.
      - exfalso. apply (Hdecl n); [|exact E]. destruct (in_dec string_dec n (map fst kw)) as [?|Hno]; [assumption|].
        apply None_iff in Hno; congruence.
      - unfold params. rewrite assoc_filter_num by exact Hc. rewrite E; reflexivity. }
    apply None_iff in Hnone; contradiction. }
  exists o. split; [exact Ho|]. destruct (eqp_set_all_spec _ _ _ Hd Ho) as [G1 G2]. split.
  - intros n v Hin. apply G1. apply assoc_in; [exact Hd|]. rewrite A.
    apply assoc_in in Hin; [|exact Hkw]. rewrite Hin; reflexivity.
  - intros n v Hn Hv. apply None_iff in Hn.
    destruct (to_real v) eqn:E.
    + apply G1. apply assoc_in; [exact Hd|]. rewrite A, Hn. unfold params.
      rewrite assoc_filter_num by exact Hc. rewrite Hv, E; reflexivity.
    + rewrite G2.
      * unfold getattr, conv; cbn. rewrite Hv, E; reflexivity.
      * apply None_iff. rewrite A, Hn. unfold params. rewrite assoc_filter_num by exact Hc. rewrite Hv, E; reflexivity.
Qed.
Print Assumptions equation_parameters_become_constants.

Example compressible_parameters_example :
  exists o, eqp_new CompressibleParameters [("g", VFloat (10#1)); ("Omega", VConstant (1#2))] = Ok o /\
    getattr o "g" = Some (VRealFunction (10#1)) /\
    getattr o "kappa" = Some (VRealFunction (2#7)) /\
    getattr o "Omega" = Some (VRealFunction (1#2)).
Proof. eexists; split; [vm_compute; reflexivity|]. repeat split. Qed.

(** C80.  Unless they are overridden, the constants of the compressible equations satisfy
    the relations their comments state: cv = cp - R_d, kappa = R_d/cp, c_vv = c_pv - R_v,
    and the two forms of Tetens' constant agree, w_sat1 = w_sat4 R_d/R_v, to four digits. *)
Theorem default_constants_consistent :
  forall kw : list (string * value),
  NoDup (map fst kw) -> (forall n, In n (map fst kw) -> assoc n CompressibleParameters <> None) ->
  (forall n, In n (map fst kw) -> ~ In n ["cp"; "R_d"; "kappa"; "cv"; "c_pv"; "c_vv"; "R_v"; "w_sat1"; "w_sat4"]) ->
  exists o cp Rd kappa cv cpv cvv Rv w1 w4, eqp_new CompressibleParameters kw = Ok o /\
    getattr o "cp" = Some (VRealFunction cp) /\ getattr o "R_d" = Some (VRealFunction Rd) /\
    getattr o "kappa" = Some (VRealFunction kappa) /\ getattr o "cv" = Some (VRealFunction cv) /\
    getattr o "c_pv" = Some (VRealFunction cpv) /\ getattr o "c_vv" = Some (VRealFunction cvv) /\
    getattr o "R_v" = Some (VRealFunction Rv) /\
    getattr o "w_sat1" = Some (VRealFunction w1) /\ getattr o "w_sat4" = Some (VRealFunction w4) /\
    (cv == cp - Rd /\ kappa * cp == Rd /\ cvv == cpv - Rv /\ w1 * Rv <= w4 * Rd /\ w4 * Rd <= w1 * Rv * (10001 # 10000))%Q.
Proof.
  intros kw Hn Hd Hno.
  destruct (equation_parameters_become_constants CompressibleParameters kw) as (o & Ho & _ & G); [|exact Hn|exact Hd|].
  - repeat constructor; cbn; intuition discriminate.
  - assert (K : forall n, In n ["cp"; "R_d"; "kappa"; "cv"; "c_pv"; "c_vv"; "R_v"; "w_sat1"; "w_sat4"] ->
              forall v, assoc n CompressibleParameters = Some v -> getattr o n = Some (conv v)).
    { intros n Hin v Hv. apply G; [|exact Hv]. intros Hk. exact (Hno n Hk Hin). }
    exists o. do 9 eexists. split; [exact Ho|].
    split; [exact (K "cp" ltac:(cbn; tauto) _ eq_refl)|]. split; [exact (K "R_d" ltac:(cbn; tauto) _ eq_refl)|].
    split; [exact (K "kappa" ltac:(cbn; tauto) _ eq_refl)|]. split; [exact (K "cv" ltac:(cbn; tauto) _ eq_refl)|].
    split; [exact (K "c_pv" ltac:(cbn; tauto) _ eq_refl)|]. split; [exact (K "c_vv" ltac:(cbn; tauto) _ eq_refl)|].
    split; [exact (K "R_v" ltac:(cbn; tauto) _ eq_refl)|]. split; [exact (K "w_sat1" ltac:(cbn; tauto) _ eq_refl)|].
    split; [exact (K "w_sat4" ltac:(cbn; tauto) _ eq_refl)|].
    split; [reflexivity|split; [reflexivity|split; [reflexivity|split]]]; unfold Qle; cbn; lia.
Qed.
Print Assumptions default_constants_consistent.

(** ... but the dependent constants are not derived: overriding cp alone leaves kappa and
    cv as they were. *)
Theorem overridden_constants_refuted :
  exists kw o cp Rd kappa cv, eqp_new CompressibleParameters kw = Ok o /\ map fst kw = ["cp"] /\
    getattr o "cp" = Some (VRealFunction cp) /\ getattr o "R_d" = Some (VRealFunction Rd) /\
    getattr o "kappa" = Some (VRealFunction kappa) /\ getattr o "cv" = Some (VRealFunction cv) /\
    (~ kappa * cp == Rd /\ ~ cv == cp - Rd)%Q.
Proof.
  exists [("cp", VFloat (1000#1))]. do 5 eexists. split; [vm_compute; reflexivity|].
  split; [reflexivity|]. repeat (split; [reflexivity|]). split; intros H; vm_compute in H; discriminate.
Qed.
Print Assumptions overridden_constants_refuted.

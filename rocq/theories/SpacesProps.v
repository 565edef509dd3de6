(** Theorems about the degree arguments, the space container and the complexes: C62, C77. *)
From Verif Require Import Base Spaces.
From Coq Require Import String DecimalString DecimalNat DecimalFacts Ascii.
Open Scope string_scope.
Open Scope nat_scope.

(** ** Degree arguments (C62) *)
(** the documented ways: on any mesh one degree; on extruded meshes a horizontal and a vertical one; on
    other meshes a horizontal one *)
Definition documented (extruded : bool) (degree hori vert : option nat) : Prop :=
  (exists k, degree = Some k /\ hori = None /\ vert = None) \/
  (extruded = true /\ degree = None /\ exists h v, hori = Some h /\ vert = Some v) \/
  (extruded = false /\ degree = None /\ vert = None /\ exists h, hori = Some h).
(** exactly the documented combinations are accepted *)
Theorem degree_args_exact : forall extruded degree hori vert, check_degree_args extruded degree hori vert = None <-> documented extruded degree hori vert.
Proof.
  intros extruded degree hori vert. split.
  - unfold check_degree_args, documented. destruct extruded, degree as [k|], hori as [h|], vert as [v|]; cbn; intros H; try discriminate.
    + left. eauto. + right. left. split; auto. split; auto. eauto. + left. eauto. + right. right. split; auto. split; auto. split; auto. eauto.
  - intros [[k [-> [-> ->]]] | [[-> [-> [h [v [-> ->]]]]] | [-> [-> [-> [h ->]]]]]]; destruct extruded || idtac; reflexivity.
Qed.
(** the degrees used are the ones given; the quadrature degree is the one given, or 2p+3 *)
Theorem domain_degrees_partial : forall extruded degree hori vert quad, documented extruded degree hori vert ->
  (forall k, degree = Some k -> domain_degree_args extruded degree hori vert quad = Degrees (Some k) (Some k) (match quad with Some q => q | None => 2 * k + 3 end)) /\
  (forall h v, hori = Some h -> vert = Some v -> domain_degree_args extruded degree hori vert quad = Degrees (Some h) (Some v) (match quad with Some q => q | None => 2 * Nat.max h v + 3 end)) /\
  (forall h q, hori = Some h -> vert = None -> quad = Some q -> domain_degree_args extruded degree hori vert quad = Degrees (Some h) None q).
Proof.
  intros extruded degree hori vert quad [[k [-> [-> ->]]] | [[-> [-> [h [v [-> ->]]]]] | [-> [-> [-> [h ->]]]]]]; (split; [|split]); intros; try discriminate;
    repeat match goal with H : Some _ = Some _ |- _ => injection H as H end; subst; unfold domain_degree_args; destruct extruded || idtac; cbn; destruct quad || idtac; try rewrite Nat.max_id; reflexivity.
Qed.
(** ... but horizontal_degree alone on a mesh that is not extruded, a documented way, fails unless
    max_quad_degree is also given *)
Theorem horizontal_degree_refuted : forall h, documented false None (Some h) None /\ domain_degree_args false None (Some h) None None = MaxTypeError.
Proof. intros h. split; [|reflexivity]. right. right. eauto 10. Qed.

(** ** The container (C62) *)
Lemma ok_inj : forall A (a b : A), Ok a = Ok b -> a = b.
Proof. intros. congruence. Qed.
Section Container.
Variable space : Type.
Notation cont := (container space).
(** add_space replaces an existing space only if told so *)
Theorem add_space_keeps : forall (c c' : cont) name s overwrite k g, add_space c name s overwrite k g = Ok c' ->
  c_attr c' name = Some s /\ forall m old, c_attr c m = Some old -> c_attr c' m = Some old \/ (m = name /\ overwrite = true).
Proof.
  intros c c' name s ow k g H. unfold add_space in H.
  assert (E : c_attr c' = put_attr (c_attr c) name s) by (destruct (c_attr c name), ow; inversion H; reflexivity).
  rewrite E. unfold put_attr. split; [rewrite String.eqb_refl; reflexivity|]. intros m old Hm. destruct (String.eqb_spec m name) as [->|Ne]; [|left; auto].
  rewrite Hm in H. destruct ow; [right; auto|discriminate].
Qed.
(** ... and refuses exactly if the name is taken and overwriting is not requested *)
Theorem add_space_raises : forall (c : cont) name s overwrite k g, is_err (add_space c name s overwrite k g) <-> (c_attr c name <> None /\ overwrite = false).
Proof.
  intros. unfold add_space, is_err. destruct (c_attr c name), overwrite; split; intros H; try (destruct H as [e H]; discriminate); try (destruct H as [H1 H2]; congruence); auto.
  - split; [discriminate|auto]. - eauto.
Qed.

(** names *)
Lemma decimal_inj : forall a b, decimal a = decimal b -> a = b.
Proof.
  intros a b H. unfold decimal in H. apply (f_equal NilEmpty.uint_of_string) in H. rewrite !NilEmpty.usu in H. inversion H as [H'].
  apply (f_equal Nat.of_uint) in H'. rewrite !Unsigned.of_to in H'. auto.
Qed.
Fixpoint no_us (s : string) : bool := match s with EmptyString => true | String a r => negb (Ascii.eqb a "_") && no_us r end.
Lemma uint_no_us : forall u, no_us (NilEmpty.string_of_uint u) = true.
Proof. induction u; simpl; auto. Qed.
Lemma decimal_nonempty : forall n, decimal n <> "".
Proof.
  intros n H. unfold decimal in H. destruct (Nat.to_uint n) eqn:E; cbn in H; try discriminate. 
  assert (n = 0) by (rewrite <- (Unsigned.of_to n), E; reflexivity). subst. discriminate.
Qed.
Lemma us_split : forall a a' b b', no_us a = true -> no_us a' = true -> a ++ "_" ++ b = a' ++ "_" ++ b' -> a = a' /\ b = b'.
Proof.
  induction a as [|x a IH]; intros [|y a'] b b' Ha Ha' H; cbn in *.
  - inversion H. auto.
  - inversion H; subst. cbn in Ha'. discriminate.
  - inversion H; subst. cbn in Ha. discriminate.
  - apply andb_true_iff in Ha as [_ Ha]. apply andb_true_iff in Ha' as [_ Ha']. inversion H; subst. destruct (IH a' b b' Ha Ha' H2) as [-> ->]. auto.
Qed.
Lemma us_absent : forall a a' b, no_us a' = true -> a ++ "_" ++ b <> a'.
Proof.
  induction a as [|x a IH]; intros [|y a'] b Ha' H; cbn in *; try discriminate.
  - inversion H; subst. cbn in Ha'. discriminate.
  - inversion H; subst. apply andb_true_iff in Ha' as [_ Ha']. eapply IH; eauto.
Qed.
Definition sfx (h v : nat) : string := if Nat.eqb h v then decimal h else decimal h ++ "_" ++ decimal v.
Lemma sfx_inj : forall h v h' v', sfx h v = sfx h' v' -> h = h' /\ v = v'.
Proof.
  intros h v h' v' H. unfold sfx in H. destruct (Nat.eqb_spec h v), (Nat.eqb_spec h' v'); subst.
  - apply decimal_inj in H. auto.
  - exfalso. symmetry in H. eapply us_absent; [|exact H]. apply uint_no_us.
  - exfalso. eapply us_absent; [|exact H]. apply uint_no_us.
  - apply us_split in H as [H1 H2]; [|apply uint_no_us|apply uint_no_us]. apply decimal_inj in H1, H2. auto.
Qed.
Lemma sfx_nonempty : forall h v, sfx h v <> "".
Proof. intros h v H. unfold sfx in H. destruct (Nat.eqb h v); [eapply decimal_nonempty; eauto|]. destruct (decimal h); discriminate. Qed.
Definition prefixes := ["H1"; "HCurl"; "HDiv"; "L2"; "DG"; "theta"].
Lemma prefix_inj : forall p p' n n', In p prefixes -> In p' prefixes -> p ++ n = p' ++ n' -> n = n'.
Proof.
  intros p p' n n' H H' E. cbn in H, H'.
  repeat (destruct H as [<-|H]; [repeat (destruct H' as [<-|H']; [cbn in E; congruence|]); contradiction|]). contradiction.
Qed.
(** containers reached by building complexes with default names and both degrees *)
Inductive default_builds : cont -> Prop :=
| db_nil : default_builds empty_container
| db_build : forall c h v x c', default_builds c -> build_compatible_spaces c h (Some v) None x = Ok c' -> default_builds c'.
Lemma build_attr : forall (c c' : cont) h v cn x m s, build_compatible_spaces c h v cn x = Ok c' -> c_attr c' m = Some s ->
  c_attr c m = Some s \/ exists p, In p prefixes /\ m = p ++ suffix c h v cn.
Proof.
  intros c c' h v cn x m s H Hm. unfold build_compatible_spaces in H. destruct (existsb _ _); [discriminate|]. apply ok_inj in H. subst c'. cbn [c_attr] in Hm.
  assert (P : forall (f : string -> option space) p t, In p prefixes -> put_attr f (p ++ suffix c h v cn) t m = Some s -> f m = Some s \/ exists p, In p prefixes /\ m = p ++ suffix c h v cn).
  { intros f p t Hp Q. unfold put_attr in Q. destruct (String.eqb_spec m (p ++ suffix c h v cn)); [right; eauto|left; auto]. }
  assert (B : forall f : string -> option space, put_attr (put_attr (put_attr (put_attr (put_attr f ("H1" ++ suffix c h v cn) (x_h1 x)) ("HCurl" ++ suffix c h v cn) (x_hcurl x)) ("HDiv" ++ suffix c h v cn) (x_hdiv x))
                  ("L2" ++ suffix c h v cn) (x_l2 x)) ("DG" ++ suffix c h v cn) (x_l2 x) m = Some s -> f m = Some s \/ exists p, In p prefixes /\ m = p ++ suffix c h v cn).
  { intros f Q. repeat (apply P in Q as [Q|Q]; [|right; exact Q|cbn; tauto]). left. exact Q. }
  destruct (x_theta x); [apply P in Hm as [Hm|Hm]; [apply B; exact Hm|right; exact Hm|cbn; tauto]|apply B; exact Hm].
Qed.
Lemma build_keeps : forall (c c' : cont) h v cn x m, build_compatible_spaces c h v cn x = Ok c' -> (forall p, In p prefixes -> m <> p ++ suffix c h v cn) -> c_attr c' m = c_attr c m.
Proof.
  intros c c' h v cn x m H Hm. unfold build_compatible_spaces in H. destruct (existsb _ _); [discriminate|]. apply ok_inj in H. subst c'. cbn [c_attr].
  assert (P : forall (f : string -> option space) p t, In p prefixes -> put_attr f (p ++ suffix c h v cn) t m = f m).
  { intros f p t Hp. unfold put_attr. destruct (String.eqb_spec m (p ++ suffix c h v cn)); [exfalso; eapply Hm; eauto|auto]. }
  destruct (x_theta x); rewrite !P by (cbn; tauto); reflexivity.
Qed.
Lemma build_complexes : forall (c c' : cont) h v cn x, build_compatible_spaces c h v cn x = Ok c' -> c_complexes c' = (c_complexes c ++ [(h, v)])%list /\ ~ In (h, v) (c_complexes c).
Proof.
  intros c c' h v cn x H. unfold build_compatible_spaces in H. destruct (existsb _ _) eqn:E; [discriminate|]. apply ok_inj in H. subst c'. split; [reflexivity|]. cbn [c_complexes].
  intros Hin. assert (existsb (key_eqb (h, v)) (c_complexes c) = true); [|congruence]. apply existsb_exists. exists (h, v). split; auto. unfold key_eqb. cbn. rewrite Nat.eqb_refl. destruct v; cbn; auto. apply Nat.eqb_refl.
Qed.
Lemma default_inv : forall c, default_builds c ->
  (c_complexes c = [] -> forall m, c_attr c m = None) /\
  (forall m s, c_attr c m = Some s -> exists p n, In p prefixes /\ m = p ++ n /\ (n = "" \/ exists h v, In (h, Some v) (c_complexes c) /\ n = sfx h v)) /\
  (forall k, In k (c_complexes c) -> exists h v, k = (h, Some v)).
Proof.
  intros c H. induction H as [|c h v x c' Hc [I1 [I2 I3]] Hb]; [cbn; intuition; discriminate|].
  pose proof (build_complexes _ _ _ _ _ _ Hb) as [E Hni]. split; [|split].
  - rewrite E. intros Q. destruct (c_complexes c); discriminate.
  - intros m s Hm. rewrite E. destruct (build_attr _ _ _ _ _ _ _ _ Hb Hm) as [Hm'|[p [Hp ->]]].
    + destruct (I2 m s Hm') as [p [n [Hp [-> Hn]]]]. exists p, n. split; [auto|]. split; [auto|]. destruct Hn as [Hn|[h' [v' [Hin Hn]]]]; [left; auto|]. right. exists h', v'. rewrite in_app_iff. auto.
    + exists p, (suffix c h (Some v) None). split; [auto|]. split; [auto|]. unfold suffix. destruct (c_complexes c); [left; auto|]. right. exists h, v. rewrite in_app_iff. split; [right; left; auto|reflexivity].
  - rewrite E. intros k Hk. apply in_app_or in Hk as [Hk|[<-|[]]]; eauto.
Qed.
(** building further complexes with default names never replaces a space, on any history of such
    builds (a degree is refused the second time) *)
Theorem default_builds_keep_partial : forall c h v x c', default_builds c -> build_compatible_spaces c h (Some v) None x = Ok c' ->
  forall m s, c_attr c m = Some s -> c_attr c' m = Some s.
Proof.
  intros c h v x c' Hc Hb m s Hm. rewrite (build_keeps _ _ _ _ _ _ m Hb); auto. intros p Hp E.
  destruct (default_inv c Hc) as [I1 [I2 I3]]. destruct (I2 m s Hm) as [p' [n [Hp' [E' Hn]]]]. rewrite E in E'. apply prefix_inj in E'; auto. subst n.
  unfold suffix in Hn. destruct (c_complexes c) as [|k ks] eqn:Ec; [rewrite I1 in Hm by auto; discriminate|].
  fold (sfx h v) in Hn. destruct Hn as [Hn|[h' [v' [Hin Hn]]]]; [exact (sfx_nonempty h v Hn)|]. apply sfx_inj in Hn as [-> ->].
  apply build_complexes in Hb as [_ Hb]. apply Hb. rewrite Ec. exact Hin.
Qed.
(** ... but it silently replaces a space the user added before, *)
Theorem build_replaces_added_refuted : forall (x x1 : complex space) (mine : space), mine <> x_l2 x1 ->
  exists c1 c2 c3, build_compatible_spaces empty_container 0 (Some 0) None x = Ok c1 /\ add_space c1 "DG1" mine false None false = Ok c2 /\
    build_compatible_spaces c2 1 (Some 1) None x1 = Ok c3 /\ c_attr c2 "DG1" = Some mine /\ c_attr c3 "DG1" = Some (x_l2 x1).
Proof.
  intros [a1 a2 a3 a4 t a5] [b1 b2 b3 b4 t' b5] mine Hne. destruct t, t';
    (eexists; eexists; eexists; split; [reflexivity|]; split; [reflexivity|]; split; [reflexivity|]; split; reflexivity).
Qed.
(** ... and the complex of degree (k, k) is replaced by the one of degree k *)
Theorem build_same_degree_refuted : forall (x x1 x2 : complex space),
  exists c1 c2 c3, build_compatible_spaces empty_container 0 (Some 0) None x = Ok c1 /\ build_compatible_spaces c1 1 (Some 1) None x1 = Ok c2 /\
    build_compatible_spaces c2 1 None None x2 = Ok c3 /\ c_attr c2 "HDiv1" = Some (x_hdiv x1) /\ c_attr c3 "HDiv1" = Some (x_hdiv x2).
Proof.
  intros [a1 a2 a3 a4 t a5] [b1 b2 b3 b4 t' b5] [e1 e2 e3 e4 t'' e5]. destruct t, t', t'';
    (eexists; eexists; eexists; split; [reflexivity|]; split; [reflexivity|]; split; [reflexivity|]; split; reflexivity).
Qed.
(** the continuity of HDiv, L2 and theta is recorded, that of H1 and HCurl never is *)
Theorem continuity_recorded_partial : forall (c c' : cont) h v cn x, build_compatible_spaces c h v cn x = Ok c' ->
  c_cont c' ("HDiv" ++ suffix c h v cn) = x_cont x "HDiv" /\ c_cont c' ("L2" ++ suffix c h v cn) = x_cont x "L2" /\
  (x_theta x <> None -> c_cont c' ("theta" ++ suffix c h v cn) = x_cont x "theta").
Proof.
  intros c c' h v cn x H. unfold build_compatible_spaces in H. destruct (existsb _ _); [discriminate|]. apply ok_inj in H. subst c'. cbn [c_cont].
  set (n := suffix c h v cn). cbn [fold_left complex_attr String.eqb Ascii.eqb Bool.eqb orb andb].
  assert (E : forall s, String.eqb s s = true) by apply String.eqb_refl.
  assert (D : forall p q, In p ["HDiv"; "L2"; "theta"] -> In q ["HDiv"; "L2"; "theta"] -> p <> q -> String.eqb (p ++ n) (q ++ n) = false).
  { intros p q Hp Hq Hne. cbn in Hp, Hq. destruct Hp as [<-|[<-|[<-|[]]]], Hq as [<-|[<-|[<-|[]]]]; try congruence; reflexivity. }
  destruct (x_theta x) eqn:Et; cbn [is_none negb];
    rewrite ?E, ?(D "HDiv" "L2"), ?(D "HDiv" "theta"), ?(D "L2" "theta"), ?(D "L2" "HDiv") by (cbn; auto; discriminate).
  - auto. - split; [auto|]. split; [auto|]. congruence.
Qed.
Theorem continuity_h1_refuted : forall (c c' : cont) h v cn x, build_compatible_spaces c h v cn x = Ok c' ->
  forall p, p = "H1" \/ p = "HCurl" \/ p = "DG" -> c_cont c' (p ++ suffix c h v cn) = c_cont c (p ++ suffix c h v cn).
Proof.
  intros c c' h v cn x H p Hp. unfold build_compatible_spaces in H. destruct (existsb _ _); [discriminate|]. apply ok_inj in H. subst c'. cbn [c_cont].
  set (n := suffix c h v cn). cbn [fold_left complex_attr String.eqb Ascii.eqb Bool.eqb orb andb].
  destruct Hp as [-> | [-> | ->]]; destruct (x_theta x); reflexivity.
Qed.
End Container.

(** ** The complexes are compatible (C77).  Exactness of H1 -> HDiv -> L2 (or HCurl) on a cell, with the
    constants as the only kernel of the first map, forces the alternating sum of the dimensions to be
    1; this is the check below. *)
Definition dim_Z (c : cell) (e : elt) : Z := Z.of_nat (dim c e).
Lemma tri_dbl : forall n, (2 * Z.of_nat (tri n) = Z.of_nat n * (Z.of_nat n + 1))%Z.
Proof.
  intros n. unfold tri. assert (E : (n * (n + 1)) mod 2 = 0).
  { induction n; [reflexivity|]. replace (S n * (S n + 1)) with (n * (n + 1) + (n + 1) * 2) by ring. rewrite Nat.mod_add by lia. exact IHn. }
  pose proof (Nat.div_mod (n * (n + 1)) 2 ltac:(lia)) as H. rewrite E in H. nia.
Qed.
(** the horizontal complexes of all implemented families, for every degree: H1 - HDiv + L2 = 1 and
    H1 - HCurl + L2 = 1 (BDMCF only for degree 0, BDFM has no HCurl) *)
Definition cellwise_exact (c : cell) (h1 mid l2 : elt) : Prop := (dim_Z c h1 - dim_Z c mid + dim_Z c l2 = 1)%Z.
Theorem complex_exact_partial : forall f k c b, family_cell f = Some c -> c <> Interval -> base_horizontal f k = Some b ->
  ((f = BDMCF \/ f = BDMCE) -> k = 0) ->
  cellwise_exact c (b_cg b) (b_hdiv b) (b_dg b) /\ (forall e, b_hcurl b = Some e -> cellwise_exact c (b_cg b) e (b_dg b)).
Proof.
  intros f k c b Hc Hni Hb Hk. unfold cellwise_exact, dim_Z.
  pose proof (tri_dbl (k + 1)) as T1. pose proof (tri_dbl (k + 1 + 1)) as T2. pose proof (tri_dbl (k + 2 + 1)) as T3. pose proof (tri_dbl (k + 2 - 2)) as T4. pose proof (tri_dbl (k + 1 - 2)) as T5.
  unfold base_horizontal in Hb.
  destruct f; cbn in Hc; inversion Hc; subst; try congruence; cbn in Hb; inversion Hb; subst; clear Hb Hc; cbn [b_cg b_hdiv b_dg b_hcurl dim]; (split; [|intros e He; inversion He; subst; cbn [dim]]);
    try (rewrite Hk by auto; reflexivity); try (rewrite ?Nat2Z.inj_mul, ?Nat2Z.inj_add in *; cbn [Z.of_nat Pos.of_succ_nat Pos.succ] in *; lia).
  destruct k as [|k]; [reflexivity|]. replace (S k + 1 - 2) with k in * by lia. replace (S k + 2 - 2) with (S k) in * by lia.
  assert (T6 : tri k <= tri (S k)) by (unfold tri; apply Nat.div_le_mono; [lia|]; apply Nat.mul_le_mono; lia).
  assert (T7 : 3 <= (S k + 1 + 1) * (S k + 1 + 2)) by (apply (Nat.mul_le_mono 1 _ 3 _); lia).
  rewrite Nat2Z.inj_sub by exact T7. rewrite Nat2Z.inj_add, (Nat2Z.inj_sub _ _ T6).
  rewrite ?Nat2Z.inj_mul, ?Nat2Z.inj_add, ?Nat2Z.inj_succ in *; cbn [Z.of_nat Pos.of_succ_nat Pos.succ] in *; lia.
Qed.
(** the BDMCF and BDMCE complexes are not, for any degree of at least 1: their L2 space is the
    tensor-product space, larger than the divergences of BDMCF *)
Theorem bdmcf_exact_refuted : forall f k b, f = BDMCF \/ f = BDMCE -> 0 < k -> base_horizontal f k = Some b ->
  ~ cellwise_exact Quadrilateral (b_cg b) (b_hdiv b) (b_dg b).
Proof.
  intros f k b Hf Hk Hb. pose proof (tri_dbl (k + 2 + 1)) as T. unfold cellwise_exact, dim_Z.
  destruct Hf as [-> | ->]; cbn in Hb; inversion Hb; subst; cbn [b_cg b_hdiv b_dg dim]; nia.
Qed.
(** extruded meshes: H1 - HCurl + HDiv - L2 = 1 for horizontal cells of dimension 2, and for every
    family the theta space is the vertical part of HDiv *)
Definition extruded_exact (d : ext_dims) : Prop := forall hc, d_hcurl d = Some hc -> (Z.of_nat (d_h1 d) - Z.of_nat hc + Z.of_nat (d_hdiv d) - Z.of_nat (d_l2 d) = 1)%Z.
Theorem extruded_complex_exact_partial : forall f k v c b, family_cell f = Some c -> c <> Interval -> base_horizontal f k = Some b ->
  ((f = BDMCF \/ f = BDMCE) -> k = 0) -> extruded_exact (extruded_dims c b v).
Proof.
  intros f k v c b Hc Hni Hb Hk hc He. destruct (complex_exact_partial f k c b Hc Hni Hb Hk) as [E1 E2]. unfold extruded_dims in *. cbn [d_h1 d_hcurl d_hdiv d_l2] in *.
  destruct (b_hcurl b) as [e|]; [|discriminate]. inversion He; subst; clear He. specialize (E2 e eq_refl). unfold cellwise_exact, dim_Z in *.
  cbn [dim]. nia.
Qed.
(** vertical slices (horizontal interval, family CG): H1 -> HDiv -> L2 is exact, *)
Theorem slice_hdiv_exact : forall k v b, base_horizontal CG k = Some b -> let d := extruded_dims Interval b v in
  (Z.of_nat (d_h1 d) - Z.of_nat (d_hdiv d) + Z.of_nat (d_l2 d) = 1)%Z.
Proof. intros k v b Hb. cbn in Hb. inversion Hb; subst; clear Hb. cbn. nia. Qed.
(** ... H1 -> HCurl -> L2 is not, for any degrees: the horizontal part of HCurl has a degree one too high *)
Theorem slice_hcurl_exact_refuted : forall k v b hc, base_horizontal CG k = Some b -> let d := extruded_dims Interval b v in d_hcurl d = Some hc ->
  (Z.of_nat (d_h1 d) - Z.of_nat hc + Z.of_nat (d_l2 d) = 1 - (Z.of_nat v + 2))%Z.
Proof. intros k v b hc Hb d H. cbn in Hb. inversion Hb; subst; clear Hb. subst d. cbn [extruded_dims d_h1 d_hcurl d_l2 b_cg b_dg b_hcurl dim] in *. injection H as <-. rewrite ?Nat2Z.inj_add, ?Nat2Z.inj_mul, ?Nat2Z.inj_add. cbn [Z.of_nat Pos.of_succ_nat Pos.succ]. ring. Qed.
(** every family named as implemented except 'DG' has a complex, for all degrees *)
Theorem families_supported : forall f k, (exists b, base_horizontal f k = Some b) <-> f <> DG.
Proof. intros f k. destruct f; split; intros H; try congruence; try (eexists; reflexivity); try discriminate. destruct H as [b H]. discriminate. Qed.

(** Instances *)
Example degree_example : check_degree_args true (Some 1) None None = None /\ check_degree_args true (Some 1) None (Some 2) = Some BothDegreeAndVertical.
Proof. split; reflexivity. Qed.
Example default_example : forall (x1 x2 : complex nat), exists c1 c2, build_compatible_spaces empty_container 0 (Some 1) None x1 = Ok c1 /\ default_builds nat c1 /\
  build_compatible_spaces c1 1 (Some 2) None x2 = Ok c2 /\ c_attr c2 "L21_2" = Some (x_l2 x2) /\ c_attr c2 "L2" = Some (x_l2 x1).
Proof.
  intros [a1 a2 a3 a4 t a5] [b1 b2 b3 b4 t' b5]. destruct t, t';
    (eexists; eexists; split; [reflexivity|]; split; [eapply db_build; [apply db_nil|reflexivity]|]; split; [reflexivity|]; split; reflexivity).
Qed.
Example rt_dims : dim Triangle (El RT 2) = 8 /\ dim Triangle (El CG 2) = 6 /\ dim Triangle (El DG 1) = 3 /\ dim Quadrilateral (El BDMCF 2) = 14 /\ dim Triangle (CGBubble 2 3) = 7 /\ dim Triangle (El BDFM 2) = 9.
Proof. repeat split; reflexivity. Qed.
Print Assumptions default_builds_keep_partial.
Print Assumptions complex_exact_partial.
Print Assumptions extruded_complex_exact_partial.

(** the theta space is the vertical part of HDiv: together with the horizontal part, of which there is one copy per node of
    the vertical DG space, it makes up HDiv; it has one more node per column than L2 *)
Theorem theta_space_is_vertical_velocity : forall c b v, let d := extruded_dims c b v in
  d_hdiv d = dim c (b_hdiv b) * (v + 1) + d_theta d /\ d_theta d = d_l2 d + dim c (b_dg b).
Proof. intros c b v d. subst d. unfold extruded_dims. cbn [d_hdiv d_theta d_l2 dim]. split; nia. Qed.
Print Assumptions theta_space_is_vertical_velocity.

(** Theorems about the constructors of the time steppers (StepperSetup.v).  C140. *)
From Coq Require Import Reals Lra.
From Verif Require Import Base Vec.
From Coq Require Import String.
From Verif Require Terms Siqn.
From Verif Require Import StepperSetup.
Import Terms (target(..), lterm(..), setup_terms).
Close Scope Q_scope.
Close Scope R_scope.
Open Scope nat_scope.
Open Scope string_scope.

(** ** Specification *)
(** the variable [v] of the equation has a spatial method of kind [l] *)
Definition discretised (l : mlabel) (names : list string) (ms : list smethod) (v : string) : Prop :=
  In v names /\ exists m, In m ms /\ m_variable m = v /\ m_label m = l.
Definition single_field_scheme (l : mlabel) names ms (s : scheme) : Prop :=
  s_nlevels s = 1%nat /\ exists v, s_field s = OneField v /\ discretised l names ms v.
Definition several_fields_scheme (l : mlabel) names ms (s : scheme) : Prop :=
  s_nlevels s = 1%nat /\ exists vs, s_field s = FieldList vs /\ forall v, In v vs -> discretised l names ms v.
Definition known_prognostics (names : list string) (user : option (list string)) : Prop :=
  forall l, user = Some l -> incl l names.
Definition metric_ready (cm : bool) (names : list string) (trs : list scheme) : Prop :=
  cm = true -> In "theta" names /\ In "z" names /\ exists s rest, trs = s :: rest /\ s_field s = OneField "z".
Definition physics_scheme_allowed (p : param) (s : scheme) : Prop :=
  s_nlevels s = 1%nat /\ (p_explicit_only p = Some true -> s_explicit s = true).

(** ** Lemmas *)
Lemma mem_In : forall x l, mem x l = true <-> In x l.
Proof.
  intros x l. unfold mem. rewrite existsb_exists. split.
  - intros (y & H1 & H2). apply String.eqb_eq in H2. subst; auto.
  - intros H. exists x. split; [auto|apply String.eqb_refl].
Qed.
Lemma check_ok : forall b e u, check b e = Ok u <-> b = true.
Proof. intros b e []. unfold check. destruct b; split; intros; try discriminate; auto. Qed.
Lemma check_err : forall b e e', check b e = Err e' -> e' = e.
Proof. intros b e e'. unfold check. destruct b; intros H; [discriminate|injection H; auto]. Qed.
Lemma check_all_ok : forall {A} (f : A -> res unit) l u, check_all f l = Ok u <-> forall x, In x l -> f x = Ok tt.
Proof.
  intros A f l []. induction l as [|a l IH]; simpl; [split; [intros _ x []|reflexivity]|].
  destruct (f a) as [[]|e] eqn:E; simpl.
  - rewrite IH. split; [intros H x [<-|Hx]; auto|intros H x Hx; auto].
  - split; [discriminate|]. intros H. rewrite (H a (or_introl eq_refl)) in E. discriminate.
Qed.
Lemma check_all_err : forall {A} (f : A -> res unit) l e, check_all f l = Err e -> exists x, In x l /\ f x = Err e.
Proof.
  intros A f l e. induction l as [|a l IH]; simpl; [discriminate|].
  destruct (f a) as [[]|e'] eqn:E; simpl.
  - intros H. destruct (IH H) as (x & H1 & H2). exists x; auto.
  - intros H; injection H as ->. exists a; auto.
Qed.
Lemma mlabel_eqb_eq : forall a b, mlabel_eqb a b = true <-> a = b.
Proof. intros [] []; simpl; split; intros; try discriminate; auto. Qed.
Lemma methods_for_In : forall l v ms m, In m (methods_for l v ms) <-> In m ms /\ m_variable m = v /\ m_label m = l.
Proof.
  intros l v ms m. unfold methods_for. rewrite filter_In, andb_true_iff, String.eqb_eq, mlabel_eqb_eq.
  split; intros (H1 & H2 & H3); auto.
Qed.
Lemma has_method_spec : forall l v ms, has_method l v ms = true <-> exists m, In m ms /\ m_variable m = v /\ m_label m = l.
Proof.
  intros l v ms. unfold has_method. destruct (methods_for l v ms) as [|m k] eqn:E.
  - split; [discriminate|]. intros (m & H). apply methods_for_In in H. rewrite E in H. destruct H.
  - split; [|reflexivity]. intros _. exists m. apply methods_for_In. rewrite E. left; reflexivity.
Qed.
Lemma solver_split_ok : forall names ts user, (exists p, solver_split names ts user = Ok p) <-> known_prognostics names user.
Proof.
  intros names ts [sp|]; unfold solver_split, known_prognostics.
  - destruct (check_all (fun p => check (mem p names) AssertionError) sp) as [[]|e] eqn:E; cbn [bind].
    + split; [|eexists; reflexivity]. intros _ l Hl; injection Hl as <-. intros x Hx.
      apply mem_In. apply check_ok with AssertionError tt. exact (proj1 (check_all_ok _ _ tt) E x Hx).
    + split; [intros (p & H); discriminate|]. intros H. exfalso.
      destruct (check_all_err _ _ _ E) as (x & Hx & Ex).
      assert (mem x names = true) as Hm by (apply mem_In; exact (H sp eq_refl x Hx)). rewrite Hm in Ex. discriminate.
  - split; [discriminate|]. intros _. destruct ts; eexists; reflexivity.
Qed.
Lemma metric_ok : forall cm names trs u, metric_check cm names trs = Ok u <-> metric_ready cm names trs.
Proof.
  intros cm names trs []. unfold metric_check, metric_ready. destruct cm; [|split; auto; discriminate].
  destruct (mem "theta" names) eqn:E1; cbn [check bind].
  2:{ split; [discriminate|]. intros H. destruct (H eq_refl) as (H1 & _). apply mem_In in H1. congruence. }
  destruct (mem "z" names) eqn:E2; cbn [check bind].
  2:{ split; [discriminate|]. intros H. destruct (H eq_refl) as (_ & H1 & _). apply mem_In in H1. congruence. }
  apply mem_In in E1. apply mem_In in E2. destruct trs as [|s rest].
  - split; [discriminate|]. intros H. destruct (H eq_refl) as (_ & _ & s & r & H1 & _). discriminate.
  - split.
    + intros H _. destruct (s_field s) as [|f|fs] eqn:F; try discriminate. apply check_ok in H. apply String.eqb_eq in H. subst f.
      repeat split; auto. exists s, rest; auto.
    + intros H. destruct (H eq_refl) as (_ & _ & s' & r & H1 & H2). injection H1 as -> ->. rewrite H2. reflexivity.
Qed.
Definition transport_scheme_ok names ms s := single_field_scheme MTransport names ms s \/ several_fields_scheme MTransport names ms s.
Lemma siqn_transport_ok : forall names ms s, (exists e, siqn_transport names ms s = Ok e) <-> transport_scheme_ok names ms s.
Proof.
  intros names ms s. unfold siqn_transport, transport_scheme_ok, single_field_scheme, several_fields_scheme, discretised.
  destruct (Nat.eqb (s_nlevels s) 1) eqn:N; cbn [check bind].
  2:{ apply Nat.eqb_neq in N. split; [intros (e & H); discriminate|intros [[H _]|[H _]]; contradiction]. }
  apply Nat.eqb_eq in N. destruct (s_field s) as [|f|fs] eqn:F.
  - split; [intros (e & H); discriminate|intros [(_ & v & H & _)|(_ & v & H & _)]; discriminate].
  - destruct (mem f names) eqn:M; cbn [check bind].
    2:{ split; [intros (e & H); discriminate|]. intros [(_ & v & H & H1 & _)|(_ & v & H & _)]; [|discriminate].
        injection H as <-. apply mem_In in H1. congruence. }
    destruct (has_method MTransport f ms) eqn:K; cbn [check bind].
    2:{ split; [intros (e & H); discriminate|]. intros [(_ & v & H & _ & H1)|(_ & v & H & _)]; [|discriminate].
        injection H as <-. apply has_method_spec in H1. congruence. }
    split; [|eexists; reflexivity]. intros _. left. split; auto. exists f. split; auto. split; [apply mem_In; auto|apply has_method_spec; auto].
  - set (ck := fun f => do _ <- check (mem f names) AssertionError; check (has_method MTransport f ms) AssertionError).
    assert (forall f, ck f = Ok tt <-> In f names /\ exists m, In m ms /\ m_variable m = f /\ m_label m = MTransport) as Hck.
    { intros f. unfold ck. rewrite <- has_method_spec, <- mem_In. destruct (mem f names); cbn [check bind].
      - rewrite check_ok. tauto.
      - split; [discriminate|intros [H _]; discriminate]. }
    destruct (check_all ck fs) as [[]|e] eqn:E; cbn [bind].
    + split; [|eexists; reflexivity]. intros _. right. split; auto. exists fs. split; auto. intros v Hv.
      apply Hck. exact (proj1 (check_all_ok _ _ tt) E v Hv).
    + split; [intros (x & H); discriminate|]. intros [(_ & v & H & _)|(_ & vs & H & Hv)]; [discriminate|]. injection H as <-.
      assert (check_all ck fs = Ok tt) as H by (apply check_all_ok; intros f Hf; apply Hck, Hv, Hf). congruence.
Qed.
Lemma siqn_transports_ok : forall names ms l, (exists e, siqn_transports names ms l = Ok e) <-> forall s, In s l -> transport_scheme_ok names ms s.
Proof.
  intros names ms. induction l as [|s l IH]; cbn [siqn_transports]; [split; [intros _ s []|eexists; reflexivity]|].
  pose proof (siqn_transport_ok names ms s) as H. destruct (siqn_transport names ms s) as [e|e] eqn:E; cbn [bind].
  - destruct (siqn_transports names ms l) as [k|k] eqn:E2; cbn [bind].
    + split; [|eexists; reflexivity]. intros _ x [<-|Hx]; [apply H; eexists; reflexivity|].
      apply (proj1 IH); [eexists; reflexivity|auto].
    + split; [intros (x & Hx); discriminate|]. intros Hs. destruct (proj2 IH) as (x & Hx); [intros x Hx; apply Hs; right; auto|discriminate].
  - split; [intros (x & Hx); discriminate|]. intros Hs. destruct (proj2 H (Hs s (or_introl eq_refl))) as (x & Hx). discriminate.
Qed.
Lemma tr_transport_ok : forall names ms s, (exists e, tr_transport names ms s = Ok e) <-> single_field_scheme MTransport names ms s.
Proof.
  intros names ms s. unfold tr_transport, single_field_scheme, discretised.
  destruct (Nat.eqb (s_nlevels s) 1) eqn:N; cbn [check bind].
  2:{ apply Nat.eqb_neq in N. split; [intros (e & H); discriminate|intros [H _]; contradiction]. }
  apply Nat.eqb_eq in N. destruct (s_field s) as [|f|fs] eqn:F;
    [split; [intros (e & H); discriminate|intros (_ & v & H & _); discriminate]| |split; [intros (e & H); discriminate|intros (_ & v & H & _); discriminate]].
  destruct (mem f names) eqn:M; cbn [check bind].
  2:{ split; [intros (e & H); discriminate|]. intros (_ & v & H & H1 & _). injection H as <-. apply mem_In in H1. congruence. }
  destruct (has_method MTransport f ms) eqn:K; cbn [check bind].
  2:{ split; [intros (e & H); discriminate|]. intros (_ & v & H & _ & H1). injection H as <-. apply has_method_spec in H1. congruence. }
  split; [|eexists; reflexivity]. intros _. split; auto. exists f. split; auto. split; [apply mem_In; auto|apply has_method_spec; auto].
Qed.
Lemma tr_transports_ok : forall names ms l, (exists e, tr_transports names ms l = Ok e) <-> forall s, In s l -> single_field_scheme MTransport names ms s.
Proof.
  intros names ms. induction l as [|s l IH]; cbn [tr_transports]; [split; [intros _ s []|eexists; reflexivity]|].
  pose proof (tr_transport_ok names ms s) as H. destruct (tr_transport names ms s) as [e|e] eqn:E; cbn [bind].
  - destruct (tr_transports names ms l) as [k|k] eqn:E2; cbn [bind].
    + split; [|eexists; reflexivity]. intros _ x [<-|Hx]; [apply H; eexists; reflexivity|].
      apply (proj1 IH); [eexists; reflexivity|auto].
    + split; [intros (x & Hx); discriminate|]. intros Hs. destruct (proj2 IH) as (x & Hx); [intros x Hx; apply Hs; right; auto|discriminate].
  - split; [intros (x & Hx); discriminate|]. intros Hs. destruct (proj2 H (Hs s (or_introl eq_refl))) as (x & Hx). discriminate.
Qed.
Lemma physics_ok : forall ps, physics_check ps = Ok tt <-> physics_scheme_allowed (fst ps) (snd ps).
Proof.
  intros [p s]. unfold physics_check, physics_scheme_allowed; simpl.
  destruct (Nat.eqb (s_nlevels s) 1) eqn:N; cbn [check bind].
  2:{ apply Nat.eqb_neq in N. split; [discriminate|intros [H _]; contradiction]. }
  apply Nat.eqb_eq in N. destruct (p_explicit_only p) as [[]|].
  - rewrite check_ok. split; [auto|intros [_ H]; auto].
  - split; [intros _; split; [auto|discriminate]|auto].
  - split; [intros _; split; [auto|discriminate]|auto].
Qed.
Lemma diffusion_ok : forall names ms s, diffusion_check names ms s = Ok tt <-> single_field_scheme MDiffusion names ms s.
Proof.
  intros names ms s. unfold diffusion_check, single_field_scheme, discretised.
  destruct (Nat.eqb (s_nlevels s) 1) eqn:N; cbn [check bind].
  2:{ apply Nat.eqb_neq in N. split; [discriminate|intros [H _]; contradiction]. }
  apply Nat.eqb_eq in N. destruct (s_field s) as [|f|fs] eqn:F;
    [split; [discriminate|intros (_ & v & H & _); discriminate]| |split; [discriminate|intros (_ & v & H & _); discriminate]].
  destruct (mem f names) eqn:M; cbn [check bind].
  2:{ split; [discriminate|]. intros (_ & v & H & H1 & _). injection H as <-. apply mem_In in H1. congruence. }
  rewrite check_ok, has_method_spec. split.
  - intros H. split; auto. exists f. split; auto. split; [apply mem_In|]; auto.
  - intros (_ & v & H & _ & H1). injection H as <-. auto.
Qed.
Lemma aux_ok : forall a, aux_check a = Ok tt <-> a_many (fst a) = false.
Proof. intros a. unfold aux_check. rewrite check_ok, negb_true_iff. tauto. Qed.

(** ** 1. The split of the prognostics *)
(** Every field is either handled by the linear solver or copied after it, never both; a list given by the user
    is used as it is, and by default exactly the active tracers are left out. *)
Theorem solver_prognostics_partition : forall names tracers user s n,
  (forall l, tracers = Some l -> incl l names) ->
  solver_split names tracers user = Ok (s, n) ->
  (forall f, In f names <-> In f s \/ In f n) /\ (forall f, In f s -> ~ In f n) /\
  (forall l, user = Some l -> s = l) /\
  (user = None -> forall f, In f n <-> exists l, tracers = Some l /\ In f l).
Proof.
  intros names tracers user s n Ht H. destruct user as [sp|]; unfold solver_split in H.
  - destruct (check_all (fun p => check (mem p names) AssertionError) sp) as [[]|e] eqn:E; cbn [bind] in H; [|discriminate].
    injection H as <- <-.
    assert (incl sp names) as Hi.
    { intros x Hx. apply mem_In. apply check_ok with AssertionError tt. exact (proj1 (check_all_ok _ _ tt) E x Hx). }
    repeat split.
    + intros Hf. destruct (mem f sp) eqn:M; [left; apply mem_In; auto|right; apply filter_In; rewrite M; auto].
    + intros [H|H]; [apply Hi; auto|apply filter_In in H; tauto].
    + intros f Hf H. apply filter_In in H. destruct H as [_ H]. apply mem_In in Hf. rewrite Hf in H. discriminate.
    + intros l Hl; injection Hl; auto.
    + discriminate.
    + discriminate.
  - destruct tracers as [ts|]; injection H as <- <-.
    + repeat split.
      * intros Hf. destruct (mem f ts) eqn:M; [right; apply mem_In; auto|left; apply filter_In; rewrite M; auto].
      * intros [H|H]; [apply filter_In in H; tauto|apply (Ht ts eq_refl); auto].
      * intros f Hf H. apply filter_In in Hf. destruct Hf as [_ Hf]. apply mem_In in H. rewrite H in Hf. discriminate.
      * discriminate.
      * intros Hf; exists ts; auto.
      * intros (l & Hl & Hf). injection Hl as ->. auto.
    + repeat split.
      * intros Hf; auto.
      * intros [H|[]]; auto.
      * intros f _ [].
      * discriminate.
      * intros [].
      * intros (l & Hl & _). discriminate.
Qed.
Example solver_split_case :
  solver_split ["u"; "rho"; "theta"; "water_vapour"] (Some ["water_vapour"]) None = Ok (["u"; "rho"; "theta"], ["water_vapour"]) /\
  solver_split ["u"; "rho"; "theta"; "water_vapour"] (Some ["water_vapour"]) (Some ["u"; "rho"]) = Ok (["u"; "rho"], ["theta"; "water_vapour"]) /\
  solver_split ["u"; "rho"] None (Some ["u"; "D"]) = Err AssertionError.
Proof. repeat split. Qed.

(** ** 2. Which configurations are accepted *)
Theorem siqn_accepts : forall q,
  (exists z, siqn_construct q = Ok z) <->
  known_prognostics (q_names q) (q_solver q) /\
  metric_ready (q_metric q) (q_names q) (q_transports q) /\
  (forall s, In s (q_transports q) ->
     single_field_scheme MTransport (q_names q) (q_methods q) s \/ several_fields_scheme MTransport (q_names q) (q_methods q) s) /\
  (forall p s, In (p, s) (q_slow q) \/ In (p, s) (q_fast q) \/ In (p, s) (q_final q) \/ In (p, s) (q_inner q) -> physics_scheme_allowed p s) /\
  (forall s, In s (q_diffusions q) -> single_field_scheme MDiffusion (q_names q) (q_methods q) s) /\
  (forall a s, In (a, s) (q_aux q) -> a_many a = false).
Proof.
  intros q. unfold siqn_construct.
  pose proof (solver_split_ok (q_names q) (q_tracers q) (q_solver q)) as H1.
  destruct (solver_split (q_names q) (q_tracers q) (q_solver q)) as [sp|e]; cbn [bind].
  2:{ split; [intros (z & H); discriminate|]. intros (H & _). destruct (proj2 H1 H) as (p & Hp). discriminate. }
  assert (known_prognostics (q_names q) (q_solver q)) as K1 by (apply H1; eexists; reflexivity). clear H1.
  pose proof (metric_ok (q_metric q) (q_names q) (q_transports q) tt) as H2.
  destruct (metric_check (q_metric q) (q_names q) (q_transports q)) as [[]|e]; cbn [bind].
  2:{ split; [intros (z & H); discriminate|]. intros (_ & H & _). apply H2 in H. discriminate. }
  assert (metric_ready (q_metric q) (q_names q) (q_transports q)) as K2 by (apply H2; reflexivity). clear H2.
  pose proof (siqn_transports_ok (q_names q) (q_methods q) (q_transports q)) as H3.
  destruct (siqn_transports (q_names q) (q_methods q) (q_transports q)) as [tr|e]; cbn [bind].
  2:{ split; [intros (z & H); discriminate|]. intros (_ & _ & H & _). destruct (proj2 H3 H) as (p & Hp). discriminate. }
  assert (forall s, In s (q_transports q) -> transport_scheme_ok (q_names q) (q_methods q) s) as K3 by (apply H3; eexists; reflexivity). clear H3.
  pose proof (check_all_ok physics_check (q_physics q) tt) as H4.
  assert ((forall x, In x (q_physics q) -> physics_check x = Ok tt) <->
          (forall p s, In (p, s) (q_slow q) \/ In (p, s) (q_fast q) \/ In (p, s) (q_final q) \/ In (p, s) (q_inner q) -> physics_scheme_allowed p s)) as K4.
  { unfold q_physics. split.
    - intros H p s Hp. apply (physics_ok (p, s)), H. rewrite !in_app_iff. tauto.
    - intros H [p s] Hp. rewrite !in_app_iff in Hp. apply physics_ok, H. tauto. }
  destruct (check_all physics_check (q_physics q)) as [[]|e]; cbn [bind].
  2:{ split; [intros (z & H); discriminate|]. intros (_ & _ & _ & H & _). pose proof (proj2 H4 (proj2 K4 H)) as HH; discriminate. }
  pose proof (check_all_ok (diffusion_check (q_names q) (q_methods q)) (q_diffusions q) tt) as H5.
  destruct (check_all (diffusion_check (q_names q) (q_methods q)) (q_diffusions q)) as [[]|e]; cbn [bind].
  2:{ split; [intros (z & H); discriminate|]. intros (_ & _ & _ & _ & H & _). assert (Err e = Ok tt :> res unit); [|discriminate].
      apply H5. intros x Hx. apply diffusion_ok, H, Hx. }
  pose proof (check_all_ok aux_check (q_aux q) tt) as H6.
  destruct (check_all aux_check (q_aux q)) as [[]|e]; cbn [bind].
  2:{ split; [intros (z & H); discriminate|]. intros (_ & _ & _ & _ & _ & H). assert (Err e = Ok tt :> res unit); [|discriminate].
      apply H6. intros [a s] Hx. apply aux_ok. exact (H a s Hx). }
  split; [|eexists; reflexivity]. intros _. split; [auto|]. split; [auto|]. split; [exact K3|].
  split; [exact (proj1 K4 (proj1 H4 eq_refl))|]. split.
  - intros s Hs. apply diffusion_ok. apply (proj1 H5 eq_refl), Hs.
  - intros a s Hs. apply (aux_ok (a, s)). apply (proj1 H6 eq_refl), Hs.
Qed.

(** TR-BDF2: the same, without simultaneous transport and without fast physics (even an empty list). *)
Theorem trbdf2_accepts : forall r,
  (exists z, tr_construct r = Ok z) <->
  known_prognostics (r_names r) (r_solver r) /\ r_fast r = None /\
  metric_ready (r_metric r) (r_names r) (r_transports r) /\
  (forall s, In s (r_transports r) -> single_field_scheme MTransport (r_names r) (r_methods r) s) /\
  (forall p s, In (p, s) (r_slow r) \/ In (p, s) (r_final r) -> physics_scheme_allowed p s) /\
  (forall s, In s (r_diffusions r) -> single_field_scheme MDiffusion (r_names r) (r_methods r) s).
Proof.
  intros r. unfold tr_construct. cbn [app].
  pose proof (solver_split_ok (r_names r) (r_tracers r) (r_solver r)) as H1.
  destruct (solver_split (r_names r) (r_tracers r) (r_solver r)) as [sp|e]; cbn [bind].
  2:{ split; [intros (z & H); discriminate|]. intros (H & _). destruct (proj2 H1 H) as (p & Hp). discriminate. }
  assert (known_prognostics (r_names r) (r_solver r)) as K1 by (apply H1; eexists; reflexivity). clear H1.
  destruct (r_fast r) as [fp|]; cbn [bind].
  { split; [intros (z & H); discriminate|]. intros (_ & H & _). discriminate. }
  pose proof (check_all_ok physics_check (r_slow r ++ r_final r) tt) as H4.
  assert ((forall x, In x (r_slow r ++ r_final r) -> physics_check x = Ok tt) <->
          (forall p s, In (p, s) (r_slow r) \/ In (p, s) (r_final r) -> physics_scheme_allowed p s)) as K4.
  { split.
    - intros H p s Hp. apply (physics_ok (p, s)), H. rewrite in_app_iff. tauto.
    - intros H [p s] Hp. rewrite in_app_iff in Hp. apply physics_ok, H. tauto. }
  destruct (check_all physics_check (r_slow r ++ r_final r)) as [[]|e]; cbn [bind].
  2:{ split; [intros (z & H); discriminate|]. intros (_ & _ & _ & _ & H & _). pose proof (proj2 H4 (proj2 K4 H)) as HH; discriminate. }
  pose proof (metric_ok (r_metric r) (r_names r) (r_transports r) tt) as H2.
  destruct (metric_check (r_metric r) (r_names r) (r_transports r)) as [[]|e]; cbn [bind].
  2:{ split; [intros (z & H); discriminate|]. intros (_ & _ & H & _). apply H2 in H. discriminate. }
  assert (metric_ready (r_metric r) (r_names r) (r_transports r)) as K2 by (apply H2; reflexivity). clear H2.
  pose proof (tr_transports_ok (r_names r) (r_methods r) (r_transports r)) as H3.
  destruct (tr_transports (r_names r) (r_methods r) (r_transports r)) as [tr|e]; cbn [bind].
  2:{ split; [intros (z & H); discriminate|]. intros (_ & _ & _ & H & _). destruct (proj2 H3 H) as (p & Hp). discriminate. }
  assert (forall s, In s (r_transports r) -> single_field_scheme MTransport (r_names r) (r_methods r) s) as K3 by (apply H3; eexists; reflexivity). clear H3.
  pose proof (check_all_ok (diffusion_check (r_names r) (r_methods r)) (r_diffusions r) tt) as H5.
  destruct (check_all (diffusion_check (r_names r) (r_methods r)) (r_diffusions r)) as [[]|e]; cbn [bind].
  2:{ split; [intros (z & H); discriminate|]. intros (_ & _ & _ & _ & _ & H). assert (Err e = Ok tt :> res unit); [|discriminate].
      apply H5. intros x Hx. apply diffusion_ok, H, Hx. }
  split; [|eexists; reflexivity]. intros _. split; [auto|]. split; [auto|]. split; [auto|]. split; [exact K3|].
  split; [exact (proj1 K4 (proj1 H4 eq_refl))|]. intros s Hs. apply diffusion_ok. apply (proj1 H5 eq_refl), Hs.
Qed.

(** ** 3. What is raised *)
Lemma transport_err : forall names ms s e, siqn_transport names ms s = Err e -> e = AssertionError.
Proof.
  intros names ms s e. unfold siqn_transport. destruct (Nat.eqb (s_nlevels s) 1); cbn [check bind]; [|intros H; injection H; auto].
  destruct (s_field s) as [|f|fs].
  - intros H; injection H; auto.
  - destruct (mem f names); cbn [check bind]; [|intros H; injection H; auto].
    destruct (has_method MTransport f ms); cbn [check bind]; [discriminate|intros H; injection H; auto].
  - match goal with |- context [check_all ?f fs] => destruct (check_all f fs) as [[]|e'] eqn:E; cbn [bind]; [discriminate|] end.
    intros H; injection H as <-. destruct (check_all_err _ _ _ E) as (x & _ & Hx). destruct (mem x names); cbn [check bind] in Hx.
    + apply check_err in Hx; auto.
    + injection Hx; auto.
Qed.
Lemma transports_err : forall names ms l e, siqn_transports names ms l = Err e -> e = AssertionError.
Proof.
  intros names ms. induction l as [|s l IH]; cbn [siqn_transports]; [discriminate|]. intros e.
  destruct (siqn_transport names ms s) as [a|a] eqn:E; cbn [bind].
  - destruct (siqn_transports names ms l) as [b|b]; cbn [bind]; [discriminate|]. intros H; injection H as <-. apply IH; auto.
  - intros H; injection H as <-. eapply transport_err; eauto.
Qed.
(** A configuration is refused with an AssertionError, except that a consistent metric term asked for without its
    fields and scheme gives a ValueError - or an IndexError when there are no transport schemes at all. *)
Theorem siqn_refusal_kinds : forall q e, siqn_construct q = Err e ->
  e = AssertionError \/
  (q_metric q = true /\ ~ metric_ready (q_metric q) (q_names q) (q_transports q) /\
   ((e = ValueError) \/ (e = IndexError /\ q_transports q = []))).
Proof.
  intros q e. unfold siqn_construct.
  destruct (solver_split (q_names q) (q_tracers q) (q_solver q)) as [sp|e'] eqn:E1; cbn [bind].
  2:{ intros H; injection H as <-. left. unfold solver_split in E1. destruct (q_solver q) as [l|].
      - destruct (check_all (fun p => check (mem p (q_names q)) AssertionError) l) as [[]|k] eqn:E; cbn [bind] in E1; [discriminate|].
        injection E1 as <-. destruct (check_all_err _ _ _ E) as (x & _ & Hx). apply check_err in Hx. auto.
      - destruct (q_tracers q); discriminate. }
  destruct (metric_check (q_metric q) (q_names q) (q_transports q)) as [[]|e'] eqn:E2; cbn [bind].
  2:{ intros H; injection H as <-. right. destruct (q_metric q) eqn:M; [|discriminate]. split; auto. split.
      { intros K. apply (metric_ok true _ _ tt) in K. congruence. }
      unfold metric_check in E2. destruct (mem "theta" (q_names q)); cbn [check bind] in E2; [|injection E2; auto].
      destruct (mem "z" (q_names q)); cbn [check bind] in E2; [|injection E2; auto].
      destruct (q_transports q) as [|s l]; [injection E2; auto|]. left.
      destruct (s_field s); [injection E2; auto|apply check_err in E2; auto|injection E2; auto]. }
  destruct (siqn_transports (q_names q) (q_methods q) (q_transports q)) as [tr|e'] eqn:E3; cbn [bind].
  2:{ intros H; injection H as <-. left. eapply transports_err; eauto. }
  destruct (check_all physics_check (q_physics q)) as [[]|e'] eqn:E4; cbn [bind].
  2:{ intros H; injection H as <-. left. destruct (check_all_err _ _ _ E4) as ([p s] & _ & Hx). unfold physics_check in Hx. cbn [fst snd] in Hx.
      destruct (Nat.eqb (s_nlevels s) 1); cbn [check bind] in Hx; [|injection Hx; auto].
      destruct (p_explicit_only p) as [[]|]; [apply check_err in Hx; auto|discriminate|discriminate]. }
  destruct (check_all (diffusion_check (q_names q) (q_methods q)) (q_diffusions q)) as [[]|e'] eqn:E5; cbn [bind].
  2:{ intros H; injection H as <-. left. destruct (check_all_err _ _ _ E5) as (s & _ & Hx). unfold diffusion_check in Hx.
      destruct (Nat.eqb (s_nlevels s) 1); cbn [check bind] in Hx; [|injection Hx; auto].
      destruct (s_field s) as [|f|fs]; [injection Hx; auto| |injection Hx; auto].
      destruct (mem f (q_names q)); cbn [check bind] in Hx; [apply check_err in Hx; auto|injection Hx; auto]. }
  destruct (check_all aux_check (q_aux q)) as [[]|e'] eqn:E6; cbn [bind]; [discriminate|].
  intros H; injection H as <-. left. destruct (check_all_err _ _ _ E6) as (a & _ & Hx). unfold aux_check in Hx. apply check_err in Hx. auto.
Qed.
(** Fast physics given to TR-BDF2: NotImplementedError, and nothing else raises that. *)
Theorem trbdf2_fast_physics : forall r,
  tr_construct r = Err NotImplementedError <-> known_prognostics (r_names r) (r_solver r) /\ r_fast r <> None.
Proof.
  intros r. unfold tr_construct. cbn [app].
  pose proof (solver_split_ok (r_names r) (r_tracers r) (r_solver r)) as H1.
  destruct (solver_split (r_names r) (r_tracers r) (r_solver r)) as [sp|e] eqn:E1; cbn [bind].
  2:{ split.
      - intros H; injection H as ->. exfalso. unfold solver_split in E1. destruct (r_solver r) as [l|].
        + destruct (check_all (fun p => check (mem p (r_names r)) AssertionError) l) as [[]|k] eqn:E; cbn [bind] in E1; [discriminate|].
          injection E1 as ->. destruct (check_all_err _ _ _ E) as (x & _ & Hx). apply check_err in Hx. discriminate.
        + destruct (r_tracers r); discriminate.
      - intros (H & _). destruct (proj2 H1 H) as (p & Hp). discriminate. }
  assert (known_prognostics (r_names r) (r_solver r)) as K1 by (apply H1; eexists; reflexivity).
  destruct (r_fast r) as [fp|]; cbn [bind].
  { split; [intros _; split; [auto|discriminate]|reflexivity]. }
  split; [|intros (_ & H); congruence]. intros H. exfalso. revert H.
  destruct (check_all physics_check (r_slow r ++ r_final r)) as [[]|e'] eqn:E4; cbn [bind].
  2:{ intros H; injection H as ->. destruct (check_all_err _ _ _ E4) as ([p s] & _ & Hx). unfold physics_check in Hx. cbn [fst snd] in Hx.
      destruct (Nat.eqb (s_nlevels s) 1); cbn [check bind] in Hx; [|discriminate].
      destruct (p_explicit_only p) as [[]|]; [apply check_err in Hx|..]; discriminate. }
  destruct (metric_check (r_metric r) (r_names r) (r_transports r)) as [[]|e'] eqn:E2; cbn [bind].
  2:{ intros H; injection H as ->. unfold metric_check in E2. destruct (r_metric r); [|discriminate].
      destruct (mem "theta" (r_names r)); cbn [check bind] in E2; [|discriminate].
      destruct (mem "z" (r_names r)); cbn [check bind] in E2; [|discriminate].
      destruct (r_transports r) as [|s l]; [discriminate|].
      destruct (s_field s); [discriminate|apply check_err in E2; discriminate|discriminate]. }
  destruct (tr_transports (r_names r) (r_methods r) (r_transports r)) as [tr|e'] eqn:E3; cbn [bind].
  2:{ intros H; injection H as ->. revert E3. generalize (r_transports r). induction l as [|s l IH]; cbn [tr_transports]; [discriminate|].
      destruct (tr_transport (r_names r) (r_methods r) s) as [a|a] eqn:E; cbn [bind].
      - destruct (tr_transports (r_names r) (r_methods r) l); cbn [bind]; [discriminate|]. intros H; injection H as ->. apply IH; reflexivity.
      - intros H; injection H as ->. unfold tr_transport in E. destruct (Nat.eqb (s_nlevels s) 1); cbn [check bind] in E; [|discriminate].
        destruct (s_field s) as [|f|fs]; [discriminate| |discriminate].
        destruct (mem f (r_names r)); cbn [check bind] in E; [|discriminate].
        destruct (has_method MTransport f (r_methods r)); cbn [check bind] in E; discriminate. }
  destruct (check_all (diffusion_check (r_names r) (r_methods r)) (r_diffusions r)) as [[]|e'] eqn:E5; cbn [bind]; [discriminate|].
  intros H; injection H as ->. destruct (check_all_err _ _ _ E5) as (s & _ & Hx). unfold diffusion_check in Hx.
  destruct (Nat.eqb (s_nlevels s) 1); cbn [check bind] in Hx; [|discriminate].
  destruct (s_field s) as [|f|fs]; [discriminate| |discriminate].
  destruct (mem f (r_names r)); cbn [check bind] in Hx; [apply check_err in Hx|]; discriminate.
Qed.

(** ** 4. What the accepted stepper applies *)
Lemma siqn_construct_inv : forall q z, siqn_construct q = Ok z ->
  siqn_transports (q_names q) (q_methods q) (q_transports q) = Ok (z_transport z) /\
  z_diffusion z = q_diffusions q /\ z_physics z = q_physics q.
Proof.
  intros q z. unfold siqn_construct.
  destruct (solver_split (q_names q) (q_tracers q) (q_solver q)) as [sp|e]; cbn [bind]; [|discriminate].
  destruct (metric_check (q_metric q) (q_names q) (q_transports q)) as [[]|e]; cbn [bind]; [|discriminate].
  destruct (siqn_transports (q_names q) (q_methods q) (q_transports q)) as [tr|e]; cbn [bind]; [|discriminate].
  destruct (check_all physics_check (q_physics q)) as [[]|e]; cbn [bind]; [|discriminate].
  destruct (check_all (diffusion_check (q_names q) (q_methods q)) (q_diffusions q)) as [[]|e]; cbn [bind]; [|discriminate].
  destruct (check_all aux_check (q_aux q)) as [[]|e]; cbn [bind]; [|discriminate].
  intros H; injection H as <-. auto.
Qed.
(** an accepted scheme's entries: at least one, all equal *)
Lemma siqn_transport_entries : forall names ms s e, siqn_transport names ms s = Ok e ->
  exists k, e = repeat (s_field s, s) (S k) /\
    (k <> 0%nat -> exists v, s_field s = OneField v) /\
    ((forall v, (List.length (methods_for MTransport v ms) <= 1)%nat) -> k = 0%nat) /\
    (forall v, s_field s = OneField v -> mem v names = true) /\ s_field s <> WholeSystem.
Proof.
  intros names ms s e. unfold siqn_transport. destruct (Nat.eqb (s_nlevels s) 1); cbn [check bind]; [|discriminate].
  destruct (s_field s) as [|f|fs] eqn:F; [discriminate| |].
  - destruct (mem f names) eqn:M; cbn [check bind]; [|discriminate]. unfold has_method.
    destruct (methods_for MTransport f ms) as [|m l] eqn:E; cbn [check bind]; [discriminate|].
    intros H; injection H as <-. exists (List.length l). split.
    { cbn [map repeat]. f_equal. clear E. induction l; simpl; [reflexivity|f_equal; auto]. }
    split; [intros _; exists f; auto|]. split.
    { intros H. specialize (H f). rewrite E in H. simpl in H. lia. }
    split; [intros v Hv; injection Hv as <-; auto|discriminate].
  - match goal with |- context [check_all ?f fs] => destruct (check_all f fs) as [[]|e'] eqn:E; cbn [bind]; [|discriminate] end.
    intros H; injection H as <-. exists 0%nat. split; [reflexivity|]. split; [congruence|]. split; [auto|]. split; [discriminate|discriminate].
Qed.
(** With one transport method per variable the stepper transports with the given schemes in the given order; with more
    methods an entry is repeated, but no scheme is lost and none is added. *)
Theorem siqn_transport_plan : forall q z, siqn_construct q = Ok z ->
  (forall e, In e (z_transport z) <-> exists s, In s (q_transports q) /\ e = (s_field s, s)) /\
  ((forall v, (List.length (filter (fun m => String.eqb v (m_variable m) && mlabel_eqb (m_label m) MTransport) (q_methods q)) <= 1)%nat) ->
   z_transport z = map (fun s => (s_field s, s)) (q_transports q)) /\
  z_diffusion z = q_diffusions q /\
  (forall p s, In (p, s) (z_physics z) <-> In (p, s) (q_slow q) \/ In (p, s) (q_fast q) \/ In (p, s) (q_final q) \/ In (p, s) (q_inner q)).
Proof.
  intros q z Hz. destruct (siqn_construct_inv q z Hz) as (Ht & Hd & Hp). clear Hz.
  assert ((forall e, In e (z_transport z) <-> exists s, In s (q_transports q) /\ e = (s_field s, s)) /\
     ((forall v, (List.length (methods_for MTransport v (q_methods q)) <= 1)%nat) -> z_transport z = map (fun s => (s_field s, s)) (q_transports q))) as (A & B).
  { revert Ht. generalize (z_transport z). generalize (q_transports q). induction l as [|s l IH]; intros tr; cbn [siqn_transports].
    - intros H; injection H as <-. split; [|reflexivity]. intros e; split; [intros []|intros (s & [] & _)].
    - destruct (siqn_transport (q_names q) (q_methods q) s) as [a|a] eqn:E; cbn [bind]; [|discriminate].
      destruct (siqn_transports (q_names q) (q_methods q) l) as [b|b] eqn:E2; cbn [bind]; [|discriminate].
      intros H; injection H as <-. destruct (IH b eq_refl) as (I1 & I2).
      destruct (siqn_transport_entries _ _ _ _ E) as (k & -> & _ & Hk & _). split.
      + intros e. rewrite in_app_iff, I1. split.
        * intros [H|(s' & H1 & H2)]; [apply repeat_spec in H; exists s; split; [left; auto|auto]|exists s'; split; [right; auto|auto]].
        * intros (s' & [<-|H1] & H2); [left; subst e; simpl; auto|right; exists s'; auto].
      + intros H. rewrite (Hk H), (I2 H). reflexivity. }
  split; [exact A|]. split; [exact B|]. split; [exact Hd|]. intros p s. rewrite Hp. unfold q_physics. rewrite !in_app_iff. tauto.
Qed.

(** ** 5. Every scheme object is set up for its own terms - if no object is used twice *)
Lemma setup_terms_one : forall f l r t, In t (setup_terms (OneField f) [l] r) <->
  In t r /\ Terms.prognostic t = f /\ (In "time_derivative" (Terms.labels t) \/ In l (Terms.labels t)).
Proof.
  intros f l r t. unfold setup_terms, Terms.select_prognostic, Terms.select_active. rewrite !filter_In, String.eqb_eq.
  unfold Terms.has_label, Terms.py_any, Terms.has, Terms.td. cbn [map existsb]. rewrite !orb_true_iff.
  assert (forall x, existsb (String.eqb x) (Terms.labels t) = true <-> In x (Terms.labels t)) as M by (intros x; apply (mem_In x)).
  rewrite !M. intuition discriminate.
Qed.
Section SetUp.
  Variables (nm : list string) (whole : string) (rs : list lterm).
  Fixpoint good (fld : nat -> target) (calls : list (nat * string)) : Prop :=
    match calls with
    | [] => True
    | (i, l) :: tl =>
        ((exists f, fld i = OneField f /\ mem f nm = true) \/ ((forall f, fld i <> OneField f) /\ ~ In i (map fst tl))) /\
        (forall l', In (i, l') tl -> l' = l) /\ good fld tl
    end.
  Lemma setup_run_good : forall fld calls m, good fld calls -> (forall i, In i (map fst calls) -> o_field (m i) = fld i) ->
    exists m', setup_run nm whole rs calls m = Ok m' /\
      (forall i l, In (i, l) calls -> o_terms (m' i) = Some (setup_terms (fld i) [l] rs)) /\
      (forall i, ~ In i (map fst calls) -> m' i = m i).
  Proof.
    intros fld calls. induction calls as [|[i l] tl IH]; intros m Hg Hm; cbn [setup_run].
    - exists m. split; [reflexivity|]. split; [intros i l []|auto].
    - destruct Hg as (H1 & H2 & H3). cbn [map fst In] in Hm.
      assert (o_field (m i) = fld i) as Fi by (apply Hm; left; reflexivity).
      assert (exists m1, setup_object nm whole rs l i m = Ok m1 /\ o_terms (m1 i) = Some (setup_terms (fld i) [l] rs) /\
               (forall j, j <> i -> m1 j = m j) /\ (In i (map fst tl) -> o_field (m1 i) = fld i)) as (m1 & E & T & O & F).
      { unfold setup_object. rewrite Fi. destruct H1 as [(f & Ff & Mf)|(Nf & Ni)].
        - rewrite Ff, Mf. eexists. split; [reflexivity|]. unfold upd. rewrite Nat.eqb_refl. cbn [o_terms o_field]. split; [reflexivity|].
          split; [intros j Hj; apply Nat.eqb_neq in Hj; rewrite Hj; reflexivity|auto].
        - destruct (fld i) as [|f|fs] eqn:Ef; [|exfalso; exact (Nf f eq_refl)|]; (eexists; split; [reflexivity|]; unfold upd; rewrite Nat.eqb_refl;
          cbn [o_terms o_field]; split; [reflexivity|]; split; [intros j Hj; apply Nat.eqb_neq in Hj; rewrite Hj; reflexivity|contradiction]). }
      rewrite E. cbn [bind].
      destruct (IH m1) as (m' & R1 & R2 & R3); [exact H3| |].
      { intros j Hj. destruct (Nat.eq_dec j i) as [->|Hji]; [apply F; auto|rewrite O by auto; apply Hm; right; auto]. }
      exists m'. split; [exact R1|]. split.
      + intros j lj [Hj|Hj].
        * injection Hj as -> ->. destruct (in_dec Nat.eq_dec j (map fst tl)) as [Hi|Hi].
          { apply in_map_iff in Hi. destruct Hi as ([j' l'] & Hj' & Hin). simpl in Hj'. subst j'. rewrite (R2 j l' Hin).
            rewrite (H2 l' Hin). reflexivity. }
          rewrite R3 by auto. exact T.
        * apply R2; auto.
      + intros j Hj. cbn [map fst In] in Hj. rewrite R3 by tauto. apply O. intros ->. tauto.
  Qed.
  Lemma good_app : forall fld a b, good fld a -> good fld b -> (forall i, In i (map fst a) -> ~ In i (map fst b)) -> good fld (a ++ b).
  Proof.
    intros fld a b. induction a as [|[i l] a IH]; intros Ha Hb Hd; [exact Hb|]. cbn [app good]. destruct Ha as (H1 & H2 & H3).
    cbn [map fst In] in Hd. split; [|split].
    - destruct H1 as [H1|(N1 & N2)]; [left; auto|right; split; auto]. rewrite map_app, in_app_iff. intros [H|H]; [auto|].
      exact (Hd i (or_introl eq_refl) H).
    - intros l' H. apply in_app_or in H. destruct H as [H|H]; [auto|]. exfalso. apply (Hd i (or_introl eq_refl)).
      apply in_map_iff. exists (i, l'); auto.
    - apply IH; auto.
  Qed.
  Lemma good_nodup : forall fld calls, NoDup (map fst calls) -> (forall i f, In i (map fst calls) -> fld i = OneField f -> mem f nm = true) -> good fld calls.
  Proof.
    intros fld. induction calls as [|[i l] tl IH]; intros Hn Hf; [exact I|]. cbn [map fst] in Hn. inversion Hn as [|? ? N1 N2]; subst. cbn [good]. split; [|split].
    - destruct (fld i) as [|f|fs] eqn:E; [right; split; [congruence|auto]| |right; split; [congruence|auto]].
      left. exists f. split; auto. apply (Hf i f); [left; reflexivity|auto].
    - intros l' H. exfalso. apply N1. apply in_map_iff. exists (i, l'); auto.
    - apply IH; auto. intros j f Hj. apply Hf. right; auto.
  Qed.
  Lemma good_repeat : forall fld i l k, ((exists f, fld i = OneField f /\ mem f nm = true) \/ k = 0%nat /\ forall f, fld i <> OneField f) -> good fld (repeat (i, l) (S k)).
  Proof.
    intros fld i l k H. destruct H as [H|[-> H]].
    - induction (S k) as [|n IH]; [exact I|]. cbn [repeat good]. split; [left; auto|]. split; [|auto].
      intros l' Hl. apply repeat_spec in Hl. congruence.
    - cbn [repeat good]. split; [right; split; [auto|intros []]|]. split; [intros l' []|exact I].
  Qed.
End SetUp.

Lemma map_repeat_ : forall {A B} (f : A -> B) x n, map f (repeat x n) = repeat (f x) n.
Proof. intros A B f x n. induction n; simpl; [reflexivity|f_equal; auto]. Qed.
Lemma NoDup_app_parts : forall {A} (a b : list A), NoDup (a ++ b) -> NoDup a /\ NoDup b /\ forall x, In x a -> ~ In x b.
Proof.
  intros A a b. induction a as [|x a IH]; cbn [app]; intros H.
  - split; [constructor|]. split; [auto|]. intros y [].
  - inversion H as [|? ? H1 H2]; subst. destruct (IH H2) as (I1 & I2 & I3). rewrite in_app_iff in H1. split; [constructor; tauto|]. split; [auto|].
    intros y [<-|Hy]; [tauto|auto].
Qed.
(** [r] is the residual of the equation after the spatial methods were set up.  If the scheme objects given for
    transport, diffusion and physics are pairwise different, the setup of an accepted configuration succeeds (when
    the physics schemes' fields exist) and every object then holds exactly the terms it was given for. *)
Theorem schemes_hold_their_own_terms : forall q z whole r m,
  siqn_construct q = Ok z ->
  let ps := (q_slow q ++ q_fast q ++ q_final q ++ q_inner q)%list in
  NoDup (map s_id (q_transports q) ++ map s_id (q_diffusions q) ++ map (fun x => s_id (snd x)) ps) ->
  (forall s, In s (q_transports q) \/ In s (q_diffusions q) \/ In s (map snd ps) -> m (s_id s) = mk_object (s_field s) None) ->
  (forall p s f, In (p, s) ps -> s_field s = OneField f -> In f (q_names q)) ->
  exists m', setup_run (q_names q) whole r (setup_calls z) m = Ok m' /\
    (forall s, In s (q_transports q) -> o_terms (m' (s_id s)) = Some (setup_terms (s_field s) ["transport"] r)) /\
    (forall s, In s (q_diffusions q) -> o_terms (m' (s_id s)) = Some (setup_terms (s_field s) ["diffusion"] r)) /\
    (forall p s, In (p, s) ps -> o_terms (m' (s_id s)) = Some (setup_terms (s_field s) [p_label p] r)).
Proof.
  intros q z whole r m Hz ps Hn Hm Hf.
  assert (exists z', siqn_construct q = Ok z') as Hacc by (exists z; auto). apply siqn_accepts in Hacc.
  destruct Hacc as (_ & _ & _ & _ & Hdif & _).
  destruct (siqn_construct_inv q z Hz) as (Ht & Hd & Hp). change (q_physics q) with ps in Hp.
  destruct (NoDup_app_parts _ _ Hn) as (N1 & N2 & D1). destruct (NoDup_app_parts _ _ N2) as (N3 & N4 & D2).
  set (fld := fun i => o_field (m i)).
  assert (forall s, In s (q_transports q) \/ In s (q_diffusions q) \/ In s (map snd ps) -> fld (s_id s) = s_field s) as Hfld.
  { intros s Hs. unfold fld. rewrite (Hm s Hs). reflexivity. }
  assert (setup_calls z = (map (fun e : entry => (s_id (snd e), "transport")) (z_transport z) ++
     map (fun s => (s_id s, "diffusion")) (q_diffusions q) ++ map (fun x => (s_id (snd x), p_label (fst x))) ps)%list) as Hc.
  { unfold setup_calls. rewrite Hd, Hp. reflexivity. }
  assert (forall i, In i (map fst (map (fun e : entry => (s_id (snd e), "transport")) (z_transport z))) -> In i (map s_id (q_transports q))) as Hin.
  { destruct (siqn_transport_plan q z Hz) as (A & _). intros i Hi. rewrite map_map in Hi. apply in_map_iff in Hi. destruct Hi as (e & He & Hie).
    apply A in Hie. destruct Hie as (s & Hs & ->). simpl in He. subst i. apply in_map; auto. }
  assert (good (q_names q) fld (setup_calls z)) as Hg.
  { rewrite Hc. apply good_app; [|apply good_app|].
    - clear Hin Hc Hn D1 N2 Hz. assert (forall s, In s (q_transports q) -> fld (s_id s) = s_field s) as Hfl by (intros s Hs; apply Hfld; auto).
      revert Ht N1 Hfl. generalize (z_transport z). generalize (q_transports q). induction l as [|s l IH]; intros tr; cbn [siqn_transports].
      + intros H; injection H as <-. intros _ _; exact I.
      + destruct (siqn_transport (q_names q) (q_methods q) s) as [a|a] eqn:E; cbn [bind]; [|discriminate].
        destruct (siqn_transports (q_names q) (q_methods q) l) as [b|b] eqn:E2; cbn [bind]; [|discriminate].
        intros H; injection H as <-. intros N1 Hfl. cbn [map] in N1. inversion N1 as [|? ? Na Nb]; subst.
        rewrite map_app. apply good_app.
        * destruct (siqn_transport_entries _ _ _ _ E) as (k & -> & K1 & _ & K2 & K3). rewrite (map_repeat_ (fun e : entry => (s_id (snd e), "transport"))). cbn [snd].
          apply good_repeat. rewrite (Hfl s) by (left; auto). destruct (s_field s) as [|f|fs] eqn:F; [congruence| |].
          { left. exists f; auto. }
          right. split; [|discriminate]. destruct k; [reflexivity|]. destruct (K1 ltac:(discriminate)) as (v & Hv). discriminate.
        * apply (IH b eq_refl Nb). intros s' Hs'. apply Hfl. right; auto.
        * intros i Hi Hi'. rewrite map_map in Hi, Hi'. apply in_map_iff in Hi. destruct Hi as (e & He & Hie).
          destruct (siqn_transport_entries _ _ _ _ E) as (k & -> & _). apply repeat_spec in Hie. subst e. simpl in He. subst i. apply Na.
          apply in_map_iff in Hi'. destruct Hi' as (e' & He' & Hin'). rewrite <- He'. clear - E2 Hin'. revert b E2 Hin'.
          induction l as [|s' l IH]; cbn [siqn_transports]; intros b.
          { intros H; injection H as <-. intros []. }
          destruct (siqn_transport (q_names q) (q_methods q) s') as [a|a] eqn:E; cbn [bind]; [|discriminate].
          destruct (siqn_transports (q_names q) (q_methods q) l) as [c|c]; cbn [bind]; [|discriminate].
          intros H; injection H as <-. intros Hi. apply in_app_or in Hi. destruct Hi as [Hi|Hi]; [|right; exact (IH c eq_refl Hi)].
          left. destruct (siqn_transport_entries _ _ _ _ E) as (k & -> & _). apply repeat_spec in Hi. subst e'. reflexivity.
    - apply good_nodup; [rewrite map_map; exact N3|]. intros i f Hi E. rewrite map_map in Hi. apply in_map_iff in Hi.
      destruct Hi as (s & Hs & His). simpl in Hs. subst i. rewrite Hfld in E by auto. destruct (Hdif s His) as (_ & v & Hv & Hv' & _).
      rewrite E in Hv. injection Hv as <-. apply mem_In; auto.
    - apply good_nodup; [rewrite map_map; exact N4|]. intros i f Hi E. rewrite map_map in Hi. apply in_map_iff in Hi.
      destruct Hi as ([p s] & Hs & His). simpl in Hs. subst i. rewrite Hfld in E by (right; right; apply in_map_iff; exists (p, s); auto).
      apply mem_In. exact (Hf p s f His E).
    - intros i Hi. rewrite map_map in Hi |- *. apply D2. exact Hi.
    - intros i Hi. apply Hin in Hi. rewrite map_app, !map_map. apply D1. exact Hi. }
  destruct (setup_run_good (q_names q) whole r fld (setup_calls z) m Hg) as (m' & R1 & R2 & _); [reflexivity|].
  exists m'. split; [exact R1|]. destruct (siqn_transport_plan q z Hz) as (A & _). rewrite Hc in R2. split; [|split].
  - intros s Hs. rewrite <- (Hfld s) by auto. apply R2. rewrite !in_app_iff. left. apply in_map_iff. exists (s_field s, s). split; [reflexivity|].
    apply A. exists s; auto.
  - intros s Hs. rewrite <- (Hfld s) by auto. apply R2. rewrite !in_app_iff. right; left. apply in_map_iff. exists s. auto.
  - intros p s Hs. rewrite <- (Hfld s) by (right; right; apply in_map_iff; exists (p, s); auto). apply R2. rewrite !in_app_iff. right; right.
    apply in_map_iff. exists (p, s). auto.
Qed.

(** A moist compressible configuration meets the hypotheses of the theorems above. *)
Definition ex_methods : list smethod := [mk_smethod "u" MTransport; mk_smethod "rho" MTransport; mk_smethod "theta" MTransport; mk_smethod "u" MDiffusion].
Definition ex_terms : list lterm :=
  [Terms.mk_lterm 0 "u" ["time_derivative"] None None; Terms.mk_lterm 1 "u" ["transport"] None None; Terms.mk_lterm 2 "u" ["diffusion"] None None;
   Terms.mk_lterm 3 "theta" ["time_derivative"] None None; Terms.mk_lterm 4 "theta" ["transport"] None None;
   Terms.mk_lterm 5 "theta" ["rain"] (Some "rain") None; Terms.mk_lterm 6 "rho" ["time_derivative"] None None; Terms.mk_lterm 7 "rho" ["transport"] None None].
Definition ex_config : siqn_args :=
  mk_siqn_args ["u"; "rho"; "theta"; "rain"] (Some ["rain"]) None false ex_methods
    [mk_scheme 0 (OneField "u") 1 true; mk_scheme 1 (FieldList ["rho"; "theta"]) 1 true] [] [] [(mk_param "rain" (Some true), mk_scheme 3 WholeSystem 1 true)] []
    [mk_scheme 2 (OneField "u") 1 false] [(mk_auxeq "tracer" false, mk_scheme 4 (OneField "tracer") 1 true)].
Example ex_config_accepted : exists z, siqn_construct ex_config = Ok z /\ z_solver z = ["u"; "rho"; "theta"] /\
  exists m', setup_run ["u"; "rho"; "theta"; "rain"] "CompressibleEuler" ex_terms (setup_calls z)
      (fun i => mk_object (match i with 1 => FieldList ["rho"; "theta"] | 3 => WholeSystem | _ => OneField "u" end)%nat None) = Ok m' /\
    option_map (map Terms.form_id) (o_terms (m' 0%nat)) = Some [0; 1]%nat /\ option_map (map Terms.form_id) (o_terms (m' 2%nat)) = Some [0; 2]%nat /\
    option_map (map Terms.form_id) (o_terms (m' 3%nat)) = Some [0; 3; 5; 6]%nat /\ o_field (m' 3%nat) = OneField "CompressibleEuler".
Proof. eexists. split; [reflexivity|]. split; [reflexivity|]. eexists. split; [reflexivity|]. repeat split. Qed.

(** Claim refuted: "each scheme is applied to the terms it was given for".  The constructor does not notice that one
    scheme object was given both for the transport and for the diffusion of the velocity: the second setup replaces
    the terms, and the transport step then applies the diffusion (and the velocity is never transported). *)
Theorem shared_scheme_object_refuted :
  exists q z m m', siqn_construct q = Ok z /\
    (forall s, In s (q_transports q) \/ In s (q_diffusions q) -> m (s_id s) = mk_object (s_field s) None) /\
    setup_run (q_names q) "CompressibleEuler" ex_terms (setup_calls z) m = Ok m' /\
    exists s ts, In (s_field s, s) (z_transport z) /\ o_terms (m' (s_id s)) = Some ts /\
      (forall t, In t ts -> ~ In "transport" (Terms.labels t)) /\
      exists t, In t ts /\ In "diffusion" (Terms.labels t).
Proof.
  pose (s := mk_scheme 0 (OneField "u") 1 true).
  exists (mk_siqn_args ["u"; "rho"; "theta"] None None false ex_methods [s] [] [] [] [] [s] []).
  eexists. exists (fun _ => mk_object (OneField "u") None). eexists. split; [reflexivity|].
  split; [intros s' [[<-|[]]|[<-|[]]]; reflexivity|]. split; [reflexivity|]. exists s. eexists. split; [left; reflexivity|].
  split; [reflexivity|]. split.
  - intros t [<-|[<-|[]]]; simpl; intuition discriminate.
  - eexists. split; [right; left; reflexivity|simpl; auto].
Qed.
(** Two parametrisations sharing one scheme object without a field name: accepted by the constructor's checks, but the
    second setup fails, because the first has overwritten the object's field name. *)
Theorem shared_physics_scheme_refuted :
  exists q z, siqn_construct q = Ok z /\
    (forall s, In s (map snd (q_physics q)) -> s_field s = WholeSystem) /\
    forall m, m 3%nat = mk_object WholeSystem None ->
      setup_run (q_names q) "CompressibleEuler" ex_terms (setup_calls z) m = Err ValueError.
Proof.
  pose (s := mk_scheme 3 WholeSystem 1 true).
  exists (mk_siqn_args ["u"; "rho"; "theta"] None None false ex_methods [] [] [] [(mk_param "rain" None, s); (mk_param "evaporation" None, s)] [] [] []).
  eexists. split; [reflexivity|]. split; [intros s' [<-|[<-|[]]]; reflexivity|].
  intros m Hm. simpl. unfold setup_object at 1. rewrite Hm. reflexivity.
Qed.

(** ** 6. Terms without a scheme *)
Section Dropped.
  Context {I : Type}.
  Import Siqn.
  Definition with_residual (c : siqn I) (r : list (fterm I)) : siqn I :=
    mk_siqn r (names c) (solver_prognostics c) (alpha_ c) (dt_ c) (beta c) (num_outer c) (num_inner c) (accelerator c) (mass_solve c) (linear_solve c)
      (transports c) (predictor c) (slow_physics c) (fast_physics c) (inner_physics c) (final_steps c).
  (** The step does not see the transport, diffusion and physics terms of the equation at all: they act only through the
      schemes.  [extra] are any such terms, anywhere in the residual. *)
Theorem siqn_ignores_terms_without_scheme : forall (c : siqn I) r1 extra r2 x,
    (forall t, In t extra -> In Transport (flabels t) \/ In Diffusion (flabels t) \/ In Physics (flabels t)) ->
    siqn_timestep (with_residual c (r1 ++ extra ++ r2)) x = siqn_timestep (with_residual c (r1 ++ r2)) x.
  Proof.
    intros c r1 extra r2 x H.
    assert (forcing_terms (r1 ++ extra ++ r2) = forcing_terms (r1 ++ r2)) as E.
    { unfold forcing_terms. rewrite !filter_app. f_equal. induction extra as [|t l IH]; [reflexivity|]. cbn [app filter].
      assert (has_any [Transport; Diffusion; Physics] t = true) as Ht.
      { assert (forall l, In l (flabels t) -> existsb (flabel_eqb l) (flabels t) = true) as M.
        { intros a Ha. apply existsb_exists. exists a. split; auto. destruct a; reflexivity. }
        unfold has_any. cbn [existsb]. destruct (H t (or_introl eq_refl)) as [K|[K|K]]; rewrite (M _ K); rewrite ?orb_true_r; reflexivity. }
      rewrite Ht. cbn [negb]. apply IH. intros t' Ht'. apply H. right; auto. }
    assert (L_explicit (r1 ++ extra ++ r2) (alpha_ c) (dt_ c) = L_explicit (r1 ++ r2) (alpha_ c) (dt_ c)) as E1 by (unfold L_explicit; rewrite E; reflexivity).
    assert (L_implicit (r1 ++ extra ++ r2) (alpha_ c) (dt_ c) = L_implicit (r1 ++ r2) (alpha_ c) (dt_ c)) as E2 by (unfold L_implicit; rewrite E; reflexivity).
    assert (forall n k xp af y, inner_loop (with_residual c (r1 ++ extra ++ r2)) n k xp af y = inner_loop (with_residual c (r1 ++ r2)) n k xp af y) as E3.
    { induction n as [|n IH]; intros k xp af y; [reflexivity|]. cbn [inner_loop]. rewrite IH. unfold inner_step, inner_rhs, apply_implicit.
      cbn [residual_ with_residual alpha_ dt_ mass_solve accelerator beta inner_physics names solver_prognostics linear_solve]. rewrite E2. reflexivity. }
    assert (compute_xstar (with_residual c (r1 ++ extra ++ r2)) x = compute_xstar (with_residual c (r1 ++ r2)) x) as E4.
    { unfold compute_xstar, apply_explicit. cbn [residual_ with_residual alpha_ dt_ mass_solve beta inner_physics slow_physics]. rewrite E1. reflexivity. }
    assert (forall n xs s, niter n (outer_step (with_residual c (r1 ++ extra ++ r2)) x xs) s = niter n (outer_step (with_residual c (r1 ++ r2)) x xs) s) as E5.
    { induction n as [|n IH]; intros xs s; [reflexivity|]. cbn [niter]. rewrite IH. f_equal. destruct s as [xp y]. unfold outer_step.
      cbn [num_inner with_residual]. rewrite E3. reflexivity. }
    unfold siqn_timestep. cbn [num_outer with_residual final_steps]. rewrite E4, E5. reflexivity.
  Qed.
  (** Repeated entries (several transport methods for one variable) do no harm: each entry transports from the same
      input. *)
  Definition with_transports (c : siqn I) l : siqn I :=
    mk_siqn (residual_ c) (names c) (solver_prognostics c) (alpha_ c) (dt_ c) (beta c) (num_outer c) (num_inner c) (accelerator c) (mass_solve c) (linear_solve c)
      l (predictor c) (slow_physics c) (fast_physics c) (inner_physics c) (final_steps c).
  Lemma sset_again : forall (x : state I) n v w m, sset (sset x n v) n w m = sset x n w m.
  Proof. intros. unfold sset. destruct (String.eqb m n); reflexivity. Qed.
  Definition one_transport (c : siqn I) (xn xnp1 xstar : state I) (ns : string * (state I -> state I -> vec I -> vec I)) : vec I :=
    match predictor c with
    | Some (pname, pre) => if String.eqb (fst ns) pname
        then xstar (fst ns) +v snd ns xn xnp1 (pre xn (xstar (fst ns))) -v pre xn (xstar (fst ns))
        else snd ns xn xnp1 (xstar (fst ns))
    | None => snd ns xn xnp1 (xstar (fst ns))
    end.
  Lemma transport_fields_fold : forall (c : siqn I) l xn xnp1 xstar xp,
    transport_fields (with_transports c l) xn xnp1 xstar xp = fold_left (fun xp ns => sset xp (fst ns) (one_transport c xn xnp1 xstar ns)) l xp.
  Proof.
    intros c l xn xnp1 xstar. unfold transport_fields. cbn [transports with_transports predictor]. induction l as [|[n s] l IH]; intros xp; [reflexivity|].
    cbn [fold_left]. rewrite IH. f_equal. unfold one_transport. destruct (predictor c) as [[pn pre]|]; cbn [fst snd]; [destruct (String.eqb n pn)|]; reflexivity.
  Qed.
  Lemma transport_last : forall l (g : string * (state I -> state I -> vec I -> vec I) -> vec I) xp n,
    fold_left (fun xp ns => sset xp (fst ns) (g ns)) l xp n =
    match find (fun ns => String.eqb (fst ns) n) (rev l) with Some ns => g ns | None => xp n end.
  Proof.
    intros l g. induction l as [|a l IH]; intros xp n; [reflexivity|]. cbn [fold_left rev]. rewrite IH.
    assert (forall (p : string * (state I -> state I -> vec I -> vec I) -> bool) l1 l2, find p (l1 ++ l2) = match find p l1 with Some y => Some y | None => find p l2 end) as Fa.
    { intros p l1 l2. induction l1 as [|b l1 IH1]; [reflexivity|]. cbn [app find]. destruct (p b); auto. }
    rewrite Fa. destruct (find (fun ns => String.eqb (fst ns) n) (rev l)); [reflexivity|]. cbn [find]. unfold sset. rewrite (String.eqb_sym (fst a) n).
    destruct (String.eqb n (fst a)); reflexivity.
  Qed.
Theorem repeated_methods_harmless : forall (c : siqn I) l (k : string -> nat) xn xnp1 xstar xp n,
    transport_fields (with_transports c (flat_map (fun ns => repeat ns (S (k (fst ns)))) l)) xn xnp1 xstar xp n =
    transport_fields (with_transports c l) xn xnp1 xstar xp n.
  Proof.
    intros c l k xn xnp1 xstar xp n. rewrite !transport_fields_fold. generalize (one_transport c xn xnp1 xstar). intros g. revert xp n.
    assert (forall (a : string * (state I -> state I -> vec I -> vec I)) j (xp : state I) m, fold_left (fun xp ns => sset xp (fst ns) (g ns)) (repeat a (S j)) xp m = sset xp (fst a) (g a) m) as R.
    { intros a j. induction j as [|j IH]; intros xp m; [reflexivity|]. change (repeat a (S (S j))) with (a :: repeat a (S j)). cbn [fold_left].
      rewrite IH. apply sset_again. }
    assert (forall l (x y : state I), (forall m, x m = y m) -> forall m, fold_left (fun xp ns => sset xp (fst ns) (g ns)) l x m = fold_left (fun xp ns => sset xp (fst ns) (g ns)) l y m) as Ext.
    { intros l0. induction l0 as [|a l0 IH]; intros x y H m; [apply H|]. cbn [fold_left]. apply IH. intros m'. unfold sset. rewrite H. reflexivity. }
    induction l as [|a l IH]; intros xp n; [reflexivity|]. cbn [flat_map]. rewrite fold_left_app. cbn [fold_left]. rewrite <- IH. apply Ext. apply R.
  Qed.
  (** Two schemes for one field: both are accepted and set up, but only the last one has an effect. *)
Theorem only_last_transport_scheme_counts : forall (c : siqn I) l1 a l2 xn xnp1 xstar xp n,
    In (fst a) (map fst l2) ->
    transport_fields (with_transports c (l1 ++ a :: l2)) xn xnp1 xstar xp n = transport_fields (with_transports c (l1 ++ l2)) xn xnp1 xstar xp n.
  Proof.
    intros c l1 a l2 xn xnp1 xstar xp n Ha. rewrite !transport_fields_fold, !transport_last, !rev_app_distr. cbn [rev]. rewrite <- app_assoc.
    assert (forall (p : string * (state I -> state I -> vec I -> vec I) -> bool) u v, find p (u ++ v) = match find p u with Some y => Some y | None => find p v end) as Fa.
    { intros p u v. induction u as [|b u IH1]; [reflexivity|]. cbn [app find]. destruct (p b); auto. }
    rewrite !Fa. destruct (find (fun ns => String.eqb (fst ns) n) (rev l2)) eqn:E; [reflexivity|]. cbn [app find].
    destruct (String.eqb (fst a) n) eqn:En; [|reflexivity]. exfalso. apply String.eqb_eq in En. subst n.
    apply in_map_iff in Ha. destruct Ha as (b & Hb & Hin). apply in_rev in Hin. pose proof (find_none _ _ E b Hin) as K. simpl in K.
    rewrite Hb, String.eqb_refl in K. discriminate.
  Qed.
End Dropped.

(** Claim refuted: "every term of the equation set is stepped by an accepted configuration" - a configuration without
    a transport scheme for a field with a transport term is accepted, and the term has no effect: with a transport term
    of rate 1 the field after the step is the same as without it. *)
Theorem missing_transport_scheme_refuted :
  (exists z, siqn_construct (mk_siqn_args ["u"; "D"] None None false [mk_smethod "u" MTransport; mk_smethod "D" MTransport]
                [mk_scheme 0 (OneField "u") 1 true] [] [] [] [] [] []) = Ok z) /\
  forall (I : Type) (c : Siqn.siqn I) (F : Siqn.state I -> Siqn.state I) x,
    Siqn.siqn_timestep (with_residual c (Siqn.residual_ c ++ [Siqn.mk_fterm [Siqn.Transport] F])) x =
    Siqn.siqn_timestep (with_residual c (Siqn.residual_ c)) x.
Proof.
  split; [eexists; reflexivity|]. intros I c F x.
  pose proof (siqn_ignores_terms_without_scheme c (Siqn.residual_ c) [Siqn.mk_fterm [Siqn.Transport] F] [] x) as H.
  rewrite !app_nil_r in H. apply H. intros t [<-|[]]. left. left. reflexivity.
Qed.

(** ** 7. Timestepper *)
Theorem timestepper_physics_needs_explicit : forall s ps,
  timestepper_construct s (Some ps) = Ok tt <-> s_explicit s = true \/ (List.length ps <= 1)%nat.
Proof.
  intros s ps. unfold timestepper_construct. destruct (Nat.ltb 1 (List.length ps)) eqn:E.
  - apply Nat.ltb_lt in E. rewrite check_ok. split; [auto|]. intros [H|H]; [auto|lia].
  - apply Nat.ltb_ge in E. split; auto.
Qed.
(** Claim refuted: "[parametrisations] can only be used when the time discretisation is explicit" (docstring): a single
    parametrisation with an implicit scheme is accepted, two are not. *)
Theorem timestepper_implicit_physics_refuted : exists s p,
  s_explicit s = false /\ timestepper_construct s (Some [p]) = Ok tt /\ timestepper_construct s (Some [p; p]) = Err AssertionError.
Proof. exists (mk_scheme 0 (OneField "q") 1 false), (mk_param "rain" (Some true)). repeat split. Qed.
Example trbdf2_cases :
  (exists z, tr_construct (mk_tr_args ["u"; "rho"; "theta"; "z"] (Some ["z"]) None true (mk_smethod "z" MTransport :: ex_methods)
     [mk_scheme 0 (OneField "z") 1 true; mk_scheme 1 (OneField "theta") 1 true] [] None [(mk_param "rain" (Some true), mk_scheme 3 WholeSystem 1 true)]
     [mk_scheme 2 (OneField "u") 1 false]) = Ok z /\ z_non_solver z = ["z"]) /\
  tr_construct (mk_tr_args ["u"; "rho"; "theta"] None None false ex_methods [mk_scheme 1 (FieldList ["rho"; "theta"]) 1 true] [] None [] []) = Err AssertionError /\
  tr_construct (mk_tr_args ["u"; "rho"; "theta"] None None false ex_methods [] [] (Some []) [] []) = Err NotImplementedError.
Proof. split; [eexists; split; reflexivity|split; reflexivity]. Qed.

(** C108-C110: VorticityTransport. *)
From Coq Require Import Reals Lra Lia List.
Import ListNotations.
From Verif Require Import Base Vec Transport EquationsProps Vorticity.
Open Scope R_scope.

Lemma ds_0 G f : (forall b, (b < nbp G)%nat -> f b = 0) -> ds_ G f = 0.
Proof. intros H. unfold ds_. apply rsum_0. intros i Hi. rewrite H by exact Hi. ring. Qed.
Lemma ds_ext G f g : (forall b, (b < nbp G)%nat -> f b = g b) -> ds_ G f = ds_ G g.
Proof. intros H. unfold ds_. apply rsum_ext. intros i Hi. rewrite H by exact Hi. reflexivity. Qed.
Lemma ds_plus G f g : ds_ G (fun b => f b + g b) = ds_ G f + ds_ G g.
Proof. unfold ds_. rewrite <- rsum_add. apply rsum_ext. intros. ring. Qed.
Lemma ds_scale G c f : ds_ G (fun b => c * f b) = c * ds_ G f.
Proof. unfold ds_. rewrite <- rsum_scal. apply rsum_ext. intros. ring. Qed.
Lemma dS_0 G f : (forall k, f k = 0) -> dS_ G f = 0.
Proof. intros H. unfold dS_. apply rsum_0. intros i _. rewrite H. ring. Qed.

(** ** Specification *)
(** the velocity test function is perp(grad(vorticity test function)), with its derivatives and traces *)
Definition is_rot (t : mixed_test) : Prop :=
  forall k, (forall i, pv (tF t) k i = pv (zt_rot (tZ t)) k i) /\
            (forall i j, pgrad (tF t) k i j = pgrad (zt_rot (tZ t)) k i j) /\
            (forall i, pplus (tF t) k i = pplus (zt_rot (tZ t)) k i) /\
            (forall i, pbdry (tF t) k i = pbdry (zt_rot (tZ t)) k i).
Definition vanishes_on_boundary (G : geometry) (z : vort_test) : Prop := forall b, (b < nbp G)%nat -> sb (zt z) b = 0.
(** Z is the weak curl of F against z, for test functions vanishing on the boundary *)
Definition weak_curl (G : geometry) (F : planar) (Z : sfield) (z : vort_test) : Prop :=
  dx G (fun k => sv Z k * sv (zt z) k) + dx G (fun k => dot2 (pv (zt_rot z) k) (pv F k)) = 0.
(** the quantity kept: weak curl of F minus Z, against z *)
Definition curl_defect (G : geometry) (X : mixed_state) (z : vort_test) : R :=
  dx G (fun k => sv (mZ X) k * sv (zt z) k) + dx G (fun k => dot2 (pv (zt_rot z) k) (pv (mF X) k)).

Lemma mix_0 t : is_rot t -> forall k,
  (forall i, pv (mix_test t) k i = 0) /\ (forall i j, pgrad (mix_test t) k i j = 0) /\
  (forall i, pplus (mix_test t) k i = 0) /\ (forall i, pbdry (mix_test t) k i = 0).
Proof.
  intros H k. destruct (H k) as (A & B & C & D). unfold mix_test, psub, pv, pgrad, pplus, pbdry, sadd, sopp in *. cbn [fst snd sv sg sp sm sb] in *.
  repeat split.
  - intros [|i]; [specialize (A 0%nat)|specialize (A 1%nat)]; cbn in A; rewrite A; ring.
  - intros [|i] j; [specialize (B 0%nat j)|specialize (B 1%nat j)]; cbn in B; rewrite B; ring.
  - intros [|i]; [specialize (C 0%nat)|specialize (C 1%nat)]; cbn in C; rewrite C; ring.
  - intros [|i]; [specialize (D 0%nat)|specialize (D 1%nat)]; cbn in D; rewrite D; ring.
Qed.

Theorem curl_of_transport_vanishes : forall G np nm nb o u uF_b rot_uF X t,
  is_rot t -> vanishes_on_boundary G (tZ t) ->
  transport_form G np nm nb o u uF_b rot_uF X t = 0.
Proof.
  intros G np nm nb o u uF_b rot_uF X t H Hb. pose proof (mix_0 t H) as M.
  assert (I : invariant_form G nb u X t = 0).
  { unfold invariant_form. cbv zeta.
    rewrite (dx_0 G (fun k => dot2 (pv (mix_test t) k) _)) by (intros k; unfold dot2; destruct (M k) as (A & _); rewrite !A; ring).
    rewrite (dx_0 G (fun k => pdiv _ k * _)) by (intros k; unfold pdiv; destruct (M k) as (_ & A & _); rewrite !A; ring).
    rewrite (ds_0 G (fun b => sb _ b * _ * _)) by (intros b L; rewrite (Hb b L); ring).
    rewrite (ds_0 G (fun b => dot2 (pbdry _ b) _ * _)) by (intros b L; unfold dot2 at 1; destruct (M b) as (_ & _ & _ & A); rewrite !A; ring).
    ring. }
  assert (C : commutator_form G np nm nb u uF_b X t = 0).
  { unfold commutator_form. cbv zeta.
    rewrite (ds_0 G) by (intros b L; unfold dot2; rewrite (Hb b L); ring).
    rewrite !(dx_0 G (fun k => dot2 _ (div_outer _ _ k)))
      by (intros k; unfold dot2, div_outer, pdiv; destruct (M k) as (A & B & _); rewrite !A, !B; ring).
    rewrite !(dS_0 G) by (intros f; unfold dot2 at 1; destruct (M f) as (_ & _ & A & _); rewrite !A; ring).
    ring. }
  assert (S : forall tau r, supg_transport G tau u r X t = 0).
  { intros tau r. unfold supg_transport.
    rewrite (dx_0 G) by (intros k; unfold dot2 at 1; destruct (M k) as (A & _); rewrite !A; ring).
    destruct r; [rewrite (dx_0 G) by (intros k; unfold dot2 at 1; destruct (M k) as (A & _); rewrite !A; ring)|]; ring. }
  unfold transport_form. rewrite I, C. destruct (commute o), (use_supg o); rewrite ?S; ring.
Qed.

Lemma time_form_rot G o u X t : is_rot t -> time_form G o u X t = curl_defect G X (tZ t).
Proof.
  intros H. pose proof (mix_0 t H) as M. unfold time_form, curl_defect.
  assert (S : supg_mass G (supg_tau (vt_dt o) (vt_mean_dx o) u) (vt_dt o) u X t = 0).
  { unfold supg_mass. apply dx_0. intros k. unfold dot2. destruct (M k) as (A & _). rewrite !A. ring. }
  rewrite S. rewrite (dx_ext G (fun k => dot2 (pv (mF X) k) (pv (tF t) k)) (fun k => dot2 (pv (zt_rot (tZ t)) k) (pv (mF X) k)))
    by (intros k; unfold dot2; destruct (H k) as (A & _); rewrite !A; ring).
  destruct (use_supg o); ring.
Qed.

(** A step of a time discretisation for the mixed system: the new state's mass term is the old one's plus a combination of
    transport terms at stages, with the same options and any (possibly different) transporting velocities; and the SUPG mass
    term may be evaluated with different velocities for the old and new states. *)
Definition mixed_step (G : geometry) np nm nb (o : vt_options) (u0 u1 : planar)
  (stages : list (R * planar * (nat -> nat -> R) * (nat -> R) * mixed_state)) (X0 X1 : mixed_state) (t : mixed_test) : Prop :=
  time_form G o u1 X1 t = time_form G o u0 X0 t
    + fold_right (fun s acc => let '(c, u, uF_b, rot_uF, X) := s in c * transport_form G np nm nb o u uF_b rot_uF X t + acc) 0 stages.

Lemma fold_0 {A} (f : A -> R -> R) l : (forall a x, x = 0 -> f a x = 0) -> fold_right f 0 l = 0.
Proof. intros H. induction l; cbn; [reflexivity|]. apply H. exact IHl. Qed.

(** The mixed scheme keeps the vorticity and the weak curl of the velocity together: whatever the stages, if the step holds
    for the test function pair (perp(grad z), z), the defect does not change. *)
Theorem vorticity_stays_curl_of_velocity : forall G np nm nb o u0 u1 stages X0 X1 t,
  is_rot t -> vanishes_on_boundary G (tZ t) ->
  mixed_step G np nm nb o u0 u1 stages X0 X1 t ->
  curl_defect G X1 (tZ t) = curl_defect G X0 (tZ t).
Proof.
  intros G np nm nb o u0 u1 stages X0 X1 t H Hb E. unfold mixed_step in E. rewrite !(time_form_rot G o _ _ t H) in E. rewrite E.
  rewrite fold_0; [ring|]. intros [[[[c u] uF] ru] X] x ->. rewrite (curl_of_transport_vanishes G np nm nb o u uF ru X t H Hb). ring.
Qed.
(** Hence, when the test space contains the pair for every z in the vorticity space (the de Rham property of C73-), a vorticity
    which is the weak curl of the velocity remains so over any number of steps. *)
Inductive mixed_run (G : geometry) np nm nb (o : vt_options) (T : mixed_test -> Prop) : mixed_state -> mixed_state -> Prop :=
| mr_refl X : mixed_run G np nm nb o T X X
| mr_step X0 X1 X2 u0 u1 stages : (forall t, T t -> mixed_step G np nm nb o u0 u1 stages X0 X1 t) ->
    mixed_run G np nm nb o T X1 X2 -> mixed_run G np nm nb o T X0 X2.
Theorem vorticity_stays_curl_of_velocity_run : forall G np nm nb o (T : mixed_test -> Prop) (Vz : vort_test -> Prop) X0 X1,
  (forall z, Vz z -> vanishes_on_boundary G z /\ exists t, T t /\ is_rot t /\ tZ t = z) ->
  mixed_run G np nm nb o T X0 X1 ->
  (forall z, Vz z -> weak_curl G (mF X0) (mZ X0) z) ->
  forall z, Vz z -> weak_curl G (mF X1) (mZ X1) z.
Proof.
  intros G np nm nb o T Vz X0 X1 HV HR. induction HR as [X|X0 X1 X2 u0 u1 st Hs HR IH]; intros H0 z Hz; [exact (H0 z Hz)|].
  apply IH; [|exact Hz]. intros z' Hz'. destruct (HV z' Hz') as (Hb & t & HT & Hrot & <-).
  pose proof (vorticity_stays_curl_of_velocity G np nm nb o u0 u1 st X0 X1 t Hrot Hb (Hs t HT)) as E.
  unfold weak_curl. unfold curl_defect in E. rewrite E. exact (H0 _ Hz').
Qed.

(** Total vorticity: against z = 1 (with zero velocity test) the transport form is only the boundary flux. *)
Definition total_test (t : mixed_test) : Prop :=
  (forall k i, pv (tF t) k i = 0) /\ (forall k, sv (zt (tZ t)) k = 1) /\ (forall b, sb (zt (tZ t)) b = 1) /\ is_rot t.
Theorem total_vorticity : forall G np nm nb o u uF_b rot_uF X t, total_test t ->
  time_form G o u X t = dx G (sv (mZ X)) /\
  transport_form G np nm nb o u uF_b rot_uF X t =
    ds_ G (fun b => sb (mZ X) b * dot2 (nb b) (pbdry u b)) - (if commute o then ds_ G (fun b => dot2 (nb b) (perp2d (uF_b b))) else 0).
Proof.
  intros G np nm nb o u uF_b rot_uF X t (HF & H1 & Hb & H). pose proof (mix_0 t H) as M. split.
  - rewrite (time_form_rot G o u X t H). unfold curl_defect.
    rewrite (dx_ext G (fun k => sv (mZ X) k * _) (sv (mZ X))) by (intros k; rewrite H1; ring).
    rewrite (dx_0 G (fun k => dot2 _ _)); [ring|]. intros k. unfold dot2. destruct (H k) as (A & _). rewrite <- !A, !HF. ring.
  - assert (I : invariant_form G nb u X t = ds_ G (fun b => sb (mZ X) b * dot2 (nb b) (pbdry u b))).
    { unfold invariant_form. cbv zeta.
      rewrite (dx_0 G (fun k => dot2 (pv (mix_test t) k) _)) by (intros k; unfold dot2; destruct (M k) as (A & _); rewrite !A; ring).
      rewrite (dx_0 G (fun k => pdiv _ k * _)) by (intros k; unfold pdiv; destruct (M k) as (_ & A & _); rewrite !A; ring).
      rewrite (ds_0 G (fun b => dot2 (pbdry _ b) _ * _)) by (intros b L; unfold dot2 at 1; destruct (M b) as (_ & _ & _ & A); rewrite !A; ring).
      rewrite (ds_ext G (fun b => sb _ b * _ * _) (fun b => sb (mZ X) b * dot2 (nb b) (pbdry u b))) by (intros b _; rewrite Hb; ring). ring. }
    assert (C : commutator_form G np nm nb u uF_b X t = - ds_ G (fun b => dot2 (nb b) (perp2d (uF_b b)))).
    { unfold commutator_form. cbv zeta.
      rewrite !(dx_0 G (fun k => dot2 _ (div_outer _ _ k)))
        by (intros k; unfold dot2, div_outer, pdiv; destruct (M k) as (A & B & _); rewrite !A, !B; ring).
      rewrite !(dS_0 G) by (intros f; unfold dot2 at 1; destruct (M f) as (_ & _ & A & _); rewrite !A; ring).
      rewrite (ds_ext G _ (fun b => dot2 (nb b) (perp2d (uF_b b)))) by (intros b _; unfold dot2; rewrite Hb; ring). ring. }
    assert (S : forall tau r, supg_transport G tau u r X t = 0).
    { intros tau r. unfold supg_transport.
      rewrite (dx_0 G) by (intros k; unfold dot2 at 1; destruct (M k) as (A & _); rewrite !A; ring).
      destruct r; [rewrite (dx_0 G) by (intros k; unfold dot2 at 1; destruct (M k) as (A & _); rewrite !A; ring)|]; ring. }
    unfold transport_form. rewrite I, C. destruct (commute o), (use_supg o); rewrite ?S; ring.
Qed.

(** ** Consistency *)
(** (u . grad) F *)
Definition u_grad_F (u F : planar) (k : nat) (j : nat) : R := pv u k 0 * pgrad F k j 0 + pv u k 1 * pgrad F k j 1.
Definition curl2 (F : planar) (k : nat) : R := pgrad F k 1 0 - pgrad F k 0 1.
Definition p_continuous (a : planar) : Prop := forall f i, pplus a f i = pminus a f i.
(** the scalar u . F and its gradient *)
Definition u_dot_F (u F : planar) : sfield := sadd (product (fst u) (fst F)) (product (snd u) (snd F)).
(** divergence theorem for s m, with m . n continuous and s continuous *)
Definition div_theorem_2d (G : geometry) (nb : nat -> nat -> R) (s : sfield) (m : planar) : Prop :=
  dx G (fun k => sv s k * pdiv m k + (pv m k 0 * sg s k 0 + pv m k 1 * sg s k 1)) = ds_ G (fun b => sb s b * dot2 (pbdry m b) (nb b)).

(** With a vorticity equal to the curl, smooth fields, and the commutator terms, the transport form tested with (w, 0) is the
    documented transport of a vector field, w . (u . grad) F; without them this holds when F = u (self-advection). *)
Theorem vorticity_transport_documented : forall G np nm nb u uF_b X t,
  (forall k, sv (mZ X) k = curl2 (mF X) k) -> p_continuous u -> p_continuous (mF X) ->
  (forall b, sb (zt (tZ t)) b = 0) ->
  div_theorem_2d G nb (u_dot_F u (mF X)) (mix_test t) ->
  let advect := dx G (fun k => dot2 (pv (mix_test t) k) (u_grad_F u (mF X) k)) in
  invariant_form G nb u X t + commutator_form G np nm nb u uF_b X t = advect /\
  ((forall k i j, pv u k i = pv (mF X) k i /\ pgrad u k i j = pgrad (mF X) k i j) -> invariant_form G nb u X t = advect).
Proof.
  intros G np nm nb u uF_b X t HZ Hu HF Hz HD advect. set (m := mix_test t) in *. set (F := mF X) in *.
  assert (I : invariant_form G nb u X t =
     dx G (fun k => dot2 (pv m k) (fun i => curl2 F k * perp2d (pv u k) i + 1/2 * (pv u k 0 * pgrad F k 0 i + pv u k 1 * pgrad F k 1 i
                     + (pv F k 0 * pgrad u k 0 i + pv F k 1 * pgrad u k 1 i))))).
  { unfold invariant_form. cbv zeta. fold m F. rewrite (ds_0 G (fun b => sb _ b * _ * _)) by (intros b _; rewrite Hz; ring).
    unfold div_theorem_2d in HD.
    rewrite (ds_ext G (fun b => dot2 (pbdry m b) (nb b) * _) (fun b => sb (u_dot_F u F) b * dot2 (pbdry m b) (nb b)))
      by (intros b _; unfold u_dot_F, dot2, pbdry; cbn; ring).
    rewrite <- HD. rewrite (dx_plus G (fun k => sv (u_dot_F u F) k * pdiv m k)).
    rewrite (dx_ext G (fun k => sv (u_dot_F u F) k * pdiv m k) (fun k => pdiv m k * dot2 (pv u k) (pv F k)))
      by (intros k; unfold u_dot_F, dot2, pv; cbn; ring).
    match goal with |- ?a + 0 - 1/2 * ?b + 1/2 * (?b + ?c) = _ => transitivity (a + 1/2 * c); [ring|] end.
    rewrite <- dx_scale, <- dx_plus. apply dx_ext. intros k. rewrite HZ. unfold dot2, u_dot_F, pv, pgrad. cbn. unfold perp2d. cbn. fold F. ring. }
  assert (C : commutator_form G np nm nb u uF_b X t =
     dx G (fun k => dot2 (pv m k) (fun i => 1/2 * (pv u k 0 * pgrad F k 0 i + pv u k 1 * pgrad F k 1 i
                     - (pv F k 0 * pgrad u k 0 i + pv F k 1 * pgrad u k 1 i))))).
  { unfold commutator_form. cbv zeta. fold m F. rewrite (ds_0 G) by (intros b _; unfold dot2; rewrite Hz; ring).
    rewrite !(dS_0 G) by (intros f; unfold dot2 at 2; rewrite ?(Hu f), ?(HF f); ring).
    transitivity ((-1/2) * dx G (fun k => dot2 (pv F k) (div_outer u m k)) + 1/2 * dx G (fun k => dot2 (pv u k) (div_outer F m k))); [field|].
    rewrite <- !dx_scale, <- dx_plus. apply dx_ext. intros k. unfold dot2, div_outer. field. }
  split.
  - rewrite I, C, <- dx_plus. unfold advect. apply dx_ext. intros k. unfold dot2, u_grad_F, curl2, perp2d. field.
  - intros Hs. rewrite I. unfold advect. apply dx_ext. intros k. unfold dot2, u_grad_F, curl2, perp2d.
    destruct (Hs k 0%nat 0%nat) as [-> A], (Hs k 1%nat 0%nat) as [-> B], (Hs k 0%nat 1%nat) as [_ D], (Hs k 1%nat 1%nat) as [_ E]. rewrite A, B, D, E. field.
Qed.

(** Against z, the transport form is (minus) the weak curl of (u . grad) F, as it should be. *)
Theorem vorticity_equation_documented : forall G np nm nb u uF_b X t,
  (forall k, sv (mZ X) k = curl2 (mF X) k) -> p_continuous u -> p_continuous (mF X) ->
  (forall k i, pv (tF t) k i = 0) -> 
  div_theorem_2d G nb (u_dot_F u (mF X)) (mix_test t) ->
  invariant_form G nb u X t + commutator_form G np nm nb u uF_b X t =
    - dx G (fun k => dot2 (pv (zt_rot (tZ t)) k) (u_grad_F u (mF X) k))
    - ds_ G (fun b => sb (zt (tZ t)) b * dot2 (nb b) (perp2d (fun i => sb (mZ X) b * perp2d (pbdry u b) i + uF_b b i))).
Proof.
  intros G np nm nb u uF_b X t HZ Hu HF Ht HD.
  set (t' := {| tF := tF t; tZ := {| zt := {| sv := sv (zt (tZ t)); sg := sg (zt (tZ t)); sp := sp (zt (tZ t)); sm := sm (zt (tZ t)); sb := fun _ => 0 |}; zt_rot := zt_rot (tZ t) |} |}).
  destruct (vorticity_transport_documented G np nm nb u uF_b X t' HZ Hu HF (fun _ => eq_refl) HD) as [E _].
  change (mix_test t') with (mix_test t) in E.
  rewrite (dx_ext G _ (fun k => (-1) * dot2 (pv (zt_rot (tZ t)) k) (u_grad_F u (mF X) k))) in E.
  2:{ intros k. pose proof (Ht k 0%nat) as A. pose proof (Ht k 1%nat) as B. unfold mix_test, psub, dot2, pv in *. cbn in *. rewrite A, B. ring. }
  rewrite dx_scale in E. transitivity (invariant_form G nb u X t' + commutator_form G np nm nb u uF_b X t'
     + ds_ G (fun b => sb (zt (tZ t)) b * sb (mZ X) b * dot2 (nb b) (pbdry u b)) - ds_ G (fun b => dot2 (nb b) (fun i => sb (zt (tZ t)) b * perp2d (uF_b b) i))).
  - unfold invariant_form, commutator_form. cbv zeta. change (mix_test t') with (mix_test t).
    rewrite (ds_0 G (fun b => sb (zt (tZ t')) b * _ * _)) by (intros b _; cbn; ring).
    rewrite (ds_0 G (fun b => dot2 (nb b) (fun i => sb (zt (tZ t')) b * _))) by (intros b _; unfold dot2; cbn; ring). ring.
  - rewrite E. unfold Rminus. rewrite Rplus_assoc. f_equal; [ring|].
    match goal with |- ?a + - ?b = - ?c => assert (EE : c = (-1) * a + b) end.
    { rewrite <- ds_scale, <- ds_plus. apply ds_ext. intros b _. unfold dot2, perp2d. ring. }
    rewrite EE. ring.
Qed.

(** Enstrophy: without commutator and SUPG, on a closed mesh and with a divergence-free velocity, the form tested with
    (0, Z) vanishes; the midpoint rule conserves enstrophy. *)
Definition rot_of (Z : sfield) (z : vort_test) : Prop :=
  (forall k, sv (zt z) k = sv Z k) /\ (forall k i, pv (zt_rot z) k i = perp2d (sg Z k) i) /\ (forall k, pdiv (zt_rot z) k = 0).
Definition closed_mesh (G : geometry) : Prop := nbp G = 0%nat.
Definition enstrophy (G : geometry) (Z : sfield) : R := dx G (fun k => sv Z k * sv Z k).
Definition mid (X0 X1 : mixed_state) : mixed_state :=
  let h a b := {| sv := fun k => (sv a k + sv b k) / 2; sg := fun k i => (sg a k i + sg b k i) / 2; sp := fun f => (sp a f + sp b f) / 2;
                  sm := fun f => (sm a f + sm b f) / 2; sb := fun f => (sb a f + sb b f) / 2 |} in
  {| mF := (h (fst (mF X0)) (fst (mF X1)), h (snd (mF X0)) (snd (mF X1))); mZ := h (mZ X0) (mZ X1) |}.
Lemma enstrophy_form G nb u X t : closed_mesh G ->
  (forall k i, pv (tF t) k i = 0) -> (forall k i j, pgrad (tF t) k i j = 0) -> rot_of (mZ X) (tZ t) ->
  (forall k, pdiv u k = 0) -> div_theorem_2d G nb (product (mZ X) (mZ X)) u ->
  invariant_form G nb u X t = 0.
Proof.
  intros Hc H0 H1 (Z1 & Z2 & Z3) Hu HD. unfold invariant_form. cbv zeta. unfold div_theorem_2d in HD.
  rewrite !(ds_0 G) by (intros b L; rewrite Hc in L; lia). rewrite (ds_0 G) in HD by (intros b L; rewrite Hc in L; lia).
  rewrite (dx_0 G (fun k => pdiv (mix_test t) k * _)).
  2:{ intros k. pose proof (Z3 k) as A. pose proof (H1 k 0%nat 0%nat) as B. pose proof (H1 k 1%nat 1%nat) as C.
      replace (pdiv (mix_test t) k) with (- pdiv (zt_rot (tZ t)) k); [rewrite A; ring|].
      unfold pdiv, pgrad, mix_test, psub, sadd, sopp in *. cbn in *. rewrite B, C. ring. }
  rewrite (dx_ext G (fun k => dot2 _ _) (fun k => (-1/2) * (sv (product (mZ X) (mZ X)) k * pdiv u k + (pv u k 0 * sg (product (mZ X) (mZ X)) k 0 + pv u k 1 * sg (product (mZ X) (mZ X)) k 1)))).
  { rewrite dx_scale, HD. ring. }
  intros k. rewrite Hu. pose proof (H0 k 0%nat) as A. pose proof (H0 k 1%nat) as B. pose proof (Z2 k 0%nat) as C. pose proof (Z2 k 1%nat) as D.
  unfold dot2, mix_test, psub, sadd, sopp, product, pv, perp2d in *. cbn in *. rewrite A, B, C, D. field.
Qed.
Theorem enstrophy_conserved_by_midpoint : forall G np nm nb o u uF_b rot_uF dt X0 X1 t,
  commute o = false -> use_supg o = false -> closed_mesh G ->
  (forall k i, pv (tF t) k i = 0) -> (forall k i j, pgrad (tF t) k i j = 0) -> rot_of (mZ (mid X0 X1)) (tZ t) ->
  (forall k, pdiv u k = 0) -> div_theorem_2d G nb (product (mZ (mid X0 X1)) (mZ (mid X0 X1))) u ->
  time_form G o u X1 t - time_form G o u X0 t + dt * transport_form G np nm nb o u uF_b rot_uF (mid X0 X1) t = 0 ->
  enstrophy G (mZ X1) = enstrophy G (mZ X0).
Proof.
  intros G np nm nb o u uF_b rot_uF dt X0 X1 t Hc Hs Hm H0 H1 Hr Hu HD HE. unfold transport_form in HE. rewrite Hc, Hs in HE.
  rewrite (enstrophy_form G nb u (mid X0 X1) t Hm H0 H1 Hr Hu HD) in HE. unfold time_form in HE. rewrite Hs in HE.
  rewrite !(dx_0 G (fun k => dot2 _ (pv (tF t) k))) in HE by (intros k; unfold dot2; rewrite !H0; ring).
  destruct Hr as (Z1 & _). unfold enstrophy.
  assert (E : dx G (fun k => sv (mZ X1) k * sv (mZ X1) k) = dx G (fun k => sv (mZ X0) k * sv (mZ X0) k)
     + 2 * (dx G (fun k => sv (mZ X1) k * sv (zt (tZ t)) k) + (-1) * dx G (fun k => sv (mZ X0) k * sv (zt (tZ t)) k))).
  { rewrite <- dx_scale, <- dx_plus, <- dx_scale, <- dx_plus. apply dx_ext. intros k. rewrite Z1. unfold mid. cbn. field. }
  rewrite E. lra.
Qed.

(** ** C110: SUPG *)
(** what SUPG adds to a step X1 - X0 + dt * transport(Xm) = 0 *)
Definition supg_step (G : geometry) (o : vt_options) (u : planar) (rot_uF : nat -> R) (dt : R) (X0 X1 Xm : mixed_state) (t : mixed_test) : R :=
  let tau := supg_tau (vt_dt o) (vt_mean_dx o) u in let r := if commute o then Some rot_uF else None in
  - supg_mass G tau (vt_dt o) u X1 t + supg_mass G tau (vt_dt o) u X0 t - dt * supg_transport G tau u r Xm t.
(** div(Z u), by the product rule *)
Definition div_of_product (Z : sfield) (u : planar) (k : nat) : R := sv Z k * (pgrad u k 0 0 + pgrad u k 1 1) + dot2 (pv u k) (sg Z k).
Lemma div_Zu_product u Z k : div_Zu u Z k = div_of_product Z u k.
Proof. unfold div_Zu, div_of_product, pdiv, dot2. ring. Qed.
(** the residual of the vorticity equation over the step *)
Definition vorticity_step_residual (o : vt_options) (u : planar) (rot_uF : nat -> R) (dt : R) (X0 X1 Xm : mixed_state) (k : nat) : R :=
  sv (mZ X1) k - sv (mZ X0) k + dt * (div_of_product (mZ Xm) u k + if commute o then rot_uF k else 0).

(** The SUPG options add to the equations of a step exactly this. *)
Theorem supg_adds : forall G np nm nb o u uF_b rot_uF dt X0 X1 Xm t, use_supg o = true ->
  let o' := {| commute := commute o; use_supg := false; vt_dt := vt_dt o; vt_mean_dx := vt_mean_dx o |} in
  time_form G o u X1 t - time_form G o u X0 t + dt * transport_form G np nm nb o u uF_b rot_uF Xm t =
  time_form G o' u X1 t - time_form G o' u X0 t + dt * transport_form G np nm nb o' u uF_b rot_uF Xm t + supg_step G o u rot_uF dt X0 X1 Xm t.
Proof. intros G np nm nb o u uF_b rot_uF dt X0 X1 Xm t H o'. unfold time_form, transport_form, supg_step. rewrite H. cbn [use_supg commute o' vt_dt vt_mean_dx]. cbv zeta. ring. Qed.

(** With a time step of one the addition is the residual-based one: tau * residual * perp(u), so it vanishes for exact solutions. *)
Theorem supg_is_residual_based_partial : forall G o u rot_uF X0 X1 Xm t, vt_dt o = 1 ->
  supg_step G o u rot_uF (vt_dt o) X0 X1 Xm t =
    - dx G (fun k => supg_tau (vt_dt o) (vt_mean_dx o) u k * vorticity_step_residual o u rot_uF (vt_dt o) X0 X1 Xm k * dot2 (pv (mix_test t) k) (perp2d (pv u k))) /\
  ((forall k, vorticity_step_residual o u rot_uF (vt_dt o) X0 X1 Xm k = 0) -> supg_step G o u rot_uF (vt_dt o) X0 X1 Xm t = 0).
Proof.
  intros G o u rot_uF X0 X1 Xm t Hd.
  assert (E : supg_step G o u rot_uF (vt_dt o) X0 X1 Xm t =
    - dx G (fun k => supg_tau (vt_dt o) (vt_mean_dx o) u k * vorticity_step_residual o u rot_uF (vt_dt o) X0 X1 Xm k * dot2 (pv (mix_test t) k) (perp2d (pv u k)))).
  { unfold supg_step, supg_mass, supg_transport, vorticity_step_residual. cbv zeta. rewrite Hd.
    assert (N : forall a b c d, - a + b - 1 * (c + d) = - (a + (-1) * b + (c + d))) by (intros; ring).
    destruct (commute o); rewrite N; f_equal; [|rewrite Rplus_0_r]; rewrite <- dx_scale, <- !dx_plus; apply dx_ext; intros k; rewrite div_Zu_product; unfold dot2; field. }
  split; [exact E|]. intros Hr. rewrite E. rewrite dx_0; [ring|]. intros k. rewrite Hr. ring.
Qed.
(** In general the rate of change is divided by the time step once too often: for any exact solution of the discrete vorticity
    equation the addition is proportional to (1/dt - 1). *)
Theorem supg_added_to_exact_solution : forall G o u rot_uF X0 X1 Xm t, vt_dt o <> 0 ->
  (forall k, vorticity_step_residual o u rot_uF (vt_dt o) X0 X1 Xm k = 0) ->
  supg_step G o u rot_uF (vt_dt o) X0 X1 Xm t =
    - (1 / vt_dt o - 1) * dx G (fun k => supg_tau (vt_dt o) (vt_mean_dx o) u k * (sv (mZ X1) k - sv (mZ X0) k) * dot2 (pv (mix_test t) k) (perp2d (pv u k))).
Proof.
  intros G o u rot_uF X0 X1 Xm t Hd Hr. unfold supg_step, supg_mass, supg_transport. cbv zeta.
  set (tau := supg_tau _ _ u).
  assert (N : forall a b c d, - a + b - vt_dt o * (c + d) = - (a + (-1) * b + vt_dt o * (c + d))) by (intros; ring).
  assert (Q : forall k, vt_dt o * (div_Zu u (mZ Xm) k + if commute o then rot_uF k else 0) = - (sv (mZ X1) k - sv (mZ X0) k)).
  { intros k. pose proof (Hr k) as A. unfold vorticity_step_residual in A. rewrite div_Zu_product. lra. }
  assert (R : forall c f, - c * dx G f = - dx G (fun k => c * f k)) by (intros; rewrite dx_scale; ring). rewrite R.
  assert (Q' : forall k, sv (mZ X1) k = sv (mZ X0) k - vt_dt o * (div_Zu u (mZ Xm) k + if commute o then rot_uF k else 0)) by (intros k; pose proof (Q k); lra).
  destruct (commute o); rewrite N; f_equal; [rewrite <- (dx_plus G (fun k => dot2 _ (fun i => tau k * _ * div_Zu _ _ _))) | rewrite Rplus_0_r];
    rewrite <- !dx_scale, <- !dx_plus; apply dx_ext; intros k; rewrite (Q' k); unfold dot2; field; exact Hd.
Qed.
(** In numbers: one point of weight one, velocity (0, 1), Z going from 0 to 1 over a step of two with the vorticity equation
    satisfied; the added force is not zero. *)
Definition one_point : geometry := {| ncp := 1; cw := fun _ => 1; nfp := 0; fw := fun _ => 0; nbp := 0; bw := fun _ => 0 |}.
Definition field_with (v g : R) : sfield := {| sv := fun _ => v; sg := fun _ i => match i with 1%nat => g | _ => 0 end; sp := fun _ => v; sm := fun _ => v; sb := fun _ => v |}.
Definition zero_planar : planar := (constant 0, constant 0).
Theorem supg_is_residual_based_refuted : exists G o u rot_uF X0 X1 Xm t,
  use_supg o = true /\ commute o = false /\ vt_dt o = 2 /\ vt_mean_dx o = 2 /\
  (forall k, vorticity_step_residual o u rot_uF (vt_dt o) X0 X1 Xm k = 0) /\
  supg_step G o u rot_uF (vt_dt o) X0 X1 Xm t <> 0.
Proof.
  exists one_point, {| commute := false; use_supg := true; vt_dt := 2; vt_mean_dx := 2 |}, (constant 0, constant 1), (fun _ => 0),
    {| mF := zero_planar; mZ := constant 0 |}, {| mF := zero_planar; mZ := constant 1 |}, {| mF := zero_planar; mZ := field_with 0 (-1/2) |},
    {| tF := (constant 1, constant 0); tZ := {| zt := constant 0; zt_rot := zero_planar |} |}.
  repeat split; try reflexivity.
  - intros k. unfold vorticity_step_residual, div_of_product, dot2. cbn. field.
  - rewrite supg_added_to_exact_solution; [|cbn; lra|intros k; unfold vorticity_step_residual, div_of_product, dot2; cbn; field].
    unfold dx, supg_tau, dot2, mix_test, psub. cbn. replace (0 * 0 + 1 * 1) with (1 * 1) by ring. rewrite sqrt_square by lra. lra.
Qed.

(** ** C109: the vorticity each step uses *)
Section CallProps.
Context {Vel Vort : Type} (vorticity_of : Vel -> Vort) (cycle : Vel * Vort -> Vel * Vort).
Notation runs := (run vorticity_of cycle).
Fixpoint iter (n : nat) (f : Vel -> Vel) (x : Vel) : Vel := match n with O => x | S n => iter n f (f x) end.
(** The theta methods start each step from the vorticity of the current velocity, whatever happened before. *)
Theorem theta_uses_current_vorticity : forall ncycles n x a,
  fst (runs Theta ncycles n x a) = iter n (fun y => fst (cycles cycle ncycles (y, vorticity_of y))) x.
Proof. intros nc n. induction n as [|n IH]; intros x a; [reflexivity|]. cbn [run iter]. cbn. rewrite IH. reflexivity. Qed.
(** Explicit Runge-Kutta: the vorticity computed at a step is first used at the next one. *)
Theorem erk_uses_previous_vorticity : forall n x a,
  fst (runs ERK 1 (S n) x a) =
    fst (fold_left (fun s _ => let '(y, z) := s in (fst (cycle (y, z)), vorticity_of y)) (seq 0 (S n)) (x, snd (a_in a))).
Proof.
  intros n x a.
  assert (E : forall m k x a, fst (runs ERK 1 m x a) =
    fst (fold_left (fun s (_ : nat) => let '(y, z) := s in (fst (cycle (y, z)), vorticity_of y)) (seq k m) (x, snd (a_in a)))).
  { clear. induction m as [|m IH]; intros k x a; [reflexivity|].
    cbn [run seq fold_left]. cbn. rewrite (IH (S k)). cbn. reflexivity. }
  exact (E (S n) 0%nat x a).
Qed.
(** BackwardEuler, ImplicitRungeKutta and IMEX: the vorticity is always the one the augmentation was created with. *)
Theorem others_never_compute_vorticity : forall ncycles n x a,
  fst (runs Other ncycles n x a) = iter n (fun y => fst (cycles cycle ncycles (y, snd (a_in a)))) x.
Proof.
  intros nc n. induction n as [|n IH]; intros x a; [reflexivity|]. cbn [run iter]. cbn. rewrite IH. cbn. reflexivity.
Qed.
End CallProps.
(** Hence only the theta methods keep the promise that a step depends on the velocity only. *)
Definition starts_from_current_vorticity (sch : scheme) : Prop :=
  forall (Vel Vort : Type) (vorticity_of : Vel -> Vort) (cycle : Vel * Vort -> Vel * Vort) n x a,
  fst (run vorticity_of cycle sch 1 n x a) = iter n (fun y => fst (cycle (y, vorticity_of y))) x.
Theorem theta_starts_from_current_vorticity : starts_from_current_vorticity Theta.
Proof. intros Vel Vort vo cy n x a. exact (theta_uses_current_vorticity vo cy 1 n x a). Qed.
(** In numbers: vorticity_of v = v, a step adds the vorticity to the velocity, the augmentation starts from zero. *)
Theorem starts_from_current_vorticity_refuted : ~ starts_from_current_vorticity ERK /\ ~ starts_from_current_vorticity Other.
Proof.
  split; intros H; specialize (H nat nat (fun v => v) (fun s => (fst s + snd s, snd s)%nat) 2%nat 1%nat {| a_in := (0, 0)%nat; a_out := (0, 0)%nat |}); cbn in H; discriminate H.
Qed.

(** ** Non-vacuity *)
(** A closed mesh of one point and the pair z, perp(grad z) with gradient (0, g): every hypothesis of the first group of theorems
    holds, with a velocity and a vorticity which are not zero, and the quantity kept is not zero. *)
Definition example_test : mixed_test := {| tF := (field_with (-2) 0, constant 0); tZ := {| zt := field_with 3 2; zt_rot := (field_with (-2) 0, constant 0) |} |}.
Example vorticity_example :
  is_rot example_test /\ vanishes_on_boundary one_point (tZ example_test) /\
  rot_of (mZ {| mF := zero_planar; mZ := field_with 3 2 |}) (tZ example_test) /\
  curl_defect one_point {| mF := (constant 1, constant 4); mZ := constant 1 |} (tZ example_test) = 1 /\
  total_test {| tF := zero_planar; tZ := {| zt := constant 1; zt_rot := zero_planar |} |}.
Proof.
  assert (Q : forall a b, is_rot {| tF := a; tZ := {| zt := b; zt_rot := a |} |}) by (intros a b k; repeat split).
  split; [apply Q|]. split; [intros b L; cbn in L; lia|].
  split; [split; [reflexivity|]; split; [intros k [|[|i]]; cbn; ring | intros k; unfold pdiv; cbn; ring]|].
  split; [unfold curl_defect, dx, dot2; cbn; ring|].
  split; [intros k [|i]; reflexivity|]. split; [reflexivity|]. split; [reflexivity|]. apply Q.
Qed.
(** The documentation theorem's hypotheses hold for a shear flow F = (y, 5) moved by u = (0, 1), with curl -1; the form is 1. *)
Example vorticity_documented_example :
  let u := (constant 0, constant 1) in let X := {| mF := (field_with 7 1, constant 5); mZ := constant (-1) |} in
  let t := {| tF := (constant 1, constant 0); tZ := {| zt := constant 0; zt_rot := zero_planar |} |} in
  (forall k, sv (mZ X) k = curl2 (mF X) k) /\ p_continuous u /\ p_continuous (mF X) /\ (forall b, sb (zt (tZ t)) b = 0) /\
  div_theorem_2d one_point (fun _ _ => 0) (u_dot_F u (mF X)) (mix_test t) /\
  dx one_point (fun k => dot2 (pv (mix_test t) k) (u_grad_F u (mF X) k)) = 1.
Proof.
  cbv zeta. split; [intros k; unfold curl2; cbn; ring|]. split; [intros f [|i]; reflexivity|]. split; [intros f [|i]; reflexivity|].
  split; [reflexivity|]. split; [unfold div_theorem_2d, dx, ds_, pdiv; cbn; ring|]. unfold dx, dot2, u_grad_F. cbn. ring.
Qed.

(** The SUPG coefficient: half the time step divided by one plus the Courant number. *)
Theorem supg_tau_value : forall dt h u k, 0 < dt -> 0 < h ->
  supg_tau dt h u k * (1 + sqrt (pv u k 0 * pv u k 0 + pv u k 1 * pv u k 1) * dt / h) = dt / 2 /\ 0 < supg_tau dt h u k <= dt / 2.
Proof.
  intros dt h u k Hd Hh. unfold supg_tau, dot2. set (s := sqrt _). assert (0 <= s) by apply sqrt_pos.
  assert (A : 1 <= 1 + s * dt / h).
  { assert (0 <= s * dt / h); [|lra]. unfold Rdiv. apply Rmult_le_pos; [nra|]. left. apply Rinv_0_lt_compat. exact Hh. }
  set (c := 1 + s * dt / h) in *. assert (E : 5/10 * dt / c * c = dt / 2) by (field; lra). split; [exact E|].
  assert (P : 0 < 5/10 * dt / c) by (unfold Rdiv; apply Rmult_lt_0_compat; [lra|apply Rinv_0_lt_compat; lra]). split; [exact P|]. nra.
Qed.
(** The facet terms of the commutator: wherever there is flow through a facet, with a continuous normal component, they are
    half of (m . n) (u('+') . F('-') - u('-') . F('+')), whichever way the flow goes. *)
Theorem commutator_facets : forall G np nm u F m,
  (forall f i, nm f i = - np f i) -> (forall f, dot2 (pplus u f) (np f) = dot2 (pminus u f) (np f)) -> (forall f, dot2 (pplus u f) (np f) <> 0) ->
  1/2 * dS_ G (fun f => dot2 (pplus m f) (np f) * dot2 (fun i => pplus u f i - pminus u f i) (upw np nm u F f))
  - 1/2 * dS_ G (fun f => dot2 (pplus m f) (np f) * dot2 (fun i => pplus F f i - pminus F f i) (upw np nm u u f))
  = 1/2 * dS_ G (fun f => dot2 (pplus m f) (np f) * (dot2 (pplus u f) (pminus F f) - dot2 (pminus u f) (pplus F f))).
Proof.
  intros G np nm u F m Hn Hc H0.
  assert (N : forall a b, 1/2 * a - 1/2 * b = 1/2 * (a + (-1) * b)) by (intros; ring). rewrite N. f_equal. rewrite <- dS_scale, <- dS_plus. apply dS_ext. intros f.
  assert (S : (sign_p np u f = 1 /\ sign_m nm u f = 0) \/ (sign_p np u f = 0 /\ sign_m nm u f = 1)).
  { unfold sign_p, sign_m, sign. replace (dot2 (pminus u f) (nm f)) with (- dot2 (pminus u f) (np f)) by (unfold dot2; rewrite !Hn; ring). rewrite <- Hc.
    specialize (H0 f). set (x := dot2 (pplus u f) (np f)) in *. destruct (Rlt_dec 0 x), (Rlt_dec 0 (- x)), (Rlt_dec x 0), (Rlt_dec (- x) 0); lra. }
  unfold upw, dot2. destruct S as [[-> ->] | [-> ->]]; ring.
Qed.
(** the commutator is the cell terms and these facet terms *)
Theorem commutator_form_value : forall G np nm nb u uF_b X t, let m := mix_test t in let F := mF X in
  (forall f i, nm f i = - np f i) -> (forall f, dot2 (pplus u f) (np f) = dot2 (pminus u f) (np f)) -> (forall f, dot2 (pplus u f) (np f) <> 0) ->
  (forall b, sb (zt (tZ t)) b = 0) ->
  commutator_form G np nm nb u uF_b X t =
    1/2 * dx G (fun k => dot2 (pv u k) (div_outer F m k) - dot2 (pv F k) (div_outer u m k))
    + 1/2 * dS_ G (fun f => dot2 (pplus m f) (np f) * (dot2 (pplus u f) (pminus F f) - dot2 (pminus u f) (pplus F f))).
Proof.
  intros G np nm nb u uF_b X t m F Hn Hc H0 Hz. rewrite <- (commutator_facets G np nm u F m Hn Hc H0). unfold commutator_form. cbv zeta. fold m F.
  rewrite (ds_0 G) by (intros b _; unfold dot2; rewrite Hz; ring).
  assert (E : dx G (fun k => dot2 (pv u k) (div_outer F m k) - dot2 (pv F k) (div_outer u m k)) = dx G (fun k => dot2 (pv u k) (div_outer F m k)) + (-1) * dx G (fun k => dot2 (pv F k) (div_outer u m k))).
  { rewrite <- dx_scale, <- dx_plus. apply dx_ext. intros k. ring. }
  rewrite E. ring.
Qed.
Example commutator_example : let u := (constant 1, constant 0) in
  (forall f i, (fun _ j => - (match j with 0%nat => 1 | _ => 0 end)) f i = - (fun (_ : nat) j => match j with 0%nat => 1 | _ => 0 end) f i) /\
  dot2 (pplus u 0) (fun j => match j with 0%nat => 1 | _ => 0 end) = 1.
Proof. cbv zeta. split; [reflexivity|]. unfold dot2. cbn. ring. Qed.

(** C136: transport forms for the wind. *)
From Coq Require Import Lra.
From Verif Require Import Base Vec Transport TransportProps CommonForms CommonFormsProps EquationsProps VectorTransport.
Open Scope R_scope.

Lemma upwind_sides a : upwind a + upwind (- a) = 1.
Proof. unfold upwind, sign. destruct (Rlt_dec 0 a), (Rlt_dec a 0), (Rlt_dec 0 (- a)), (Rlt_dec (- a) 0); lra. Qed.
Lemma upwind_out a : a < 0 -> upwind a = 0.
Proof. intros H. unfold upwind, sign. destruct (Rlt_dec 0 a); [lra|]. destruct (Rlt_dec a 0); lra. Qed.
Lemma dx0 G f : (forall k, f k = 0) -> dx G f = 0.
Proof. intros H. unfold dx. apply wsum_0. intros; apply H. Qed.
Lemma dS0 G f : (forall k, (k < nfp G)%nat -> f k = 0) -> dS_ G f = 0.
Proof. intros H. unfold dS_. apply wsum_0. exact H. Qed.
Lemma dSe G f g : (forall k, (k < nfp G)%nat -> f k = g k) -> dS_ G f = dS_ G g.
Proof. intros H. unfold dS_. apply wsum_ext. exact H. Qed.
Lemma dxe G f g : (forall k, f k = g k) -> dx G f = dx G g.
Proof. intros H. unfold dx. apply wsum_ext. intros; apply H. Qed.
Lemma dxp G f g : dx G (fun k => f k + g k) = dx G f + dx G g.
Proof. apply wsum_add. Qed.
Lemma dSp G f g : dS_ G (fun k => f k + g k) = dS_ G f + dS_ G g.
Proof. apply wsum_add. Qed.
Ltac comp := unfold dot, cross3, curl3, crossp, inner_perp, v_div; cbn.

(** ** No work *)
(** The circulation does no work, in space and on the sphere: tested with the transporting wind it vanishes.  What is left of the vector-invariant form is the divergence
    of the wind times half of its product with the transported wind *)
Theorem vector_invariant_work : forall G np nm kn i q u,
  upwind_circulation_3d G np nm Once u q u = Ok 0 /\ upwind_circulation_sphere G np nm kn i u q u = 0 /\
  upwind_vector_invariant_3d G np nm Once u q u = Ok (- dx G (fun k => 1/2 * v_div 3 (vc u k) * dot 3 (v_val (vc q k)) (v_val (vc u k)))) /\
  upwind_vector_invariant_sphere G np nm kn i u q u = - dx G (fun k => 1/2 * v_div 3 (vc u k) * dot 3 (v_val (vc q k)) (v_val (vc u k))) /\
  forall q2 u2, upwind_vector_invariant_plane G np nm i u2 q2 u2 =
    - dx G (fun k => 1/2 * (sg (fst u2) k 0%nat + sg (snd u2) k 1%nat) * (sv (fst q2) k * sv (fst u2) k + sv (snd q2) k * sv (snd u2) k)).
Proof.
  intros G np nm kn i q u.
  assert (A : upwind_circulation_3d G np nm Once u q u = Ok 0).
  { unfold upwind_circulation_3d. f_equal. rewrite dx0, dS0; [ring| |]; intros; comp; ring. }
  assert (B : upwind_circulation_sphere G np nm kn i u q u = 0).
  { unfold upwind_circulation_sphere. cbv zeta. destruct i.
    - rewrite dx0, !dS0; [ring| | |]; intros; comp; ring.
    - rewrite dx0, !dS0; [ring| |]; intros; comp; ring.
    - rewrite dx0, !dS0; [ring| | |]; intros; comp; ring. }
  split; [exact A|]. split; [exact B|]. split; [unfold upwind_vector_invariant_3d; rewrite A; cbn [bind]; f_equal; unfold kinetic_part; ring|]. split; [unfold upwind_vector_invariant_sphere; rewrite B; unfold kinetic_part; ring|].
  intros q2 u2. unfold upwind_vector_invariant_plane. rewrite circulation_does_no_work. unfold kinetic_part.
  rewrite (dxe G _ (fun k => 1/2 * (sg (fst u2) k 0%nat + sg (snd u2) k 1%nat) * (sv (fst q2) k * sv (fst u2) k + sv (snd q2) k * sv (snd u2) k))); [ring|]. intros k. comp. ring.
Qed.
(** In space there is only integration by parts once *)
Theorem circulation_3d_once_only : forall G np nm i test q u, i <> Once ->
  upwind_circulation_3d G np nm i test q u = Err NotImplementedError /\ upwind_vector_invariant_3d G np nm i test q u = Err NotImplementedError.
Proof. intros G np nm i test q u H. destruct i; [split; reflexivity|congruence|split; reflexivity]. Qed.

(** ** Consistency in space *)
(** specification: facet normals are opposite, the transporting wind has a continuous normal component, q is continuous *)
Definition smooth (G : geometry) (np nm : nat -> nat -> R) (q u : vfld) : Prop :=
  (forall f a, (f < nfp G)%nat -> nm f a = - np f a) /\
  (forall f, (f < nfp G)%nat -> dot 3 (vm u f) (nm f) = - dot 3 (vp u f) (np f)) /\
  (forall f a, (f < nfp G)%nat -> vp q f a = vm q f a).
(** the divergence theorem for (u x w) x q in every cell, summed; u and w do not cross the boundary of the domain, where (u x w) is then normal, and it has no part there *)
Definition cross_divergence (G : geometry) (np nm : nat -> nat -> R) (w q u : vfld) : Prop :=
  dx G (fun k => v_div 3 (crossp (crossp (vc u k) (vc w k)) (vc q k)))
  = dS_ G (fun f => dot 3 (cross3 (cross3 (vp u f) (vp w f)) (vp q f)) (np f) + dot 3 (cross3 (cross3 (vm u f) (vm w f)) (vm q f)) (nm f)).
(** the divergence theorem for w times a scalar whose traces are s+, s-; w does not cross the boundary and is continuous in the normal direction *)
Definition scalar_divergence (G : geometry) (d : nat) (np nm : nat -> nat -> R) (w : vfld) (s : nat -> spoint) (sp_ sm_ : nat -> R) : Prop :=
  dx G (fun k => s_val (s k) * v_div d (vc w k) + dot d (v_val (vc w k)) (s_grad (s k)))
  = dS_ G (fun f => sp_ f * dot d (vp w f) (np f) + sm_ f * dot d (vm w f) (nm f)).
Definition wall_free (G : geometry) (d : nat) (np nm : nat -> nat -> R) (w : vfld) : Prop := forall f, (f < nfp G)%nat -> dot d (vm w f) (nm f) = - dot d (vp w f) (np f).
(** the product q.u as a field *)
Definition product_of (d : nat) (q u : vpoint) : spoint :=
  {| s_val := dot d (v_val q) (v_val u); s_grad := fun j => dot d (fun i => v_grad q i j) (v_val u) + dot d (v_val q) (fun i => v_grad u i j) |}.

(** The circulation form in space is (curl q) x u, tested with w *)
Theorem circulation_3d_is_vorticity : forall G np nm w q u, smooth G np nm q u -> cross_divergence G np nm w q u ->
  upwind_circulation_3d G np nm Once w q u = Ok (dx G (fun k => dot 3 (v_val (vc w k)) (cross3 (curl3 (vc q k)) (v_val (vc u k))))).
Proof.
  intros G np nm w q u (Hn & Hu & Hq) Hd. unfold upwind_circulation_3d. f_equal. unfold cross_divergence in Hd.
  rewrite (dxe G (fun k => dot 3 (v_val (vc q k)) (curl3 (crossp (vc u k) (vc w k))))
                 (fun k => v_div 3 (crossp (crossp (vc u k) (vc w k)) (vc q k)) + dot 3 (v_val (vc w k)) (cross3 (curl3 (vc q k)) (v_val (vc u k))))) by (intros k; comp; ring).
  rewrite dxp, Hd. apply Rplus_eq_reg_r with (- dx G (fun k => dot 3 (v_val (vc w k)) (cross3 (curl3 (vc q k)) (v_val (vc u k))))). ring_simplify. 
  match goal with |- ?a - ?b = 0 => enough (E : a = b) by (rewrite E; ring) end.
  apply dSe. intros f Hf. unfold Up, Um. rewrite (Hu f Hf). pose proof (upwind_sides (dot 3 (vp u f) (np f))) as X.
  revert X. generalize (upwind (dot 3 (vp u f) (np f))) (upwind (- dot 3 (vp u f) (np f))). intros a b X. replace b with (1 - a) by lra.
  comp. rewrite !(Hn f) by exact Hf. rewrite !(Hq f) by exact Hf. ring.
Qed.
(** ... the vector-invariant form adds half of the gradient of q.u, ... *)
Theorem vector_invariant_3d_documented : forall G np nm w q u, smooth G np nm q u -> cross_divergence G np nm w q u -> wall_free G 3 np nm w ->
  (forall f a, (f < nfp G)%nat -> vp u f a = vm u f a) ->
  scalar_divergence G 3 np nm w (fun k => product_of 3 (vc q k) (vc u k)) (fun f => dot 3 (vp q f) (vp u f)) (fun f => dot 3 (vm q f) (vm u f)) ->
  upwind_vector_invariant_3d G np nm Once w q u
  = Ok (dx G (fun k => dot 3 (v_val (vc w k)) (fun a => cross3 (curl3 (vc q k)) (v_val (vc u k)) a + 1/2 * s_grad (product_of 3 (vc q k) (vc u k)) a))).
Proof.
  intros G np nm w q u Hs Hd Hw Hu Hk. unfold upwind_vector_invariant_3d. rewrite (circulation_3d_is_vorticity G np nm w q u Hs Hd). cbn [bind]. f_equal. unfold kinetic_part.
  destruct Hs as (Hn & _ & Hq). unfold scalar_divergence in Hk.
  rewrite (dSe G _ (fun _ => 0)) in Hk by (intros f Hf; rewrite (Hw f Hf); assert (E : dot 3 (vp q f) (vp u f) = dot 3 (vm q f) (vm u f)) by (comp; rewrite !(Hq f), !(Hu f) by exact Hf; reflexivity); rewrite E; ring).
  rewrite (dS0 G (fun _ => 0)) in Hk by reflexivity. rewrite dxp in Hk.
  rewrite (dxe G (fun k => dot 3 (v_val (vc w k)) (fun a => cross3 (curl3 (vc q k)) (v_val (vc u k)) a + 1/2 * s_grad (product_of 3 (vc q k) (vc u k)) a))
    (fun k => dot 3 (v_val (vc w k)) (cross3 (curl3 (vc q k)) (v_val (vc u k))) + 1/2 * dot 3 (v_val (vc w k)) (s_grad (product_of 3 (vc q k) (vc u k))))) by (intros k; comp; field).
  rewrite dxp. rewrite (dxe G (fun k => 1/2 * v_div 3 (vc w k) * dot 3 (v_val (vc q k)) (v_val (vc u k))) (fun k => 1/2 * (s_val (product_of 3 (vc q k) (vc u k)) * v_div 3 (vc w k)))) by (intros k; cbn [product_of s_val]; ring).
  assert (S : forall f, dx G (fun k => 1/2 * f k) = 1/2 * dx G f) by (intros f; unfold dx; apply wsum_scal). rewrite !S. lra.
Qed.
(** ... which for a wind that transports itself is (u.grad) u *)
Theorem vector_invariant_3d_is_advection : forall G np nm w u, smooth G np nm u u -> cross_divergence G np nm w u u -> wall_free G 3 np nm w ->
  scalar_divergence G 3 np nm w (fun k => product_of 3 (vc u k) (vc u k)) (fun f => dot 3 (vp u f) (vp u f)) (fun f => dot 3 (vm u f) (vm u f)) ->
  upwind_vector_invariant_3d G np nm Once w u u = Ok (dx G (fun k => rsum 3 (fun i => v_val (vc w k) i * rsum 3 (fun j => v_val (vc u k) j * v_grad (vc u k) i j)))).
Proof.
  intros G np nm w u Hs Hd Hw Hk. rewrite (vector_invariant_3d_documented G np nm w u u Hs Hd Hw) by (apply Hs || exact Hk). f_equal. apply dxe. intros k. comp. field.
Qed.
(** Refuted: "(u.grad) q = (curl q) x u + 1/2 grad(u.q) when u and q are similar" (l.888-892).  The difference is half of what grad(u.q) has too much of the one and
    too little of the other; for a solid rotation and a uniform wind it is of the size of the advection itself *)
Theorem vector_invariant_similar_refuted :
  (forall q u i, (i < 3)%nat -> cross3 (curl3 q) (v_val u) i + 1/2 * s_grad (product_of 3 q u) i
    = rsum 3 (fun j => v_val u j * v_grad q i j) + 1/2 * (dot 3 (v_val q) (fun j => v_grad u j i) - dot 3 (v_val u) (fun j => v_grad q j i))) /\
  exists q u, rsum 3 (fun j => v_val u j * v_grad q 1 j) = 1 /\ cross3 (curl3 q) (v_val u) 1 + 1/2 * s_grad (product_of 3 q u) 1 = 3/2.
Proof.
  split.
  - intros q u i Hi. destruct i as [|[|[|i]]]; [comp; field|comp; field|comp; field|lia].
  - exists {| v_val := fun _ => 0; v_grad := fun i j => match i, j with 0%nat, 1%nat => -1 | 1%nat, 0%nat => 1 | _, _ => 0 end |},
           {| v_val := fun i => match i with 0%nat => 1 | _ => 0 end; v_grad := fun _ _ => 0 |}. comp. split; field.
Qed.

(** ** In the plane *)
Theorem vector_invariant_plane_is_advection : forall G i np nm w u,
  (forall f j, (f < nfp G)%nat -> nm f j = - np f j) ->
  (forall f, (f < nfp G)%nat -> sp (fst u) f = sm (fst u) f /\ sp (snd u) f = sm (snd u) f) ->
  (let s := test_perp w u in
   dx G (fun k => sg s k 0%nat * - sv (snd u) k + sg s k 1%nat * sv (fst u) k + sv s k * (- sg (snd u) k 0%nat + sg (fst u) k 1%nat))
   = dS_ G (fun f => sp s f * (- sp (snd u) f * np f 0%nat + sp (fst u) f * np f 1%nat) + sm s f * (- sm (snd u) f * nm f 0%nat + sm (fst u) f * nm f 1%nat))) ->
  wall_free G 2 np nm (of_planar w) ->
  scalar_divergence G 2 np nm (of_planar w) (fun k => product_of 2 (vc (of_planar u) k) (vc (of_planar u) k)) (fun f => dot 2 (vp (of_planar u) f) (vp (of_planar u) f)) (fun f => dot 2 (vm (of_planar u) f) (vm (of_planar u) f)) ->
  upwind_vector_invariant_plane G np nm i w u u
  = dx G (fun k => sv (fst w) k * (sv (fst u) k * sg (fst u) k 0%nat + sv (snd u) k * sg (fst u) k 1%nat) + sv (snd w) k * (sv (fst u) k * sg (snd u) k 0%nat + sv (snd u) k * sg (snd u) k 1%nat)).
Proof.
  intros G i np nm w u Hn Hc Hd Hw Hk. unfold upwind_vector_invariant_plane.
  rewrite (circulation_is_vorticity G i np nm w u u Hn); [|intros f Hf; unfold normal_u; destruct (Hc f Hf) as [-> ->]; rewrite !(Hn f) by exact Hf; ring|exact Hc|exact Hd].
  unfold kinetic_part. unfold scalar_divergence in Hk.
  rewrite (dSe G _ (fun _ => 0)) in Hk.
  2:{ intros f Hf. rewrite (Hw f Hf). assert (E : dot 2 (vp (of_planar u) f) (vp (of_planar u) f) = dot 2 (vm (of_planar u) f) (vm (of_planar u) f)) by (comp; destruct (Hc f Hf) as [-> ->]; reflexivity). rewrite E. ring. }
  rewrite (dS0 G (fun _ => 0)) in Hk by reflexivity.
  match goal with |- ?a - ?b = ?c => enough (E : c = a + - b) by (rewrite E; ring) end.
  assert (S : forall f, - dx G f = dx G (fun k => -1 * f k)) by (intros f; unfold dx; rewrite wsum_scal; ring). rewrite S, <- dxp.
  apply Rplus_eq_reg_r with (-(1/2) * dx G (fun k => s_val (product_of 2 (vc (of_planar u) k) (vc (of_planar u) k)) * v_div 2 (vc (of_planar w) k) + dot 2 (v_val (vc (of_planar w) k)) (s_grad (product_of 2 (vc (of_planar u) k) (vc (of_planar u) k))))).
  rewrite Hk at 2. assert (S2 : forall f, -(1/2) * dx G f = dx G (fun k => -(1/2) * f k)) by (intros f; unfold dx; rewrite wsum_scal; ring). rewrite S2, <- dxp.
  rewrite Rmult_0_r, Rplus_0_r. apply dxe. intros k. comp. field.
Qed.

(** ** On the sphere *)
(** Integrating by parts once or twice gives the same where the fields are continuous: (u.perp-tested) vorticity, - s div(perp(q)) *)
Definition surface_divergence (G : geometry) (np nm : nat -> nat -> R) (kn w q u : vfld) : Prop :=
  scalar_divergence G 3 np nm {| vc := fun k => crossp (vc kn k) (vc q k); vp := fun f => cross3 (vp kn f) (vp q f); vm := fun f => cross3 (vm kn f) (vm q f) |}
    (fun k => inner_perp (vc kn k) (vc w k) (vc u k)) (fun f => dot 3 (vp w f) (cross3 (vp kn f) (vp u f))) (fun f => dot 3 (vm w f) (cross3 (vm kn f) (vm u f))).
Theorem circulation_sphere_documented : forall G np nm kn i w q u, smooth G np nm q u -> (forall f a, (f < nfp G)%nat -> vp kn f a = vm kn f a) ->
  surface_divergence G np nm kn w q u ->
  upwind_circulation_sphere G np nm kn i w q u = - dx G (fun k => dot 3 (v_val (vc w k)) (cross3 (v_val (vc kn k)) (v_val (vc u k))) * v_div 3 (crossp (vc kn k) (vc q k))).
Proof.
  intros G np nm kn i w q u (Hn & Hu & Hq) Hk Hd. unfold upwind_circulation_sphere. cbv zeta. unfold surface_divergence, scalar_divergence in Hd. cbn [vc vp vm] in Hd.
  set (J := dS_ G (fun f => dot 3 (vp w f) (cross3 (vp kn f) (vp u f)) * dot 3 (cross3 (vp kn f) (vp q f)) (np f) + dot 3 (vm w f) (cross3 (vm kn f) (vm u f)) * dot 3 (cross3 (vm kn f) (vm q f)) (nm f))) in *.
  match goal with |- context [dS_ G ?g] => match g with context [Up] => assert (FA : dS_ G g = J) end end.
  { apply dSe. intros f Hf. unfold Up, Um. rewrite (Hu f Hf). pose proof (upwind_sides (dot 3 (vp u f) (np f))) as X.
    generalize dependent (upwind (dot 3 (vp u f) (np f))). intros a X. generalize dependent (upwind (- dot 3 (vp u f) (np f))). intros b X. replace b with (1 - a) by lra.
    comp. rewrite !(Hn f), !(Hq f), !(Hk f) by exact Hf. ring. }
  rewrite FA. rewrite dxp in Hd.
  assert (E : dx G (fun k => dot 3 (cross3 (v_val (vc kn k)) (s_grad (inner_perp (vc kn k) (vc w k) (vc u k)))) (v_val (vc q k)))
    = - dx G (fun k => dot 3 (v_val (crossp (vc kn k) (vc q k))) (s_grad (inner_perp (vc kn k) (vc w k) (vc u k))))).
  { assert (S : forall f, - dx G f = dx G (fun k => -1 * f k)) by (intros f; unfold dx; rewrite wsum_scal; ring). rewrite S. apply dxe. intros k.
    generalize (s_grad (inner_perp (vc kn k) (vc w k) (vc u k))). intros g. comp. ring. }
  change (fun k => dot 3 (v_val (vc w k)) (cross3 (v_val (vc kn k)) (v_val (vc u k))) * v_div 3 (crossp (vc kn k) (vc q k))) with (fun k => s_val (inner_perp (vc kn k) (vc w k) (vc u k)) * v_div 3 (crossp (vc kn k) (vc q k))).
  destruct i; [ring|rewrite E; lra|ring].
Qed.

(** ** Upwinding and facet sides *)
(** Where the flow leaves the plus side, the values of q on the minus side do not enter *)
Theorem vector_forms_upwinded : forall G np nm kn w q q' u,
  (forall f, (f < nfp G)%nat -> dot 3 (vm u f) (nm f) < 0) -> (forall k, vc q k = vc q' k) -> (forall f a, (f < nfp G)%nat -> vp q f a = vp q' f a) ->
  upwind_vector_invariant_3d G np nm Once w q u = upwind_vector_invariant_3d G np nm Once w q' u /\
  upwind_vector_invariant_sphere G np nm kn Once w q u = upwind_vector_invariant_sphere G np nm kn Once w q' u.
Proof.
  intros G np nm kn w q q' u Hm Hv Hp.
  assert (K : kinetic_part G 3 w q u = kinetic_part G 3 w q' u) by (apply dxe; intros k; rewrite Hv; reflexivity). unfold upwind_vector_invariant_3d, upwind_vector_invariant_sphere. rewrite K. split.
  - unfold upwind_circulation_3d. cbn [bind]. do 2 f_equal. f_equal; [apply dxe; intros k; rewrite Hv; reflexivity|]. apply dSe. intros f Hf. unfold Um. rewrite (upwind_out _ (Hm f Hf)). comp. rewrite !(Hp f) by exact Hf. ring.
  - unfold upwind_circulation_sphere. cbv zeta. f_equal. f_equal; [f_equal; apply dxe; intros k; rewrite Hv; reflexivity|]. apply dSe. intros f Hf. unfold Um. rewrite (upwind_out _ (Hm f Hf)). comp. rewrite !(Hp f) by exact Hf. ring.
Qed.
Definition vflip (b : nat -> bool) (v : vfld) : vfld := {| vc := vc v; vp := fun f => if b f then vm v f else vp v f; vm := fun f => if b f then vp v f else vm v f |}.
Definition side (b : nat -> bool) (n n' : nat -> nat -> R) : nat -> nat -> R := fun f => if b f then n' f else n f.
Theorem vector_forms_no_sides : forall b G np nm kn i w q u,
  upwind_circulation_3d G (side b np nm) (side b nm np) i (vflip b w) (vflip b q) (vflip b u) = upwind_circulation_3d G np nm i w q u /\
  upwind_circulation_sphere G (side b np nm) (side b nm np) (vflip b kn) i (vflip b w) (vflip b q) (vflip b u) = upwind_circulation_sphere G np nm kn i w q u /\
  (forall d, vector_upwind_flux G (side b np nm) (side b nm np) d (vflip b w) (vflip b q) (vflip b u) + manifold_correction G (side b np nm) (side b nm np) d (vflip b w) (vflip b q) (vflip b u)
    = vector_upwind_flux G np nm d w q u + manifold_correction G np nm d w q u).
Proof.
  intros b G np nm kn i w q u. split; [|split].
  - unfold upwind_circulation_3d. destruct i; [reflexivity| |reflexivity]. do 2 f_equal. apply dSe. intros f _. unfold Up, Um, side, vflip. cbn [vc vp vm]. destruct (b f); [comp; ring|reflexivity].
  - unfold upwind_circulation_sphere. cbv zeta.
    destruct i; (match goal with |- - ?a - ?x + ?y = _ => f_equal; [f_equal|] | |- - ?a - ?x = _ => f_equal end); try reflexivity; apply dSe; intros f _; unfold Up, Um, side, vflip; cbn [vc vp vm]; (destruct (b f); [comp; ring|reflexivity]).
  - intros d. unfold vector_upwind_flux, manifold_correction. rewrite <- !dSp. apply dSe. intros f _. unfold unp, unm, side, vflip. cbn [vc vp vm]. destruct (b f); [|reflexivity].
    assert (D : dot d (fun a => vm w f a - vp w f a) (fun a => un (dot d (vm u f) (nm f)) * vm q f a - un (dot d (vp u f) (np f)) * vp q f a)
      = dot d (fun a => vp w f a - vm w f a) (fun a => un (dot d (vp u f) (np f)) * vp q f a - un (dot d (vm u f) (nm f)) * vm q f a)) by (unfold dot; apply rsum_ext; intros; ring).
    assert (N : forall v, dot d v (fun a => nm f a + np f a) = dot d v (fun a => np f a + nm f a)) by (intros v; unfold dot; apply rsum_ext; intros; ring).
    rewrite D, !N. ring.
Qed.

(** ** The manifold correction *)
(** The value that arrives in the neighbour: the component across the facet, along n, is turned into the direction -n' in which the facet is entered on the other side *)
Definition turned (d : nat) (v n n' : nat -> R) (a : nat) : R := v a - dot d v n * (n a + n' a).
(** Upwind facet terms with the correction are the upwind facet terms with the turned values in the neighbour's part ... *)
Theorem manifold_correction_turns : forall G np nm d w q u,
  vector_upwind_flux G np nm d w q u + manifold_correction G np nm d w q u
  = dS_ G (fun f => unp np d u f * (dot d (vp w f) (vp q f) - dot d (vm w f) (turned d (vp q f) (np f) (nm f)))
                    + unm nm d u f * (dot d (vm w f) (vm q f) - dot d (vp w f) (turned d (vm q f) (nm f) (np f)))).
Proof.
  intros G np nm d w q u. unfold vector_upwind_flux, manifold_correction. rewrite <- !dSp. apply dSe. intros f _.
  assert (L1 : forall v n n' z, dot d z (turned d v n n') = dot d z v - dot d v n * dot d z (fun a => n a + n' a)).
  { intros v n n' z. unfold turned. generalize (dot d v n). intros c. unfold dot. rewrite <- rsum_scal. unfold Rminus. rewrite <- (Rmult_1_l (- rsum _ _)), <- Ropp_mult_distr_r, <- Ropp_mult_distr_l_reverse, <- rsum_scal, <- rsum_add. apply rsum_ext. intros. ring. }
  assert (L2 : forall (z y v v' : nat -> R) a b, dot d (fun i => z i - y i) (fun i => a * v i - b * v' i) = a * (dot d z v - dot d y v) + b * (dot d y v' - dot d z v')).
  { clear. intros z y v v' a b. unfold dot. induction d as [|n IH]; cbn; [ring|]. rewrite IH. ring. }
  rewrite !L1, L2. assert (N : forall z, dot d z (fun a => nm f a + np f a) = dot d z (fun a => np f a + nm f a)) by (intros z; unfold dot; apply rsum_ext; intros; ring). rewrite !N. ring.
Qed.
(** ... and turning keeps a vector that is tangent to its cell, a n + b t with t along the facet, tangent to the other cell, its length, and its component along t and into the cell;
    nothing is turned where the normals are opposite *)
Theorem turned_vectors : forall d n n' t a b, dot d n n = 1 -> dot d n' n' = 1 -> dot d n t = 0 -> dot d n' t = 0 ->
  let v := fun i => a * n i + b * t i in
  (forall i, turned d v n n' i = - a * n' i + b * t i) /\ dot d (turned d v n n') (turned d v n n') = dot d v v /\
  dot d (turned d v n n') (fun i => - n' i) = dot d v n /\ dot d (turned d v n n') t = dot d v t /\
  forall w, (forall i, n' i = - n i) -> forall i, turned d w n n' i = w i.
Proof.
  intros d n n' t a b Hn Hn' Ht Ht' v.
  assert (C : forall x y, dot d x y = dot d y x) by (intros; unfold dot; apply rsum_ext; intros; ring).
  assert (L : forall x y z c e, dot d (fun i => c * x i + e * y i) z = c * dot d x z + e * dot d y z) by (clear; intros x y z c e; unfold dot; induction d as [|k IH]; cbn; [ring|rewrite IH; ring]).
  assert (V : dot d v n = a) by (unfold v; rewrite L, Hn, (C t), Ht; ring).
  assert (E : forall i, turned d v n n' i = - a * n' i + b * t i) by (intros i; unfold turned; rewrite V; unfold v; ring).
  assert (X : forall z, dot d (turned d v n n') z = - a * dot d n' z + b * dot d t z) by (intros z; rewrite <- L; unfold dot; apply rsum_ext; intros; rewrite E; reflexivity).
  split; [exact E|]. split; [|split; [|split]].
  - assert (VT : dot d v t = b * dot d t t) by (unfold v; rewrite L, Ht; ring).
    assert (VV : dot d v v = a * dot d v n + b * dot d v t) by (unfold v at 1; rewrite L, (C n v), (C t v); reflexivity).
    rewrite X, (C n' (turned d v n n')), (C t (turned d v n n')), (X n'), (X t), Hn', Ht', (C t n'), Ht', VV, V, VT. ring.
  - rewrite X. assert (M : forall z, dot d z (fun i => - n' i) = - dot d z n') by (intros z; replace (- dot d z n') with (-1 * dot d z n') by ring; unfold dot; rewrite <- rsum_scal; apply rsum_ext; intros; ring).
    rewrite !M, Hn', (C t), Ht', V. ring.
  - rewrite X, Ht'. unfold v. rewrite L, Ht. ring.
  - intros w H i. unfold turned. rewrite H. ring.
Qed.

(** ** Examples *)
(** Two cells of a periodic channel in space, q = (0, g(x), 0) with g a tent, u = (0, 1, 0), w = (1, 0, 0) in the first cell *)
Example vector_transport_example :
  let G := {| ncp := 2; cw := fun _ => 1; nfp := 2; fw := fun _ => 1; nbp := 0; bw := fun _ => 0 |} in
  let np := fun (f j : nat) => match j with O => 1 | _ => 0 end in let nm := fun f j => - np f j in
  let q := {| vc := fun k => {| v_val := fun i => match i with 1%nat => 1/2 | _ => 0 end; v_grad := fun i j => match i, j with 1%nat, O => match k with O => 1 | _ => -1 end | _, _ => 0 end |};
              vp := fun f i => match i with 1%nat => match f with O => 1 | _ => 0 end | _ => 0 end; vm := fun f i => match i with 1%nat => match f with O => 1 | _ => 0 end | _ => 0 end |} in
  let u := {| vc := fun k => {| v_val := fun i => match i with 1%nat => 1 | _ => 0 end; v_grad := fun _ _ => 0 |}; vp := fun f i => match i with 1%nat => 1 | _ => 0 end; vm := fun f i => match i with 1%nat => 1 | _ => 0 end |} in
  let w := {| vc := fun k => {| v_val := fun i => match i, k with O, O => 1 | _, _ => 0 end; v_grad := fun _ _ => 0 |}; vp := fun f i => match i, f with O, O => 1 | _, _ => 0 end; vm := fun f i => match i, f with O, S O => 1 | _, _ => 0 end |} in
  smooth G np nm q u /\ cross_divergence G np nm w q u /\ upwind_circulation_3d G np nm Once w q u = Ok (-1).
Proof.
  intros G np nm q u w. assert (H1 : smooth G np nm q u).
  { split; [reflexivity|]. split; [intros f Hf; unfold nm, np; comp; ring|]. intros f a Hf. reflexivity. }
  assert (H2 : cross_divergence G np nm w q u) by (unfold cross_divergence, dx, dS_, nm, np; comp; field).
  split; [exact H1|]. split; [exact H2|]. rewrite (circulation_3d_is_vorticity G np nm w q u H1 H2). f_equal. unfold dx. comp. ring.
Qed.
(** The ridge of a roof: normals (3/5, 4/5) and (-3/5, 4/5), a vector going up one side comes down the other *)
Example turned_example : let n := fun i : nat => match i with O => 3/5 | _ => 4/5 end in let n' := fun i : nat => match i with O => -3/5 | _ => 4/5 end in
  dot 2 n n = 1 /\ dot 2 n' n' = 1 /\ turned 2 (fun i => 5 * n i) n n' 0 = 3 /\ turned 2 (fun i => 5 * n i) n n' 1 = -4.
Proof. comp. unfold turned. comp. repeat split; field. Qed.

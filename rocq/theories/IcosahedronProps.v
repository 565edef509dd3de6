(** Theorems about the cells of the icosahedral sphere mesh, for every refinement. *)
From Verif Require Import Base Meshes MeshesProps.
From Coq Require Import ZArith Lia Permutation.
Open Scope Z_scope.

(** ** Specification: a closed conforming triangulation with V vertices *)
Record closed_triangulation (fs : list (Z * Z * Z)) (V : Z) : Prop := {
  (* cells have three different vertices, all of them existing *)
  ct_cells : forall f, In f fs -> NoDup (tri_list f) /\ forall v, In v (tri_list f) -> 0 <= v < V;
  (* every vertex is used *)
  ct_used : forall v, 0 <= v < V -> (1 <= cells_with fs v)%nat;
  (* every edge of a cell belongs to exactly two cells *)
  ct_edges : forall f u v, In f fs -> In u (tri_list f) -> In v (tri_list f) -> u <> v -> cells_with2 fs u v = 2%nat;
  (* no two cells have the same three vertices *)
  ct_distinct : forall m n f g, nth_error fs m = Some f -> nth_error fs n = Some g ->
                  incl (tri_list f) (tri_list g) -> m = n;
  (* Euler's formula for the sphere *)
  ct_euler : V - Z.of_nat (length (mesh_edges fs)) + Z.of_nat (length fs) = 2 }.

(** ** Counting edges *)
Fixpoint sum_n (l : list nat) : nat := match l with [] => 0%nat | x :: r => (x + sum_n r)%nat end.
Lemma sum_count {A} (dec : forall x y : A, {x = y} + {x <> y}) (M L : list A) :
  NoDup M -> incl L M -> length L = sum_n (map (count_occ dec L) M).
Proof.
  intros HM. induction L as [|a L IH]; intros Hi.
  - clear. induction M as [|m M IH]; cbn; [reflexivity | exact IH].
  - cbn [length]. rewrite IH by (intros x Hx; apply Hi; right; exact Hx).
    assert (Ha : In a M) by (apply Hi; left; reflexivity). clear IH Hi.
    induction M as [|m M IHM]; [contradiction|]. inversion HM; subst. cbn [map sum_n].
    destruct (dec a m) as [-> | Hne].
    + rewrite count_occ_cons_eq by reflexivity.
      rewrite (map_ext_in (count_occ dec (m :: L)) (count_occ dec L)); [lia|].
      intros x Hx. rewrite count_occ_cons_neq; [reflexivity|]. intros ->. contradiction.
    + rewrite count_occ_cons_neq by assumption. destruct Ha as [-> | Ha]; [contradiction|].
      rewrite <- (IHM H2 Ha). lia.
Qed.
Lemma all_twice {A} (dec : forall x y : A, {x = y} + {x <> y}) (L : list A) :
  (forall x, In x L -> count_occ dec L x = 2%nat) -> length L = (2 * length (nodup dec L))%nat.
Proof.
  intros H. rewrite (sum_count dec (nodup dec L) L) at 1.
  - assert (G : forall M, incl M L -> sum_n (map (count_occ dec L) M) = (2 * length M)%nat).
    { induction M as [|m M IH]; intros Hi; [reflexivity|]. cbn [map sum_n length].
      rewrite H by (apply Hi; left; reflexivity). rewrite IH by (intros x Hx; apply Hi; right; exact Hx). lia. }
    apply G. intros x Hx. apply nodup_In in Hx. exact Hx.
  - apply NoDup_nodup.
  - intros x Hx. apply nodup_In. exact Hx.
Qed.

Lemma nodup3 (a b c : Z) : NoDup [a; b; c] -> a <> b /\ b <> c /\ c <> a.
Proof.
  intros H. inversion H as [|? ? H1 H2]; subst. inversion H2 as [|? ? H3 _]; subst.
  repeat split; intros ->; [apply H1 | apply H3 | apply H1]; cbn; auto.
Qed.
Lemma edge_pair_eq a b u v : edge_pair a b = edge_pair u v -> (a = u /\ b = v) \/ (a = v /\ b = u).
Proof. unfold edge_pair. intros E. inversion E. lia. Qed.
Lemma cell_edge_count f u v : NoDup (tri_list f) -> u <> v ->
  count_occ pair_eq_dec (cell_edges f) (edge_pair u v) = if has_vertex u f && has_vertex v f then 1%nat else 0%nat.
Proof.
  destruct f as [[a b] c]. cbn [tri_list]. intros (Hab & Hbc & Hca)%nodup3 Huv.
  unfold has_vertex, cell_edges, tri_list, existsb.
  assert (S : edge_pair u v = edge_pair v u) by (unfold edge_pair; f_equal; lia).
  cbn [count_occ].
  repeat match goal with |- context [pair_eq_dec ?x ?y] => destruct (pair_eq_dec x y) end;
    repeat match goal with H : edge_pair _ _ = edge_pair _ _ |- _ => apply edge_pair_eq in H end;
    repeat match goal with |- context [?x =? ?y] => destruct (Z.eqb_spec x y) end; cbn; try reflexivity; subst;
    exfalso;
    first [lia | (match goal with H : edge_pair _ _ <> edge_pair _ _ |- _ => apply H; unfold edge_pair; f_equal; lia end)].
Qed.
Lemma count_occ_flat fs u v : (forall f, In f fs -> NoDup (tri_list f)) -> u <> v ->
  count_occ pair_eq_dec (flat_map cell_edges fs) (edge_pair u v) = cells_with2 fs u v.
Proof.
  intros H Huv. induction fs as [|f fs IH]; [reflexivity|]. cbn [flat_map].
  rewrite count_occ_app, IH by (intros; apply H; right; assumption).
  rewrite cell_edge_count; [|apply H; left; reflexivity | exact Huv].
  unfold cells_with2. cbn [filter]. destruct (has_vertex u f && has_vertex v f); reflexivity.
Qed.
Lemma edges_length fs : length (flat_map cell_edges fs) = (3 * length fs)%nat.
Proof.
  induction fs as [|[[a b] c] fs IH]; [reflexivity|]. cbn [flat_map cell_edges app length]. rewrite IH. lia.
Qed.
Lemma occurrences_cells fs v : (forall f, In f fs -> NoDup (tri_list f)) ->
  occurrences fs v = Z.of_nat (cells_with fs v).
Proof.
  intros H. unfold occurrences. f_equal. induction fs as [|f fs IH]; [reflexivity|].
  cbn [flat_map]. rewrite filter_app, app_length, IH by (intros; apply H; right; assumption).
  unfold cells_with. cbn [filter]. specialize (H f (or_introl eq_refl)). destruct f as [[a b] c].
  apply nodup3 in H as (Hab & Hbc & Hca). unfold has_vertex. cbn [tri_list filter existsb].
  repeat match goal with |- context [?x =? ?y] => destruct (Z.eqb_spec x y) end; cbn; subst; try reflexivity; contradiction.
Qed.

Section Ico.
Variable N : Z.
Hypothesis HN : 1 <= N.
Notation mesh_faces := (mesh_faces N).
Notation idx := (idx N).
Notation place_of := (place_of N).

Lemma lvl_NoDup c : NoDup (lvl c).
Proof.
  destruct c as [[o j] k]. unfold lvl, lverts. destruct o; repeat constructor; cbn; intros H;
    repeat destruct H as [H | H]; try contradiction; inversion H; lia.
Qed.
Lemma tri_face_ids i c : tri_list (face_ids N i c) = map (fun p => idx (place_of i p)) (lvl c).
Proof. unfold face_ids, lvl. destruct (lverts c) as [[p q] r]. reflexivity. Qed.
Lemma ids_inj i p q : 0 <= i < 20 -> inpanel N p -> inpanel N q -> idx (place_of i p) = idx (place_of i q) -> p = q.
Proof.
  intros Hi Hp Hq E. apply idx_inj in E; try apply place_valid; try assumption.
  pose proof (loc_place N i p Hi Hp) as A. rewrite E, (loc_place N i q Hi Hq) in A. congruence.
Qed.
Lemma NoDup_map_in {A B} (f : A -> B) l : (forall x y, In x l -> In y l -> f x = f y -> x = y) -> NoDup l -> NoDup (map f l).
Proof.
  induction l as [|a l IH]; cbn; intros Hf Hl; [constructor|]. inversion Hl; subst. constructor.
  - rewrite in_map_iff. intros (x & E & Hx). apply H1. rewrite (Hf a x); auto.
  - apply IH; auto.
Qed.
Lemma face_in f : In f mesh_faces -> exists i c, 0 <= i < 20 /\ lvalid N c = true /\ f = face_ids N i c.
Proof.
  unfold MeshesProps.mesh_faces. intros (i & Hi%in_zrange & H)%in_flat_map.
  apply in_map_iff in H as (c & <- & Hc). apply in_local in Hc. eauto.
Qed.
Lemma face_NoDup f : In f mesh_faces -> NoDup (tri_list f).
Proof.
  intros (i & c & Hi & Hc & ->)%face_in. rewrite tri_face_ids. apply NoDup_map_in; [|apply lvl_NoDup].
  intros p q Hp Hq. apply ids_inj; try assumption; eapply lverts_inpanel; eassumption.
Qed.

(** which corners a place depends on *)
Definition supp (P : place) : list Z :=
  match P with PB v => [v] | PE e _ => [fst (edge_of e); snd (edge_of e)] | PF i _ _ => tri_list (panel i) end.
Lemma supp_panel i p : 0 <= i < 20 -> inpanel N p -> incl (supp (place_of i p)) (tri_list (panel i)).
Proof.
  intros Hi Hp. pose proof (panel_table i Hi) as T. destruct p as [j k]. unfold MeshesProps.place_of.
  destruct (panel i) as [[a b] c] eqn:Ep, (edges_of i) as [[e0 e1] e2].
  destruct T as (T1 & T2 & T3 & T4 & T5 & T6 & T7).
  repeat match goal with |- context [if ?x then _ else _] => destruct x end; cbn [supp];
    rewrite ?T5, ?T6, ?T7, ?Ep; cbn; intros x Hx; cbn in *; tauto.
Qed.
Lemma supp_cell i c x : 0 <= i < 20 -> lvalid N c = true -> In x (tri_list (panel i)) ->
  exists p, In p (lvl c) /\ In x (supp (place_of i p)).
Proof.
  intros Hi Hc Hx. pose proof (panel_table i Hi) as T.
  assert (C : forall j k, inpanel N (j, k) ->
     (x = fst (fst (panel i)) -> j + k < N -> In x (supp (place_of i (j, k)))) /\
     (x = snd (fst (panel i)) -> 0 < k -> In x (supp (place_of i (j, k)))) /\
     (x = snd (panel i) -> 0 < j -> In x (supp (place_of i (j, k))))).
  { intros j k Hp. unfold inpanel in Hp. cbn [fst snd] in Hp. unfold MeshesProps.place_of.
    destruct (panel i) as [[a b] cc] eqn:Ep, (edges_of i) as [[e0 e1] e2]. cbn [fst snd].
    destruct T as (T1 & T2 & T3 & T4 & T5 & T6 & T7).
    repeat split; intros -> Hlt;
      repeat match goal with |- context [?u =? ?w] => destruct (Z.eqb_spec u w) end; try lia; cbn [supp];
      rewrite ?T5, ?T6, ?T7, ?Ep; cbn; tauto. }
  destruct c as [[o j] k]. unfold lvalid in Hc. rewrite !andb_true_iff, !Z.leb_le in Hc.
  unfold lvl, lverts. destruct (panel i) as [[a b] cc] eqn:Ep. cbn [fst snd] in C. cbn in Hx.
  destruct Hx as [<- | [<- | [<- | []]]].
  - destruct o.
    + exists (j, k). split; [left; reflexivity|]. apply (proj1 (C j k ltac:(unfold inpanel; cbn [fst snd]; lia))); [reflexivity | lia].
    + exists (j, k + 1). split; [left; reflexivity|]. apply (proj1 (C j (k + 1) ltac:(unfold inpanel; cbn [fst snd]; lia))); [reflexivity | lia].
  - destruct o.
    + exists (j, k + 1). split; [right; left; reflexivity|]. apply (proj1 (proj2 (C j (k + 1) ltac:(unfold inpanel; cbn [fst snd]; lia)))); [reflexivity | lia].
    + exists (j, k + 1). split; [left; reflexivity|]. apply (proj1 (proj2 (C j (k + 1) ltac:(unfold inpanel; cbn [fst snd]; lia)))); [reflexivity | lia].
  - destruct o.
    + exists (j + 1, k). split; [right; right; left; reflexivity|]. apply (proj2 (proj2 (C (j + 1) k ltac:(unfold inpanel; cbn [fst snd]; lia)))); [reflexivity | lia].
    + exists (j + 1, k). split; [right; right; left; reflexivity|]. apply (proj2 (proj2 (C (j + 1) k ltac:(unfold inpanel; cbn [fst snd]; lia)))); [reflexivity | lia].
Qed.
Lemma panels_distinct i i' : 0 <= i < 20 -> 0 <= i' < 20 -> incl (tri_list (panel i)) (tri_list (panel i')) -> i = i'.
Proof.
  intros Hi Hi' H.
  assert (E : forallb (fun i => forallb (fun i' => (i =? i') ||
     negb (forallb (fun x => existsb (Z.eqb x) (tri_list (panel i'))) (tri_list (panel i)))) (zrange 20)) (zrange 20) = true)
    by (vm_compute; reflexivity).
  rewrite forallb_forall in E. specialize (E i (proj2 (in_zrange 20 i) Hi)).
  rewrite forallb_forall in E. specialize (E i' (proj2 (in_zrange 20 i') Hi')).
  apply orb_prop in E as [E | E]; [apply Z.eqb_eq; exact E|].
  exfalso. apply negb_true_iff in E. revert E. apply not_false_iff_true. apply forallb_forall. intros x Hx.
  apply existsb_exists. exists x. split; [apply H; exact Hx | apply Z.eqb_refl].
Qed.
(** a cell is determined by its vertices *)
Lemma face_set_inj i c i' c' : 0 <= i < 20 -> 0 <= i' < 20 -> lvalid N c = true -> lvalid N c' = true ->
  incl (tri_list (face_ids N i c)) (tri_list (face_ids N i' c')) -> i = i' /\ c = c'.
Proof.
  intros Hi Hi' Hc Hc' H. rewrite !tri_face_ids in H.
  assert (L : forall p, In p (lvl c) -> exists q, In q (lvl c') /\ place_of i' q = place_of i p).
  { intros p Hp. specialize (H _ (in_map (fun p => idx (place_of i p)) _ _ Hp)). apply in_map_iff in H as (q & E & Hq).
    exists q. split; [exact Hq|]. apply (idx_inj N HN); [| |exact E].
    - apply place_valid; [exact Hi'|]. apply (lverts_inpanel N c'); assumption.
    - apply place_valid; [exact Hi|]. apply (lverts_inpanel N c); assumption. }
  assert (i = i').
  { apply panels_distinct; try assumption. intros x Hx. destruct (supp_cell i c x Hi Hc Hx) as (p & Hp & Hxp).
    destruct (L p Hp) as (q & Hq & E). rewrite <- E in Hxp.
    apply (supp_panel i' q Hi'); [eapply lverts_inpanel; eassumption | exact Hxp]. }
  subst i'. split; [reflexivity|].
  assert (L2 : incl (lvl c) (lvl c')).
  { intros p Hp. destruct (L p Hp) as (q & Hq & E). 
    replace p with q; [exact Hq|]. apply (ids_inj i); [exact Hi | apply (lverts_inpanel N c'); assumption | apply (lverts_inpanel N c); assumption|].
    rewrite E. reflexivity. }
  destruct c as [[o j] k], c' as [[o' j'] k']. unfold lvl, lverts in L2.
  destruct o, o'; pose proof (L2 _ (or_introl eq_refl)) as A; pose proof (L2 _ (or_intror (or_introl eq_refl))) as B;
    pose proof (L2 _ (or_intror (or_intror (or_introl eq_refl)))) as D; cbn in A, B, D;
    repeat destruct A as [A | A]; try contradiction; inversion A; subst;
    repeat destruct B as [B | B]; try contradiction; inversion B; subst; try lia;
    repeat destruct D as [D | D]; try contradiction; inversion D; subst; try lia; try reflexivity; repeat f_equal; lia.
Qed.

Lemma faces_distinct m n f g : nth_error mesh_faces m = Some f -> nth_error mesh_faces n = Some g ->
  incl (tri_list f) (tri_list g) -> m = n.
Proof.
  set (params := flat_map (fun i => map (fun c => (i, c)) (local_cells N)) (zrange 20)).
  assert (Em : mesh_faces = map (fun ic => face_ids N (fst ic) (snd ic)) params).
  { unfold MeshesProps.mesh_faces, params. rewrite flat_map_map. apply flat_map_ext_in. intros i _. rewrite map_map. reflexivity. }
  assert (Hp : NoDup params).
  { unfold params. apply NoDup_flat_map; [apply zrange_NoDup| |].
    - intros i _. apply FinFun.Injective_map_NoDup; [intros a b E; congruence | apply local_NoDup].
    - intros a b x _ _ Ha Hb. apply in_map_iff in Ha as (? & <- & _), Hb as (? & E & _). congruence. }
  assert (Hv : forall ic, In ic params -> 0 <= fst ic < 20 /\ lvalid N (snd ic) = true).
  { intros ic (i & Hi%in_zrange & H)%in_flat_map. apply in_map_iff in H as (c & <- & Hc%in_local). auto. }
  rewrite Em. intros Hf Hg Hincl. rewrite nth_error_map in Hf, Hg.
  destruct (nth_error params m) as [[i c]|] eqn:E1; [|discriminate].
  destruct (nth_error params n) as [[i' c']|] eqn:E2; [|discriminate].
  cbn in Hf, Hg. inversion Hf; inversion Hg; subst.
  destruct (Hv _ (nth_error_In _ _ E1)) as [A1 A2]. destruct (Hv _ (nth_error_In _ _ E2)) as [B1 B2]. cbn in *.
  destruct (face_set_inj i c i' c' A1 B1 A2 B2 Hincl) as [-> ->].
  eapply NoDup_nth_error; [exact Hp | apply nth_error_Some; congruence | congruence].
Qed.

Lemma faces_length : Z.of_nat (length mesh_faces) = 20 * N * N.
Proof.
  unfold MeshesProps.mesh_faces.
  assert (G : forall l, length (flat_map (fun i => map (face_ids N i) (local_cells N)) l) = (length l * length (local_cells N))%nat).
  { induction l as [|a l IH]; [reflexivity|]. cbn [flat_map length]. rewrite app_length, map_length, IH. lia. }
  rewrite G, zrange_length. rewrite Nat2Z.inj_mul, (local_count N HN). lia.
Qed.

Lemma faces_closed : closed_triangulation mesh_faces (10 * N * N + 2).
Proof.
  constructor.
  - intros f Hf. split; [apply face_NoDup; exact Hf|]. apply face_in in Hf as (i & c & Hi & Hc & ->).
    rewrite tri_face_ids. intros v (p & <- & Hp)%in_map_iff. apply (idx_range N HN). apply place_valid; try assumption.
    eapply lverts_inpanel; eassumption.
  - intros v Hv. destruct (idx_surj N HN v Hv) as (P & HP & <-). rewrite (valence N HN P HP). destruct P; lia.
  - intros f u v Hf Hu Hv Huv. apply face_in in Hf as (i & c & Hi & Hc & ->). rewrite tri_face_ids in Hu, Hv.
    apply in_map_iff in Hu as (p & <- & Hp), Hv as (q & <- & Hq). apply (edge_two N HN i c p q); try assumption.
    intros ->. apply Huv. reflexivity.
  - apply faces_distinct.
  - assert (E : (3 * length mesh_faces = 2 * length (mesh_edges mesh_faces))%nat).
    { rewrite <- edges_length. unfold mesh_edges. apply all_twice. intros x (f & Hf & Hx)%in_flat_map.
      destruct f as [[a b] c] eqn:Ef. pose proof (face_NoDup _ Hf) as Hnd. cbn [tri_list] in Hnd.
      apply nodup3 in Hnd as (Hab & Hbc & Hca).
      assert (G : forall u v, In u [a; b; c] -> In v [a; b; c] -> u <> v ->
                 count_occ pair_eq_dec (flat_map cell_edges mesh_faces) (edge_pair u v) = 2%nat).
      { intros u v Hu Hv Huv. rewrite count_occ_flat; [|apply face_NoDup | exact Huv].
        pose proof Hf as Hf'. apply face_in in Hf' as (i & cc & Hi & Hc & Efi).
        assert (Et : [a; b; c] = map (fun p => idx (place_of i p)) (lvl cc)) by (rewrite <- tri_face_ids, <- Efi; reflexivity).
        rewrite Et in Hu, Hv. apply in_map_iff in Hu as (p & <- & Hp), Hv as (q & <- & Hq).
        apply (edge_two N HN i cc p q); try assumption. intros ->. apply Huv. reflexivity. }
      cbn in Hx. destruct Hx as [<- | [<- | [<- | []]]]; apply G; cbn; auto. }
    pose proof faces_length. nia.
Qed.
End Ico.

(** ** The theorems *)

(** For every number of cells per panel edge the function accepts, it hands Firedrake a closed
    conforming triangulation of the sphere with 20 N^2 cells and 10 N^2 + 2 vertices, in which the
    12 corners of the icosahedron have five neighbouring cells and all other vertices six; in
    particular none of its internal checks and array accesses ever fails. *)
Theorem icosahedral_mesh_closed : forall N degree, 1 <= N -> 1 <= degree ->
  exists fs, icosahedral_cells N degree = Ok fs /\
    Z.of_nat (length fs) = 20 * N * N /\ total_num_faces N = 20 * N * N /\
    total_num_vertices N = 10 * N * N + 2 /\
    closed_triangulation fs (10 * N * N + 2) /\
    (forall v, 0 <= v < 10 * N * N + 2 -> cells_with fs v = if v <? 12 then 5%nat else 6%nat).
Proof.
  intros N degree HN Hd. exists (mesh_faces N).
  assert (Hval : forall v, 0 <= v < 10 * N * N + 2 -> cells_with (mesh_faces N) v = if v <? 12 then 5%nat else 6%nat).
  { intros v Hv. destruct (idx_surj N HN v Hv) as (P & HP & <-). rewrite (valence N HN P HP).
    destruct P as [v | e t | i j k].
    - unfold idx. cbn in HP. destruct (Z.ltb_spec v 12); [reflexivity | lia].
    - pose proof (idx_PE_range N HN e t HP). destruct (Z.ltb_spec (idx N (PE e t)) 12); [lia | reflexivity].
    - pose proof (idx_PF_range N HN i j k HP). destruct (Z.ltb_spec (idx N (PF i j k)) 12); [|reflexivity]. lia. }
  split; [|split; [apply faces_length; exact HN|split; [|split; [apply tnv_eq|split; [apply faces_closed; exact HN | exact Hval]]]]].
  2:{ unfold total_num_faces. rewrite nfp_eq. lia. }
  unfold icosahedral_cells. destruct (Z.ltb_spec N 1); [lia|]. destruct (Z.ltb_spec degree 1); [lia|].
  replace tables_ok with true by reflexivity. cbn [negb]. rewrite (all_faces_eq N HN).
  replace (forallb _ _) with true; [reflexivity|]. symmetry. apply forallb_forall. intros v Hv%in_zrange.
  rewrite tnv_eq in Hv. rewrite occurrences_cells by (apply face_NoDup; exact HN). rewrite Hval by exact Hv.
  destruct (v <? 12); reflexivity.
Qed.

(** anything else is refused *)
Theorem icosahedral_arguments : forall N degree,
  (N < 1 -> icosahedral_cells N degree = Err RuntimeError) /\
  (1 <= N -> degree < 1 -> icosahedral_cells N degree = Err ValueError).
Proof.
  intros N degree. unfold icosahedral_cells. split.
  - intros H. destruct (Z.ltb_spec N 1); [reflexivity | lia].
  - intros H1 H2. destruct (Z.ltb_spec N 1); [lia|]. destruct (Z.ltb_spec degree 1); [reflexivity | lia].
Qed.

(** a concrete mesh: N = 2 *)
Theorem icosahedral_mesh_example :
  exists fs, icosahedral_cells 2 1 = Ok fs /\ nth_error fs 0 = Some (0, 13, 16) /\
    nth_error fs 3 = Some (16, 34, 11) /\ length fs = 80%nat /\ length (mesh_edges fs) = 120%nat /\
    cells_with2 fs 0 13 = 2%nat.
Proof. eexists. repeat split; vm_compute; reflexivity. Qed.

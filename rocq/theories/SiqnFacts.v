(** Lemmas for C29-C31. *)
From Verif Require Import Base Vec Siqn.
From Coq Require Import String.
Open Scope R_scope.

Ltac sext := apply functional_extensionality; intros ?; apply functional_extensionality; intros ?.
Ltac sunfold := unfold sadd, ssub, sscal, szero, vadd, vsub, vscal, vzero in *.

Lemma fold_set {I} (q : string -> bool) (f : state I) : forall l (r : state I) m,
  fold_left (fun out n => if q n then out else sset out n (f n)) l r m
  = if (existsb (String.eqb m) l && negb (q m))%bool then f m else r m.
Proof.
  induction l as [|a l IH]; intros r m; cbn [fold_left existsb]; [reflexivity|].
  rewrite IH. destruct (String.eqb m a) eqn:E.
  - apply String.eqb_eq in E; subst a. destruct (q m) eqn:Q; cbn; [rewrite Bool.andb_false_r; reflexivity|].
    unfold sset. rewrite String.eqb_refl, Bool.andb_true_r. destruct (existsb (String.eqb m) l); reflexivity.
  - cbn [orb]. destruct (q a); [reflexivity|]. unfold sset. rewrite E. reflexivity.
Qed.

Lemma zero_non_prognostics_at {I} (c : siqn I) r m :
  zero_non_prognostics c r m =
  if (existsb (String.eqb m) (names c) && negb (existsb (String.eqb m) (solver_prognostics c)))%bool then vzero else r m.
Proof. unfold zero_non_prognostics. apply (fold_set (fun n => existsb (String.eqb n) (solver_prognostics c)) (fun _ => vzero)). Qed.
Lemma copy_active_tracers_at {I} (c : siqn I) a r m :
  copy_active_tracers c a r m =
  if (existsb (String.eqb m) (names c) && negb (existsb (String.eqb m) (solver_prognostics c)))%bool then a m else r m.
Proof. unfold copy_active_tracers. apply (fold_set (fun n => existsb (String.eqb n) (solver_prognostics c)) a). Qed.
Lemma zero_non_wind_at {I} (c : siqn I) a r m :
  zero_non_wind c a r m = if (existsb (String.eqb m) (names c) && negb (String.eqb m "u"))%bool then a m else r m.
Proof. unfold zero_non_wind. apply (fold_set (fun n => String.eqb n "u") a). Qed.

Lemma existsb_eqb_in m l : existsb (String.eqb m) l = true <-> In m l.
Proof.
  rewrite existsb_exists. split; [intros (x & H & E); apply String.eqb_eq in E; subst; exact H|].
  intros H; exists m; split; [exact H|apply String.eqb_refl].
Qed.
Lemma existsb_eqb_notin m l : existsb (String.eqb m) l = false <-> ~ In m l.
Proof. rewrite <- existsb_eqb_in. destruct (existsb (String.eqb m) l); split; congruence. Qed.

(** sums of increments *)
Definition increments {I} (ps : list (state I -> state I)) (x : state I) : state I :=
  fold_right (fun p acc => sadd (ssub (p x) x) acc) szero ps.
Lemma fold_increments {I} (b : R) (x : state I) : forall ps r,
  fold_left (fun r p => sadd r (sscal b (ssub (p x) x))) ps r = sadd r (sscal b (increments ps x)).
Proof.
  induction ps as [|p ps IH]; intros r; cbn [fold_left increments fold_right].
  - sext. sunfold. ring.
  - rewrite IH. fold (increments ps x). generalize (increments ps x) as J. generalize (p x) as K. intros. sext. sunfold. ring.
Qed.

Lemma fsum_none {I} (p : fterm I -> bool) ts x : existsb p ts = false -> fsum p ts x = szero.
Proof.
  unfold fsum. induction ts as [|t ts IH]; cbn; [reflexivity|]. intros H. apply Bool.orb_false_iff in H as [H1 H2].
  rewrite H1. apply IH; exact H2.
Qed.

(** The transport of one field. *)
Definition transported {I} (c : siqn I) (s : state I -> state I -> vec I -> vec I) (xn x xstar : state I) (n : string) : vec I :=
  match predictor c with
  | Some (pname, pre) =>
      if String.eqb n pname then xstar n +v s xn x (pre xn (xstar n)) -v pre xn (xstar n) else s xn x (xstar n)
  | None => s xn x (xstar n)
  end.
Lemma transport_fields_at {I} (c : siqn I) xn x xstar : NoDup (map fst (transports c)) -> forall xp m,
  (forall s, In (m, s) (transports c) -> transport_fields c xn x xstar xp m = transported c s xn x xstar m) /\
  (~ In m (map fst (transports c)) -> transport_fields c xn x xstar xp m = xp m).
Proof.
  unfold transport_fields. generalize (transports c) as l. intros l.
  assert (E : forall l xp,
    fold_left (fun (xp0 : state I) (ns : string * (state I -> state I -> vec I -> vec I)) =>
        let '(name, scheme) := ns in
        match predictor c with
        | Some (pname, pre) => if String.eqb name pname
            then sset xp0 name (xstar name +v scheme xn x (pre xn (xstar name)) -v pre xn (xstar name))
            else sset xp0 name (scheme xn x (xstar name))
        | None => sset xp0 name (scheme xn x (xstar name)) end) l xp =
    fold_left (fun xp0 ns => sset xp0 (fst ns) (transported c (snd ns) xn x xstar (fst ns))) l xp).
  { induction l0 as [|[n s] l0 IH]; intros xp; cbn [fold_left fst snd]; [reflexivity|]. rewrite IH. f_equal.
    unfold transported. destruct (predictor c) as [[pn pre]|]; [destruct (String.eqb n pn)|]; reflexivity. }
  intros ND xp m. cbv zeta. rewrite E. clear E. revert xp. induction l as [|[n s] l IH]; intros xp.
  - cbn. split; [intros ? []|reflexivity].
  - cbn [map fst] in ND. inversion ND as [|? ? Hn Hl]; subst. cbn [fold_left fst snd].
    destruct (IH Hl (sset xp n (transported c s xn x xstar n))) as [A B]. split.
    + intros s' [E|H]; [|apply A; exact H]. injection E as -> ->. rewrite (B Hn). unfold sset. rewrite String.eqb_refl. reflexivity.
    + cbn [map fst In]. intros H. rewrite B by tauto. unfold sset. destruct (String.eqb m n) eqn:E; [|reflexivity].
      apply String.eqb_eq in E; subst; exfalso; apply H; left; reflexivity.
Qed.

(** fields that are not transported keep the value of xstar through the outer loop *)
Lemma xp_untransported {I} (c : siqn I) xn xstar : NoDup (map fst (transports c)) -> forall k m, ~ In m (map fst (transports c)) ->
  fst (niter k (outer_step c xn xstar) (xstar, xn)) m = xstar m.
Proof.
  intros ND k m Hm. induction k as [|k IH]; [reflexivity|]. rewrite niter_S_out.
  destruct (niter k (outer_step c xn xstar) (xstar, xn)) as [xp x]. cbn [fst] in *. unfold outer_step. cbn [fst].
  rewrite (proj2 (transport_fields_at c xn x xstar ND xp m) Hm). exact IH.
Qed.

Lemma has_hydro_equiv {I} (ts : list (fterm I)) (x b : state I) (g : state I -> state I -> state I) :
  (forall s, g s szero = s) ->
  (if existsb (has_any [Hydrostatic]) ts then g b (fsum (has_any [Hydrostatic]) ts x) else b)
  = g b (fsum (has_any [Hydrostatic]) ts x).
Proof.
  intros Hg. destruct (existsb (has_any [Hydrostatic]) ts) eqn:E; [reflexivity|].
  rewrite (fsum_none _ _ _ E), Hg. reflexivity.
Qed.

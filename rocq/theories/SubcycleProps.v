(** Properties C14, C15, C16. *)
From Verif Require Import Base Subcycle.
From Coq Require Import Qround Lqa ZifyBool.

Local Open Scope Q_scope.

Lemma inject_Z_pos n : (1 <= n)%Z -> 0 < inject_Z n.
Proof. intros H. change 0 with (inject_Z 0). rewrite <- Zlt_Qlt. lia. Qed.

(** C14.  With Courant number c and target T > 0 and no (or an unreached) cap the
    chosen number of subcycles is the least n >= 1 with c / n <= T. *)
Theorem adaptive_subcycles_least :
  forall c T mx n, 0 < T -> ncycles_adaptive c T mx = Ok n ->
  (forall m, mx = Some m -> (n < m)%Z) ->
  (1 <= n)%Z /\ c / inject_Z n <= T /\
  (forall k, (1 <= k)%Z -> c / inject_Z k <= T -> (n <= k)%Z).
Proof.
  intros c T mx n HT H Hm. unfold ncycles_adaptive in H.
  destruct (Qeq_bool T 0) eqn:E; [apply Qeq_bool_eq in E; lra|].
  set (n0 := Z.max 1 (Qceiling (c / T))) in *.
  assert (Hn : n = n0).
  { destruct mx as [m|]; [|congruence]. specialize (Hm m eq_refl).
    destruct (m <? n0)%Z eqn:L; injection H as <-; lia. }
  subst n. assert (H1 : (1 <= n0)%Z) by lia. split; [exact H1|].
  assert (Hp : 0 < inject_Z n0) by (apply inject_Z_pos; exact H1).
  split.
  - apply Qle_shift_div_r; [exact Hp|].
    assert (c / T <= inject_Z n0).
    { eapply Qle_trans; [apply Qle_ceiling|]. rewrite <- Zle_Qle. lia. }
    apply Qle_trans with (c / T * T).
    + apply Qeq_bool_neq in E. field_simplify; [lra|exact E].
    + rewrite (Qmult_comm T). apply Qmult_le_compat_r; lra.
  - intros k Hk Hle. assert (Hkp : 0 < inject_Z k) by (apply inject_Z_pos; exact Hk).
    assert (c / T <= inject_Z k).
    { apply Qle_shift_div_r; [exact HT|].
      apply Qle_trans with (c / inject_Z k * inject_Z k).
      - field_simplify; [lra|lra].
      - rewrite (Qmult_comm (inject_Z k)). apply Qmult_le_compat_r; lra. }
    assert ((Qceiling (c / T) <= k)%Z).
    { rewrite <- (Qceiling_Z k). apply Qceiling_resp_le; assumption. }
    lia.
Qed.
Print Assumptions adaptive_subcycles_least.

(** C14.  The cap is respected and applies only when the needed number exceeds it. *)
Theorem adaptive_subcycles_capped :
  forall c T m n, 0 < T -> ncycles_adaptive c T (Some m) = Ok n ->
  exists need, ncycles_adaptive c T None = Ok need /\ n = Z.min m need.
Proof.
  intros c T m n HT H. unfold ncycles_adaptive in *.
  destruct (Qeq_bool T 0) eqn:E; [discriminate|]. eexists; split; [reflexivity|].
  destruct (m <? _)%Z eqn:L; injection H as <-; lia.
Qed.
Print Assumptions adaptive_subcycles_capped.

(** C14/C15.  In every reachable state of an explicit scheme (set up, then any
    history of adaptive updates), number of subcycles times substep is the full
    step. *)
Theorem subcycles_cover_the_step :
  forall dt o s0, explicit_setup dt o = Ok s0 ->
  forall courants s, fold_left (fun r c => bind r (update_subcycling o c)) courants (Ok s0) = Ok s ->
  ss_orig s = dt /\ inject_Z (ss_n s) * ss_dt s == dt.
Proof.
  intros dt o s0 H0 courants.
  assert (I0 : ss_orig s0 = dt /\ inject_Z (ss_n s0) * ss_dt s0 == dt).
  { unfold explicit_setup in H0. destruct o as [[[f|] t m]|].
    - destruct (Z.eqb_spec f 0); [discriminate|]. injection H0 as <-. cbn. split; [reflexivity|].
      field. intros E. apply n. unfold Qeq in E; cbn in E; lia.
    - injection H0 as <-; cbn [ss_orig ss_n ss_dt]; split; [reflexivity|ring].
    - injection H0 as <-; cbn [ss_orig ss_n ss_dt]; split; [reflexivity|ring]. }
  clear H0. revert s0 I0. induction courants as [|c cs IH]; intros s0 I0 s H.
  - cbn in H. injection H as <-. exact I0.
  - cbn in H. destruct (update_subcycling o c s0) as [s1|e] eqn:E.
    + apply (IH s1); [|exact H]. clear IH H.
      unfold update_subcycling in E. destruct o as [[f [t|] m]|]; [|injection E as <-; exact I0|injection E as <-; exact I0].
      apply bind_ok in E as (n & _ & E). destruct (Z.eqb_spec n 0); [discriminate|].
      injection E as <-. cbn. split; [tauto|]. destruct I0 as [-> _]. field.
      intros E. apply n0. unfold Qeq in E; cbn in E; lia.
    + exfalso. clear - H. induction cs as [|c cs IH]; cbn in H; [discriminate|]. apply IH, H.
Qed.
Print Assumptions subcycles_cover_the_step.

Example adaptive_example :
  ncycles_adaptive (7#2) (1#2) (Some 10%Z) = Ok 7%Z /\ ncycles_adaptive (7#2) (1#3) (Some 10%Z) = Ok 10%Z
  /\ ncycles_adaptive (1#100) (1#2) (Some 10%Z) = Ok 1%Z.
Proof. vm_compute; auto. Qed.

(** C15.  One apply with n >= 1 subcycles is n successive single cycles of step
    dt/n, each fed the previous result. *)
Theorem subcycled_apply_is_iteration :
  forall (X : Type) (cycle : Q -> X -> X) dt n stale x, (0 < n)%nat ->
  apply_loop X cycle dt n stale x = niter n (cycle dt) x.
Proof.
  intros X cycle dt n stale x Hn. unfold apply_loop.
  assert (G : forall n a b, (0 < n)%nat ->
    niter n (fun '(x0, x1) => let y := cycle dt x0 in (y, y)) (a, b) = (niter n (cycle dt) a, niter n (cycle dt) a)).
  { clear. induction n as [|n IH]; intros a b H; [lia|]. cbn [niter].
    destruct n as [|n]; [reflexivity|]. rewrite IH by lia. reflexivity. }
  rewrite G by exact Hn. reflexivity.
Qed.
Print Assumptions subcycled_apply_is_iteration.

(** C15.  Explicit schemes with fixed_subcycles = n: every application, whatever
    the Courant number, is n cycles of step dt/n. *)
Theorem explicit_fixed_subcycles :
  forall (X : Type) (cycle : Q -> X -> X) dt n mx courant stale x, (1 <= n)%Z ->
  let o := Some (mk_sub (Some n) None mx) in
  exists s, explicit_setup dt o = Ok s /\
    apply X cycle o courant s stale x = Ok (s, niter (Z.to_nat n) (cycle (dt / inject_Z n)) x).
Proof.
  intros X cycle dt n mx courant stale x Hn o. unfold explicit_setup, o.
  destruct (Z.eqb_spec n 0); [lia|]. eexists; split; [reflexivity|].
  unfold apply; cbn. rewrite subcycled_apply_is_iteration by lia. reflexivity.
Qed.
Print Assumptions explicit_fixed_subcycles.

(** C15.  Adaptive subcycling, any scheme: each application uses the number of
    subcycles for the current Courant number, whatever was used before. *)
Theorem adaptive_subcycled_apply :
  forall (X : Type) (cycle : Q -> X -> X) target mx courant s stale x n,
  ncycles_adaptive courant target mx = Ok n -> (1 <= n)%Z ->
  apply X cycle (Some (mk_sub None (Some target) mx)) courant s stale x =
    Ok (mk_sub_state (ss_orig s / inject_Z n) (ss_orig s) n,
        niter (Z.to_nat n) (cycle (ss_orig s / inject_Z n)) x).
Proof.
  intros X cycle target mx courant s stale x n H Hn. unfold apply, update_subcycling. rewrite H. cbn.
  destruct (Z.eqb_spec n 0); [lia|]. cbn. rewrite subcycled_apply_is_iteration by lia. reflexivity.
Qed.
Print Assumptions adaptive_subcycled_apply.

(** C15 refuted for the implicit schemes: backward Euler and theta methods cannot be
    set up with fixed subcycles at all. *)
Theorem implicit_fixed_subcycles_refuted :
  forall dt n tg mx, implicit_setup dt (Some (mk_sub (Some n) tg mx)) = Err AttributeError.
Proof. reflexivity. Qed.
Print Assumptions implicit_fixed_subcycles_refuted.

(** C15, implicit schemes without fixed subcycles behave like explicit ones. *)
Theorem implicit_setup_otherwise :
  forall dt o, (forall n tg mx, o <> Some (mk_sub (Some n) tg mx)) ->
  implicit_setup dt o = explicit_setup dt o /\ implicit_setup dt o = Ok (mk_sub_state dt dt 1).
Proof.
  intros dt o H. destruct o as [[[n|] tg mx]|]; [exfalso; exact (H n tg mx eq_refl)| |]; split; reflexivity.
Qed.
Print Assumptions implicit_setup_otherwise.

(** C15 refuted: a cap of 0 subcycles, accepted by the options, makes every
    application fail. *)
Theorem zero_cap_refuted :
  forall courant target s, 0 < target ->
  update_subcycling (Some (mk_sub None (Some target) (Some 0%Z))) courant s = Err ZeroDivisionError.
Proof.
  intros courant target s H. unfold update_subcycling, ncycles_adaptive.
  destruct (Qeq_bool target 0) eqn:E; [reflexivity|]. cbn.
  destruct (0 <? Z.max 1 (Qceiling (courant / target)))%Z eqn:L; [reflexivity|]. apply Z.ltb_ge in L. lia.
Qed.
Print Assumptions zero_cap_refuted.

Example subcycled_example :
  niter 3 ((fun dt x => x + dt * x) (1#3)) 1 == (4#3) * (4#3) * (4#3).
Proof. reflexivity. Qed.

(** C16.  The sequence of calls made by apply(x_out, x_in). *)
Theorem wrapped_apply_call_order :
  forall has_aug has_wrap,
  wrapped_apply has_aug has_wrap =
    match has_aug, has_wrap with
    | true, _ => [AugPre Given_in; Original Aug_out Aug_in; AugPost Given_out]
    | false, true => [WrapPre Given_in; Original Wrap_out Wrap_in; WrapPost Given_out]
    | false, false => [Original Given_out Given_in]
    end.
Proof. intros [] []; reflexivity. Qed.
Print Assumptions wrapped_apply_call_order.

(** C16.  Effect on the caller's fields, whatever the fields held before: the
    output is post (scheme (pre input)) with the augmentation's maps if there is an
    augmentation, with the wrapper's maps if there is only a wrapper, and
    scheme (input) otherwise; the input is not modified. *)
Theorem wrapped_apply_effect :
  forall (U : Type) (apre apost wpre wpost scheme : U -> U) (s : field_ref -> U) has_aug has_wrap,
  let s' := exec_calls apre apost wpre wpost scheme s (wrapped_apply has_aug has_wrap) in
  s' Given_out = (if has_aug then apost (scheme (apre (s Given_in)))
                  else if has_wrap then wpost (scheme (wpre (s Given_in)))
                  else scheme (s Given_in)) /\
  s' Given_in = s Given_in.
Proof. intros U apre apost wpre wpost scheme s [] []; split; reflexivity. Qed.
Print Assumptions wrapped_apply_effect.

(** The velocity that transports the fields. *)
From Coq Require Import List String Bool Arith QArith Reals Lia Lra FunctionalExtensionality.
Import ListNotations.
From Verif Require Import Base Vec TransportVelocity.
Close Scope Q_scope.
Close Scope R_scope.
Open Scope nat_scope.

(** ** Specification: the value of a form for given values of its coefficients, with arbitrary operators *)
Section Meaning.
Context {W : Type}.
Variables (lit : nat -> W) (un : nat -> W -> W) (bin : nat -> W -> W -> W).
Fixpoint value (v : nat -> W) (e : expr) : W :=
  match e with Coef c => v c | Lit a => lit a | Un f a => un f (value v a) | Bin f a b => bin f (value v a) (value v b) end.
Definition with_value (v : nat -> W) (c : nat) (x : W) : nat -> W := fun n => if Nat.eqb n c then x else v n.
Fixpoint occurs (c : nat) (e : expr) : bool :=
  match e with Coef n => Nat.eqb n c | Lit _ => false | Un _ a => occurs c a | Bin _ a b => occurs c a || occurs c b end.

Lemma value_replace v c new e : value v (replace (Coef c) new e) = value (with_value v c (value v new)) e.
Proof.
  induction e as [n|a|f a IH|f a IHa b IHb]; cbn [replace]; destruct (expr_eq_dec _ _) as [E|E]; try discriminate.
  - injection E as ->. cbn. unfold with_value. rewrite Nat.eqb_refl. reflexivity.
  - cbn. unfold with_value. destruct (Nat.eqb_spec n c) as [->|]; [congruence|reflexivity].
  - reflexivity.
  - cbn. rewrite IH. reflexivity.
  - cbn. rewrite IHa, IHb. reflexivity.
Qed.
Lemma occurs_replace d c new e : occurs d (replace (Coef c) new e) = (occurs c e && occurs d new) || (negb (Nat.eqb d c) && occurs d e).
Proof.
  induction e as [n|a|f a IH|f a IHa b IHb]; cbn [replace]; destruct (expr_eq_dec _ _) as [E|E]; try discriminate.
  - injection E as ->. cbn [occurs]. rewrite Nat.eqb_refl. cbn. destruct (Nat.eqb_spec c d) as [->|N]; [rewrite Nat.eqb_refl; destruct (occurs d new); reflexivity|].
    destruct (occurs d new), (negb (d =? c)); reflexivity.
  - cbn. destruct (Nat.eqb_spec n c) as [->|]; [congruence|]. destruct (Nat.eqb_spec n d) as [->|]; cbn; [destruct (Nat.eqb_spec d c); [congruence|reflexivity]|].
    rewrite andb_false_r. reflexivity.
  - cbn. rewrite andb_false_r. reflexivity.
  - cbn. exact IH.
  - cbn. rewrite IHa, IHb. destruct (occurs c a), (occurs c b), (occurs d new), (d =? c), (occurs d a), (occurs d b); reflexivity.
Qed.
Lemma replace_absent c new e : occurs c e = false -> replace (Coef c) new e = e.
Proof.
  induction e as [n|a|f a IH|f a IHa b IHb]; cbn [replace occurs]; intros H; destruct (expr_eq_dec _ _) as [E|E]; try discriminate; try reflexivity.
  - injection E as ->. rewrite Nat.eqb_refl in H. discriminate.
  - f_equal; auto.
  - apply orb_false_iff in H as [H1 H2]. f_equal; auto.
Qed.
Lemma value_ext v w e : (forall c, occurs c e = true -> v c = w c) -> value v e = value w e.
Proof.
  induction e as [n|a|f a IH|f a IHa b IHb]; cbn; intros H; auto.
  - apply H, Nat.eqb_refl.
  - rewrite IH; auto.
  - rewrite IHa, IHb; auto; intros c Hc; apply H; rewrite Hc; [apply orb_true_r|reflexivity].
Qed.

(** A form whose velocity is the coefficient [c] means, after the set-up, the same with the velocity of the loop in the place of c and nothing else
    changed.  So do the forms inside of its labels. *)
Definition moved_by (u : expr) (before after : expr * option expr) : Prop :=
  match snd before with
  | None => after = before
  | Some (Coef c) => (forall v, value v (fst after) = value (with_value v c (value v u)) (fst before)) /\ (occurs c u = false -> occurs c (fst after) = false)
                     /\ snd after = Some u
  | Some _ => True
  end.
Lemma put_moved u p : moved_by u p (put u p).
Proof.
  destruct p as [f [key|]]; unfold moved_by, put; cbn [fst snd]; [|reflexivity].
  destruct key; trivial. split; [intros v; apply value_replace|]. split; [|reflexivity].
  intros H. rewrite occurs_replace, H, Nat.eqb_refl, andb_false_r. reflexivity.
Qed.
Theorem transport_by_the_loop_velocity : forall u R,
  exists R', setup_velocity (Some u) R = Ok R' /\
    Forall2 (fun t t' => moved_by u (form t, vel t) (form t', vel t') /\
                         (vel t <> None -> Forall2 (Forall2 (moved_by u)) (inside t) (inside t')) /\ (vel t = None -> t' = t)) R R'.
Proof.
  intros u R. eexists. split; [reflexivity|]. induction R as [|t R IH]; cbn [map]; constructor; [|exact IH]. clear IH R.
  unfold set_velocity. destruct (vel t) as [key|] eqn:E.
  - split; [pose proof (put_moved u (form t, Some key)) as H; exact H|]. split; [|discriminate]. intros _. cbn [inside].
    induction (inside t) as [|l ls IH]; cbn; constructor; [|exact IH]. induction l as [|p l IHl]; cbn; constructor; [apply put_moved|exact IHl].
  - split; [unfold moved_by; cbn; rewrite E; reflexivity|]. split; [congruence|reflexivity].
Qed.

(** Which velocity that is *)
Lemma existsb_u l : existsb (String.eqb "u") l = true <-> In "u"%string l.
Proof. rewrite existsb_exists. split; [intros (x & H & E); apply String.eqb_eq in E; subst; exact H|intros H; exists "u"%string; auto]. Qed.
Lemma index_of_some n l i : index_of n l = Some i -> nth_error l i = Some n.
Proof.
  revert i. induction l as [|m l IH]; intros i; cbn; [discriminate|]. destruct (String.eqb_spec n m) as [->|]; [intros [= <-]; reflexivity|].
  destruct (index_of n l) as [j|]; [|discriminate]. intros [= <-]. apply IH. reflexivity.
Qed.
Lemma index_of_in n l : In n l <-> exists i, index_of n l = Some i.
Proof.
  induction l as [|m l IH]; cbn; [split; [intros []|intros [i H]; discriminate]|]. destruct (String.eqb_spec n m) as [->|N]; [split; eauto|].
  split; [intros [->|H]; [congruence|]; apply IH in H as [i ->]; eauto|intros [i H]; right; apply IH; destruct (index_of n l); [eauto|discriminate]].
Qed.
(** Time steppers in which the wind is part of the state: the wind of the state being evaluated, if the equation has one; otherwise refused as soon
    as there is something to transport *)
Theorem prognostic_wind_transports : forall X fields names R,
  (forall ns, names = Some ns -> In "u"%string ns -> In "u"%string fields) ->
  match choose X None Prognostic fields names with
  | Ok (Some u) => exists ns i, names = Some ns /\ nth_error ns i = Some "u"%string /\ u = Coef (X i)
  | Ok None => ~ In "u"%string fields /\ (forall t, In t R -> vel t <> None -> setup_velocity None R = Err ValueError) /\
               ((forall t, In t R -> vel t = None) -> setup_velocity None R = Ok R)
  | Err _ => In "u"%string fields /\ (forall ns, names = Some ns -> ~ In "u"%string ns)
  end.
Proof.
  intros X fields names R Hf. cbn [choose]. destruct (existsb (String.eqb "u") fields) eqn:E.
  - apply existsb_u in E. destruct names as [ns|]; [|split; [exact E|discriminate]]. destruct (index_of "u" ns) as [i|] eqn:Ei.
    + exists ns, i. repeat split. apply index_of_some, Ei.
    + split; [exact E|]. intros ns' [= <-] H. apply index_of_in in H as [j Hj]. congruence.
  - split; [intros H; apply existsb_u in H; congruence|]. unfold setup_velocity. split.
    + intros t Ht Hv. destruct (existsb _ R) eqn:Ex; [reflexivity|]. exfalso. assert (Ex' : existsb (fun t => match vel t with Some _ => true | None => false end) R = true).
      { apply existsb_exists. exists t. split; [exact Ht|]. destruct (vel t); [reflexivity|congruence]. } congruence.
    + intros H. destruct (existsb _ R) eqn:Ex; [|reflexivity]. apply existsb_exists in Ex as (t & Ht & Hv). rewrite (H t Ht) in Hv. discriminate.
Qed.

(** SUPG: the velocity in the test function is that of the transport, in the mass terms too *)
Theorem supg_uses_the_transporting_velocity : forall add streamline test s t u,
  (forall v a b, value v (streamline a b) = un 0 (bin 0 (value v a) (value v b))) ->
  (forall a b c, occurs c (streamline a b) = occurs c a || occurs c b) ->
  s <> test -> occurs s (form t) = false -> occurs s u = false -> occurs test u = false ->
  (forall key, vel t = Some key -> exists c, key = Coef c /\ c <> s /\ c <> test /\ occurs c u = false) ->
  forall v,
  let V := value v u in
  let new_test := bin add (v test) (un 0 (bin 0 V (v test))) in
  value v (form (set_velocity u (supg_term add streamline test s t))) =
  match vel t with
  | Some (Coef c) => value (with_value (with_value v test new_test) c V) (form t)
  | _ => value (with_value v test new_test) (form t)
  end.
Proof.
  intros add streamline test s t u Hs Ho Nst Fs Fu Ft Hk v V new_test. unfold set_velocity, supg_term. cbn [vel form].
  rewrite value_replace. fold V.
  assert (NT : value (with_value v s V) (supg_test add streamline test s) = new_test).
  { unfold supg_test. cbn [value]. rewrite Hs. cbn [value]. unfold with_value. rewrite Nat.eqb_refl.
    destruct (Nat.eqb_spec test s); [congruence|reflexivity]. }
  destruct (vel t) as [key|] eqn:E.
  - destruct (Hk key eq_refl) as (c & -> & Ncs & Nct & Fc). rewrite value_replace, value_replace.
    set (v' := with_value (with_value v s V) c (value (with_value v s V) (Coef s))).
    assert (Hv' : value v' (supg_test add streamline test s) = new_test).
    { unfold supg_test. cbn [value]. rewrite Hs. cbn [value]. unfold v', with_value. cbn [value]. rewrite Nat.eqb_refl.
      destruct (Nat.eqb_spec test c); [congruence|]. destruct (Nat.eqb_spec test s); [congruence|]. destruct (Nat.eqb_spec s c); [congruence|]. reflexivity. }
    rewrite Hv'. apply value_ext. intros d Hd. unfold v', with_value. cbn [value]. rewrite Nat.eqb_refl.
    destruct (Nat.eqb_spec d test) as [->|]; [destruct (Nat.eqb_spec test c); [congruence|reflexivity]|].
    destruct (Nat.eqb_spec d c); [reflexivity|]. destruct (Nat.eqb_spec d s) as [->|]; [congruence|reflexivity].
  - rewrite value_replace, NT. apply value_ext. intros d Hd. unfold with_value. destruct (Nat.eqb_spec d test); [reflexivity|].
    destruct (Nat.eqb_spec d s) as [->|]; [congruence|reflexivity].
Qed.

(** Rain falls with its own velocity, whatever transports the other fields *)
Theorem rain_falls_with_its_own_velocity : forall r t c u, vel t = Some (Coef c) -> c <> r ->
  form (set_velocity u (fallout_term r t)) = form (fallout_term r t) /\
  forall v, value v (form (set_velocity u (fallout_term r t))) = value (with_value v c (v r)) (form t).
Proof.
  intros r t c u Hv N. assert (E : form (set_velocity u (fallout_term r t)) = form (fallout_term r t)).
  { unfold set_velocity, fallout_term. cbn [vel form]. rewrite Hv. cbn [form]. apply replace_absent. rewrite occurs_replace. cbn.
    rewrite Nat.eqb_refl. cbn. destruct (Nat.eqb_spec r c); [congruence|]. rewrite andb_false_r. reflexivity. }
  split; [exact E|]. intros v. rewrite E. unfold fallout_term. cbn [form]. rewrite Hv. apply value_replace.
Qed.

(** Set-up leaves the transported field as the unknown of the scheme.  Not so for the default form of the transport of the wind by the wind, in which the
    two are the same: after the set-up with the time-averaged wind, the term no longer depends on the wind being transported *)
Theorem transported_field_is_kept : forall u t c q, vel t = Some (Coef c) -> q <> c -> occurs q u = false ->
  occurs q (form (set_velocity u t)) = occurs q (form t).
Proof.
  intros u t c q Hv N Hq. unfold set_velocity. rewrite Hv. cbn [form]. rewrite occurs_replace, Hq, andb_false_r. destruct (Nat.eqb_spec q c); [congruence|reflexivity].
Qed.
Theorem default_wind_transport_refuted : forall u t w, vel t = Some (Coef w) -> occurs w u = false ->
  forall v x, value (with_value v w x) (form (set_velocity u t)) = value v (form (set_velocity u t)).
Proof.
  intros u t w Hv Hu v x. apply value_ext. intros c Hc. unfold with_value. destruct (Nat.eqb_spec c w) as [->|]; [|reflexivity].
  exfalso. unfold set_velocity in Hc. rewrite Hv in Hc. cbn [form] in Hc. rewrite occurs_replace, Hu, Nat.eqb_refl, andb_false_r in Hc. discriminate.
Qed.
End Meaning.
(** A velocity given to the set-up is the one that is used, whatever the time stepper; the steppers that transport by the field u of the state refuse a
    state without one; the others do not need it *)
Theorem velocity_that_is_used : forall X state_u u_n u_np1 alpha_u ubar add sub mul fields names,
  (forall e v, choose X (Some e) v fields names = Ok (Some e)) /\
  (forall e, choose X None (Given e) fields names = Ok (Some e)) /\
  forall s, let v := the_velocity state_u u_n u_np1 alpha_u ubar add sub mul s fields in
  (In s [PrescribedStepper; SplitStepper; SplitPrescribedStepper] -> (In "u"%string fields -> v = Ok (Given (Coef state_u))) /\ (~ In "u"%string fields -> v = Err ValueError)) /\
  (In s [PlainStepper; SplitPhysicsStepper] -> v = Ok Prognostic) /\ (s = TrBdf2Stepper -> v = Ok (Given (Coef ubar))).
Proof.
  intros. split; [|split].
  - intros e [|e']; reflexivity.
  - reflexivity.
  - intros s v. assert (E : existsb (String.eqb "u") fields = true <-> In "u"%string fields).
    { rewrite existsb_exists. split; [intros (x & Hx & Ex); apply String.eqb_eq in Ex; subst; exact Hx|intros H; exists "u"%string; auto]. }
    split; [|split].
    + intros Hs. assert (Ev : v = if existsb (String.eqb "u") fields then Ok (Given (Coef state_u)) else Err ValueError) by (destruct Hs as [<-|[<-|[<-|[]]]]; reflexivity).
      rewrite Ev. split; intros H; [apply E in H; rewrite H; reflexivity|]. destruct (existsb (String.eqb "u") fields); [|reflexivity]. exfalso. apply H, E. reflexivity.
    + intros [<-|[<-|[]]]; reflexivity.
    + intros ->. reflexivity.
Qed.

(** In the semi-implicit scheme: the wind between the time levels *)
Theorem siqn_velocity_between_levels : forall (I : Type) (v : nat -> vec I) u_n u_np1 alpha_u state_u ubar fields u a,
  the_velocity state_u u_n u_np1 alpha_u ubar 0 1 2 SiqnStepper fields = Ok (Given u) -> (forall i, v alpha_u i = a) ->
  value (fun _ => vzero) (fun _ x => x) (fun o => match o with 0 => vadd | 1 => vsub | _ => fun x y i => (x i * y i)%R end) v u
  = vadd (vscal (1 - a)%R (v u_n)) (vscal a (v u_np1)).
Proof.
  intros I v u_n u_np1 alpha_u state_u ubar fields u a H Ha. cbn [the_velocity] in H. injection H as <-. cbn [value].
  apply functional_extensionality. intros i. unfold vadd, vsub, vscal. rewrite Ha. ring.
Qed.
(** Example: two terms: mass (1 op (q, test)) and upwind transport with placeholder 7, wind between time levels *)
Example transport_example :
  let transport := {| form := Bin 5 (Bin 6 (Coef 7) (Coef 1)) (Coef 0); vel := Some (Coef 7); inside := [[(Bin 6 (Coef 7) (Coef 0), Some (Coef 7))]] |} in
  let mass := {| form := Bin 5 (Coef 1) (Coef 0); vel := None; inside := [] |} in
  setup_velocity (Some (Coef 9)) [mass; transport] =
  Ok [mass; {| form := Bin 5 (Bin 6 (Coef 9) (Coef 1)) (Coef 0); vel := Some (Coef 9); inside := [[(Bin 6 (Coef 9) (Coef 0), Some (Coef 9))]] |}].
Proof. reflexivity. Qed.
Example plain_refuses_prescribed_wind : choose (fun i => i) None Prognostic ["q"; "u"]%string None = Err AttributeError /\
  choose (fun i => i) None Prognostic ["h"; "u"; "c"]%string (Some ["h"; "u"; "c"]%string) = Ok (Some (Coef 1)).
Proof. split; reflexivity. Qed.

(** ** Prescribed velocities *)
Section PrescribedProps.
Context {V S : Type}.
Variable scheme : V -> Q -> S -> S.
Notation steps := (steps scheme). Notation run := (run_prescribed scheme).
(** Specification: the state after n steps from time t, each with the velocity at the start of the step *)
Fixpoint advance (f : Q -> V) (n : nat) (t dt : Q) (s : S) : S :=
  match n with O => s | Datatypes.S n => advance f n (t + dt)%Q dt (scheme (f t) dt s) end.
Lemma steps_spec f n dt p : p_fun p = Some f ->
  p_state (steps n dt p) = advance f n (p_clock p) dt (p_state p) /\ p_fun (steps n dt p) = Some f /\
  p_flag (steps n dt p) = p_flag p /\ p_ready (steps n dt p) = p_ready p.
Proof.
  revert p. induction n as [|n IH]; intros p H; cbn [TransportVelocity.steps advance]; [auto|].
  destruct (IH (prescribed_step scheme dt p) H) as (A & B & C & D). rewrite A, B, C, D. unfold prescribed_step, evaluate. cbn. rewrite H. auto.
Qed.
Theorem prescribed_wind_at_every_step : forall f flag clock u0 s t n dt p q,
  setup_prescribed f (new_prescribed flag clock u0 s) = Ok p -> run t n dt p = Ok q ->
  p_state q = advance f n t dt s.
Proof.
  intros f flag clock u0 s t n dt p q Hs Hr. unfold setup_prescribed, new_prescribed in Hs. cbn in Hs. destruct (negb flag) eqn:E; [discriminate|].
  injection Hs as <-. unfold run_prescribed in Hr. cbn in Hr. rewrite andb_false_r in Hr. injection Hr as <-.
  match goal with |- p_state (TransportVelocity.steps _ n dt ?p0) = _ => exact (proj1 (steps_spec f n dt p0 eq_refl)) end.
Qed.
Lemma iter_swap (n : nat) (dt x : Q) : Nat.iter (Datatypes.S n) (fun x => (x + dt)%Q) x = Nat.iter n (fun x => (x + dt)%Q) (x + dt)%Q.
Proof. induction n as [|n IH]; [reflexivity|]. change (Nat.iter (Datatypes.S n) (fun x => (x + dt)%Q) x + dt = Nat.iter n (fun x => (x + dt)%Q) (x + dt) + dt)%Q. rewrite IH. reflexivity. Qed.
(** Running in two parts (also after a pick-up, with any clock and any velocity in the field) is running in one *)
Theorem prescribed_two_runs : forall f flag clock u0 s t n m dt p q flag' clock' u0' p' q',
  setup_prescribed f (new_prescribed flag clock u0 s) = Ok p -> run t n dt p = Ok q ->
  setup_prescribed f (new_prescribed flag' clock' u0' (p_state q)) = Ok p' -> run (p_clock q) m dt p' = Ok q' ->
  exists r, run t (n + m) dt p = Ok r /\ p_state q' = p_state r.
Proof.
  intros f flag clock u0 s t n m dt p q flag' clock' u0' p' q' H1 H2 H3 H4. pose proof (prescribed_wind_at_every_step _ _ _ _ _ _ _ _ _ _ H1 H2) as E1.
  pose proof (prescribed_wind_at_every_step _ _ _ _ _ _ _ _ _ _ H3 H4) as E2. rewrite E2, E1.
  assert (R : exists r, run t (n + m) dt p = Ok r).
  { unfold run_prescribed in H2 |- *. destruct (p_flag p && negb (p_ready p)); [discriminate|eauto]. }
  destruct R as [r Hr]. exists r. split; [exact Hr|]. rewrite (prescribed_wind_at_every_step _ _ _ _ _ _ _ _ _ _ H1 Hr).
  assert (Ec : p_clock q = Nat.iter n (fun x => (x + dt)%Q) t).
  { unfold run_prescribed in H2. destruct (p_flag p && negb (p_ready p)); [discriminate|]. injection H2 as <-.
    match goal with |- p_clock (TransportVelocity.steps _ n dt ?p0) = _ => assert (G : forall k p1, p_clock (steps k dt p1) = Nat.iter k (fun x => (x + dt)%Q) (p_clock p1)); [|exact (G n p0)] end.
    induction k as [|k IH]; intros p1; [reflexivity|]. cbn [TransportVelocity.steps]. rewrite IH. cbn [p_clock prescribed_step]. symmetry. apply iter_swap. }
  rewrite Ec. clear. revert t s. induction n as [|n IH]; intros t s; [reflexivity|]. cbn [advance Nat.add]. rewrite <- IH. f_equal. apply iter_swap.
Qed.
(** A time-varying velocity must be given exactly once, and only if it was announced *)
Theorem prescribed_setup_checked : forall flag clock u0 (s : S) (fs : list (Q -> V)),
  let setup := fold_left (fun r f => do p <- r; setup_prescribed f p) fs (Ok (new_prescribed flag clock u0 s)) in
  (is_ok setup <-> fs = [] \/ flag = true /\ exists f, fs = [f]) /\
  forall t n dt, is_ok (do p <- setup; run t n dt p) <-> (flag = true /\ exists f, fs = [f]) \/ (flag = false /\ fs = []).
Proof.
  intros flag clock u0 s fs setup.
  assert (Er : forall fs e, fold_left (fun r (f : Q -> V) => do p <- r; setup_prescribed f p) fs (@Err (prescribed V S) e) = Err e) by (intros l e; induction l; cbn; auto).
  destruct fs as [|f [|g fs]].
  - split; [split; [auto|intros _; eexists; reflexivity]|]. intros t n dt. subst setup. cbn. unfold run_prescribed. cbn. destruct flag; cbn.
    + split; [intros [q H]; discriminate|intros [[_ [f H]]|[H _]]; discriminate].
    + split; [auto|intros _; eexists; reflexivity].
  - subst setup. cbn. unfold setup_prescribed, new_prescribed. cbn. destruct flag; cbn.
    + split; [split; [eauto|intros _; eexists; reflexivity]|]. intros t n dt. split; [eauto|intros _; eexists; reflexivity].
    + split; [split; [intros [q H]; discriminate|intros [H|[H _]]; discriminate]|]. intros t n dt. split; [intros [q H]; discriminate|intros [[H _]|[_ H]]; discriminate].
  - assert (F : setup = Err RuntimeError).
    { subst setup. cbn. unfold setup_prescribed at 2, new_prescribed. cbn. destruct flag; cbn; apply Er. }
    rewrite F. split; [split; [intros [q H]; discriminate|intros [H|[_ [h H]]]; discriminate]|].
    intros t n dt. split; [intros [q H]; discriminate|intros [[_ [h H]]|[_ H]]; discriminate].
Qed.
End PrescribedProps.
(** The velocity in the output is not the one at the time of the output: after a step it is that at the start of the step, and at the start of a run
    that of the clock before the run *)
Theorem prescribed_output_velocity_refuted : forall (S : Type) (scheme : Q -> Q -> S -> S) (s : S),
  exists p q, setup_prescribed (fun t => t) (new_prescribed true 0%Q 0%Q s) = Ok p /\ run_prescribed scheme 10%Q 1 1%Q p = Ok q /\
  map fst (p_dumps q) = [(10, 0); (10 + 1, 10)]%Q.
Proof. intros S scheme s. eexists. eexists. split; [reflexivity|]. split; reflexivity. Qed.
(** With the velocity 2t and the state its integral by steps of length 1 *)
Example prescribed_example : exists p q, setup_prescribed (fun t => 2 * t)%Q (new_prescribed true 0%Q 0%Q 0%Q) = Ok p /\
  run_prescribed (fun u dt s => s + dt * u)%Q 1%Q 3 1%Q p = Ok q /\ (p_state q == 12)%Q.
Proof. eexists. eexists. split; [reflexivity|]. split; [reflexivity|]. vm_compute. reflexivity. Qed.

(** ** The consistent metric wind *)
Open Scope R_scope.
Definition along (d : nat) (k u : nat -> R) : R := rsum d (fun j => u j * k j).
(** Only the vertical wind is changed; not at all where the scheme transports z as it should *)
Theorem consistent_wind_vertical : forall d k ubar a, rsum d (fun j => k j * k j) = 1 ->
  along d k (consistent_wind d k ubar a) = along d k ubar - (a - along d k ubar) /\
  (forall h, along d k h = 0 -> along d h (consistent_wind d k ubar a) = along d h ubar) /\
  (a = along d k ubar -> forall i, consistent_wind d k ubar a i = ubar i).
Proof.
  intros d k ubar a Hk. unfold along, consistent_wind. fold (along d k ubar). set (w := along d k ubar).
  assert (E : forall h, rsum d (fun j => (ubar j + k j * (w - a)) * h j) = rsum d (fun j => ubar j * h j) + (w - a) * rsum d (fun j => k j * h j)).
  { intros h. rewrite <- rsum_scal, <- rsum_add. apply rsum_ext. intros j _. ring. }
  split; [rewrite E, Hk; fold (along d k ubar); fold w; ring|]. split.
  - intros h Hh. rewrite E. replace (rsum d (fun j => k j * h j)) with (rsum d (fun j => h j * k j)) by (apply rsum_ext; intros; ring). rewrite Hh. ring.
  - intros ->. intros i. ring.
Qed.
(** What it is for: let the scheme's tendency of z be h + A w, linear in the vertical wind w (values at the nodes of theta).
    Transported with the consistent wind instead, the error of the tendency of z is I - A applied to what it was: one order better *)
Theorem consistent_metric_improves : forall (I : Type) (A : vec I -> vec I) (h w : vec I), (forall x y, A (vsub x y) = vsub (A x) (A y)) ->
  let adv_z w := vadd h (A w) in
  let w' := vsub w (vsub (adv_z w) w) in
  let e := vsub (adv_z w) w in
  vsub (adv_z w') w = vsub e (A e).
Proof.
  intros I A h w HA adv_z w' e. unfold w', adv_z. fold (adv_z w). fold e. rewrite HA. apply functional_extensionality. intros i. unfold e at 2. unfold adv_z, vadd, vsub. lra.
Qed.
(** A scheme with a relative error of 1/10: with the consistent wind 1/100 *)
Example consistent_metric_example : let A := fun w : vec unit => vscal (11/10) w in
  (forall x y, A (vsub x y) = vsub (A x) (A y)) /\ A (fun _ => 1) tt = 11/10 /\ A (vsub (fun _ => 1) (vsub (A (fun _ => 1)) (fun _ => 1))) tt = 99/100.
Proof. intros A. unfold A, vscal, vsub. split; [intros; apply functional_extensionality; intros; ring|]. split; lra. Qed.

Section LoopProps.
Context {W F : Type}.
Variables (difference : F -> F -> R -> F) (wind : W -> F -> W) (z_field : F) (dt : R).
Notation loop := (transport_fields difference wind z_field dt).
(** a field that occurs once among the schemes *)
Definition fields_of (s : transport_scheme W F) : list string := match names_of s with One n => [n] | Several l => l end.
Definition mentions (n : string) (l : list (transport_scheme W F)) : nat := count_occ string_dec (flat_map fields_of l) n.
Lemma p_untouched c u n l st : mentions n l = 0%nat -> p_ (loop c u l st) n = p_ st n.
Proof.
  revert st. induction l as [|s l IH]; intros st H; [reflexivity|]. unfold mentions in H. cbn [flat_map] in H. rewrite count_occ_app in H.
  cbn [transport_fields fold_left]. fold (loop c u l (transport_one difference wind z_field dt c u s st)). rewrite IH by (unfold mentions; lia).
  assert (H0 : count_occ string_dec (fields_of s) n = 0%nat) by lia. apply count_occ_not_In in H0. unfold transport_one, fields_of in *.
  assert (U : forall f m x, m <> n -> upd f m x n = f n :> F) by (intros f m x N; unfold upd; destruct (String.eqb_spec n m); [congruence|reflexivity]).
  destruct (names_of s) as [m|ms].
  - assert (m <> n) by (intros ->; apply H0; left; reflexivity). destruct (c && String.eqb m "z") eqn:E; cbn [p_]; [|apply U; assumption].
    apply andb_prop in E as [_ E]. apply String.eqb_eq in E. subst m. apply U. assumption.
  - cbn [p_]. clear H IH. generalize (p_ st). induction ms as [|m ms IHm]; intros f; [reflexivity|]. cbn [fold_left]. rewrite IHm by (intros Hi; apply H0; right; exact Hi).
    apply U. intros ->. apply H0. left. reflexivity.
Qed.
Lemma rest_untouched c u l st : mentions "z" l = 0%nat -> star (loop c u l st) = star st /\ c_wind (loop c u l st) = c_wind st.
Proof.
  revert st. induction l as [|s l IH]; intros st H; [auto|]. unfold mentions in H. cbn [flat_map] in H. rewrite count_occ_app in H.
  cbn [transport_fields fold_left]. fold (loop c u l (transport_one difference wind z_field dt c u s st)).
  destruct (IH (transport_one difference wind z_field dt c u s st)) as [A B]; [unfold mentions; lia|]. rewrite A, B.
  assert (H0 : count_occ string_dec (fields_of s) "z"%string = 0%nat) by lia. apply count_occ_not_In in H0. unfold transport_one, fields_of in *.
  destruct (names_of s) as [m|ms]; [|auto]. destruct (String.eqb_spec m "z") as [->|]; [destruct H0; left; reflexivity|]. rewrite andb_false_r. auto.
Qed.
Lemma loop_app c u l1 l2 st : loop c u (l1 ++ l2) st = loop c u l2 (loop c u l1 st).
Proof. apply fold_left_app. Qed.
(** If the options are accepted and theta has a scheme of its own, theta is transported by the consistent wind made in the same call from the transport
    of z, and every other field by the wind itself, whatever was left from earlier calls *)
Theorem consistent_metric_transport : forall names ubar sz rest s n st,
  accepts_consistent names (map names_of (sz :: rest)) = Ok tt ->
  names_of s = One n -> In s rest -> n <> "z"%string -> mentions n (sz :: rest) = 1%nat -> mentions "z" (sz :: rest) = 1%nat ->
  let z' := apply1 sz ubar z_field in
  p_ (loop true ubar (sz :: rest) st) n =
  apply1 s (if String.eqb n "theta" then wind ubar (difference z_field z' dt) else ubar) (star st n).
Proof.
  intros names ubar sz rest s n st Ha Hs Hi Nz M1 Mz z'.
  unfold accepts_consistent in Ha. destruct (negb _); [discriminate|]. destruct (negb _); [discriminate|]. cbn [map] in Ha.
  destruct (names_of sz) as [m|] eqn:En; [|discriminate]. destruct (String.eqb_spec m "z") as [->|]; [|discriminate]. clear Ha names.
  apply in_split in Hi as (l1 & l2 & ->). unfold mentions in M1, Mz. cbn [flat_map] in M1, Mz. rewrite flat_map_app in M1, Mz. cbn [flat_map] in M1, Mz.
  assert (Fz : fields_of sz = ["z"%string]) by (unfold fields_of; rewrite En; reflexivity). assert (Fs : fields_of s = [n]) by (unfold fields_of; rewrite Hs; reflexivity).
  rewrite Fz, Fs in M1, Mz. rewrite !count_occ_app in M1, Mz. cbn [count_occ] in M1, Mz.
  destruct (string_dec n n) as [_|]; [|congruence]. destruct (string_dec "z" n) as [e|_]; [congruence|]. destruct (string_dec "z" "z") as [_|]; [|congruence].
  destruct (string_dec n "z"); [congruence|].
  cbn [transport_fields fold_left]. fold (loop true ubar (l1 ++ s :: l2)%list (transport_one difference wind z_field dt true ubar sz st)).
  rewrite loop_app. cbn [transport_fields fold_left]. fold (loop true ubar l1 (transport_one difference wind z_field dt true ubar sz st)).
  set (st1 := transport_one difference wind z_field dt true ubar sz st).
  assert (E1 : star st1 n = star st n /\ c_wind st1 = wind ubar (difference z_field z' dt)).
  { unfold st1, transport_one. rewrite En. cbn [andb String.eqb Ascii.eqb Bool.eqb star c_wind velocity_for]. split; [|reflexivity].
    unfold upd. destruct (String.eqb_spec n "z"); [congruence|reflexivity]. }
  destruct (rest_untouched true ubar l1 st1) as [A B]; [unfold mentions; lia|]. set (st2 := loop true ubar l1 st1) in *.
  change (p_ (loop true ubar l2 (transport_one difference wind z_field dt true ubar s st2)) n = apply1 s (if String.eqb n "theta" then wind ubar (difference z_field z' dt) else ubar) (star st n)).
  rewrite p_untouched by (unfold mentions; lia). unfold transport_one. rewrite Hs. destruct (String.eqb_spec n "z"); [congruence|]. cbn [andb p_].
  unfold upd at 1. rewrite String.eqb_refl. cbn [velocity_for andb]. rewrite A, B. destruct E1 as [-> ->]. reflexivity.
Qed.
(** Theta transported together with other fields does not feel the metric term *)
Theorem consistent_metric_simultaneous_refuted : forall names ubar sz s l st,
  accepts_consistent names (map names_of [sz; s]) = Ok tt -> names_of s = Several ["theta"%string; l] -> l <> "theta"%string ->
  p_ (loop true ubar [sz; s] st) "theta" = apply_all s ubar (star (loop true ubar [sz] st)) "theta".
Proof.
  intros names ubar sz s l st Ha Hs Nl. cbn [transport_fields fold_left]. set (st1 := transport_one _ _ _ _ _ _ sz st).
  unfold transport_one. rewrite Hs. cbn [p_ fold_left velocity_for]. unfold upd at 1. destruct (String.eqb_spec "theta" l); [congruence|]. reflexivity.
Qed.
(** TR-BDF2 accepts the option, and then always stops in the first transport of z *)
Theorem trbdf2_consistent_metric_refuted : forall names ubar sz rest st,
  accepts_consistent names (map names_of (sz :: rest)) = Ok tt ->
  trbdf2_transport difference wind z_field dt true ubar (sz :: rest) st = Err AttributeError.
Proof.
  intros names ubar sz rest st Ha. unfold accepts_consistent in Ha. destruct (negb _); [discriminate|]. destruct (negb _); [discriminate|]. cbn [map] in Ha.
  destruct (names_of sz) as [m|] eqn:En; [|discriminate]. destruct (String.eqb_spec m "z") as [->|]; [|discriminate].
  cbn [trbdf2_transport bind]. unfold trbdf2_transport_one. rewrite En. reflexivity.
Qed.
End LoopProps.
Definition one_scheme (n : string) : transport_scheme R R := {| names_of := One n; apply1 := fun u q => q - u; apply_all := fun _ f => f |}.
Example consistent_loop_example :
  let l := map one_scheme ["z"; "u"; "rho"; "theta"]%string in
  accepts_consistent ["u"; "rho"; "theta"; "z"]%string (map names_of l) = Ok tt /\
  p_ (transport_fields (fun a b dt => (a - b) / dt) (fun u a => u + (u - a)) 5 2 true 3 l {| star := fun _ => 1; p_ := fun _ => 0; c_wind := 77 |}) "theta" = 1 - (3 + (3 - (5 - (5 - 3)) / 2)).
Proof. split; reflexivity. Qed.

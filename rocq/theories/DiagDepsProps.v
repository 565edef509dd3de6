(** C143.  Diagnostics may be listed in any order: every diagnostic is set up and computed after the diagnostics it uses, so that
    all values of an output belong together. *)
From Coq Require Import List String Bool Arith Lia Permutation Relations.
Import ListNotations.
From Verif Require Import Base TopoSort TopoSortFacts TopoSortProps DiagDepsSpec DiagDeps.
Local Open Scope string_scope.

Definition consistent_output {V} (formula : diagnostic -> V -> list V -> V) := consistent dname reads formula.

(** ** Which classes declare what they read *)
Definition declares (d : diagnostic) : Prop := incl (reads d) (required d).
(** All but: RichardsonNumber (the gradient of the density, u), the Courant number of a field (unless the user declares it), the
    dewpoint and wet-bulb temperatures, the user's own classes, and one class that cannot be constructed *)
Theorem classes_declare_what_they_read :
  forall d, construct d = Ok tt ->
  match d with
  | RichardsonNumber _ | Dewpoint | WetBulb _ => True
  | CourantNumber (Some v) _ _ req _ => In v req -> declares d
  | Custom _ req rd => incl rd req -> declares d
  | _ => declares d
  end.
Proof.
  intros d Hc. destruct d; simpl in *; try discriminate; auto; unfold declares; simpl;
    try (destruct velocity; simpl; try (intros H x [<-|[]]; exact H); intros x []);
    try (intros x Hx; simpl in *; tauto).
  destruct (String.eqb base "RelativeVorticity") eqn:E; [apply String.eqb_eq in E; subst|]; intros x Hx; exact Hx.
Qed.
Print Assumptions classes_declare_what_they_read.

(** ** Setting up *)
Lemma ends_with_app suf f : ends_with suf (f ++ suf) = true.
Proof.
  unfold ends_with. apply String.eqb_eq.
  assert (L : forall a b, String.length (a ++ b) = String.length a + String.length b).
  { induction a as [|c a IH]; intros b; simpl; [reflexivity|]. now rewrite IH. }
  rewrite L. replace (_ + _ - _) with (String.length f) by lia. clear L.
  induction f as [|c f IH]; simpl.
  - induction suf as [|c s IH]; simpl; [reflexivity|]. now rewrite IH.
  - exact IH.
Qed.
Lemma creates_suffix d r : In r (creates d) -> ends_with "_bar" r = true \/ ends_with "_init" r = true.
Proof. destruct d; simpl; try tauto; intros [<-|[]]; [right|left]; apply ends_with_app. Qed.
Lemma creates_required d r : In r (creates d) -> In r (required d).
Proof. destruct d; simpl; tauto. Qed.

(** What the user has to see to.  [sf]: the fields there are before the diagnostics are set up. *)
Record usable (ds : list diagnostic) (sf : container) : Prop := {
  u_built : forall d, In d ds -> construct d = Ok tt;
  u_distinct : NoDup (map dname ds);
  (* every field that is declared or used is a field of the model or another diagnostic in the list (SteadyStateError and
     Perturbation make their second field themselves) *)
  u_available : forall d r, In d ds -> In r (required d) \/ In r (reads d) ->
                In r (names sf) \/ In r (map dname ds) \/ In r (creates d);
  (* what is used of the other diagnostics is declared: always so, except for the classes of the theorem above *)
  u_declared : forall d r, In d ds -> In r (reads d) -> In r (map dname ds) -> In r (required d);
  (* no diagnostic is called like a reference or initial field *)
  u_suffix : forall d, In d ds -> ends_with "_bar" (dname d) = false /\ ends_with "_init" (dname d) = false;
  (* no diagnostic has the name of a field that is not a diagnostic *)
  u_fresh : forall d, In d ds -> ~ In (dname d, false) sf }.

Section Proofs.
Context (ds : list diagnostic) (sf : container) (U : usable ds sf).

Lemma nondiag_no_name r : In r (non_diagnostics ds sf) -> In r (map dname ds) -> False.
Proof.
  intros Hn Hr. apply in_map_iff in Hr as (d & <- & Hd).
  unfold non_diagnostics in Hn. apply in_app_iff in Hn as [Hn|Hn].
  - apply in_map_iff in Hn as ([n b] & E & Hn). simpl in E. subst n.
    apply filter_In in Hn as [Hin Hb]. simpl in Hb.
    assert (M : mem (dname d) (map dname ds) = true) by (apply mem_In, in_map, Hd).
    rewrite M in Hb. destruct b; [discriminate|]. exact (u_fresh _ _ U d Hd Hin).
  - destruct (u_suffix _ _ U d Hd) as [B I]. apply in_app_iff in Hn as [Hn|Hn]; apply filter_In in Hn as [_ Hn]; congruence.
Qed.

Lemma required_known d r : In d ds -> In r (required d) -> In r (non_diagnostics ds sf) \/ In r (map dname ds).
Proof.
  intros Hd Hr. destruct (u_available _ _ U d r Hd (or_introl Hr)) as [H|[H|H]].
  - apply in_map_iff in H as ([n b] & E & H). simpl in E. subst n.
    destruct (mem r (map dname ds)) eqn:M; [right; apply mem_In, M|left].
    apply in_app_iff. left. apply in_map_iff. exists (r, b). split; [reflexivity|].
    apply filter_In. split; [exact H|]. simpl. rewrite M. apply orb_true_r.
  - now right.
  - left. apply in_app_iff. right. apply in_app_iff.
    destruct (creates_suffix d r H) as [E|E]; [left|right]; apply filter_In; (split; [|exact E]); apply in_flat_map; now exists d.
Qed.
End Proofs.

Lemma names_ensure n b sf r : In r (names (ensure n b sf)) <-> r = n \/ In r (names sf).
Proof.
  unfold ensure. destruct (mem n (names sf)) eqn:M.
  - apply mem_In in M. split; [tauto|intros [->|H]; assumption].
  - unfold names. rewrite map_app, in_app_iff. simpl. intuition.
Qed.
Lemma setup_ok d sf :
  (forall r, In r (reads d) -> In r (names sf) \/ In r (creates d)) ->
  exists sf', setup d sf = Ok sf' /\ In (dname d) (names sf') /\ incl (names sf) (names sf').
Proof.
  intros H. unfold setup.
  assert (E : forallb (fun r => mem r (names sf) || mem r (creates d)) (reads d) = true).
  { apply forallb_forall. intros r Hr. apply orb_true_iff. destruct (H r Hr) as [K|K]; [left|right]; apply mem_In, K. }
  rewrite E. eexists. split; [reflexivity|]. split; [apply names_ensure; now left|].
  intros r Hr. apply names_ensure. right. clear -Hr. revert sf Hr.
  induction (creates d) as [|c l IH]; intros sf Hr; simpl; [exact Hr|]. apply IH. apply names_ensure. now right.
Qed.
Lemma setup_all_ok sf : forall rest pre sfk,
  (forall a f b, (pre ++ rest)%list = (a ++ f :: b)%list -> forall r, In r (reads f) ->
     In r (names sf) \/ In r (creates f) \/ In r (map dname a)) ->
  incl (names sf) (names sfk) -> incl (map dname pre) (names sfk) ->
  exists sf', setup_all rest sfk = Ok sf' /\ incl (names sf) (names sf') /\ incl (map dname (pre ++ rest)) (names sf').
Proof.
  induction rest as [|d rest IH]; intros pre sfk H H1 H2.
  - exists sfk. rewrite app_nil_r. simpl. auto.
  - destruct (setup_ok d sfk) as (s1 & E & N & I).
    { intros r Hr. destruct (H pre d rest eq_refl r Hr) as [K|[K|K]]; auto. }
    simpl. rewrite E.
    destruct (IH (pre ++ [d])%list s1) as (s' & E' & K1 & K2).
    + intros a f b Eq. rewrite <- app_assoc in Eq. simpl in Eq. exact (H a f b Eq).
    + intros r Hr. apply I, H1, Hr.
    + intros r Hr. rewrite map_app in Hr. apply in_app_iff in Hr as [Hr|[<-|[]]]; [apply I, H2, Hr|exact N].
    + exists s'. rewrite <- app_assoc in K2. simpl in K2. auto.
Qed.

Lemma dump_consistent {V} (formula : diagnostic -> V -> list V -> V) before : forall l,
  NoDup (map dname l) ->
  (forall a f b, l = (a ++ f :: b)%list -> forall r, In r (reads f) -> In r (map dname a) \/ ~ In r (map dname l)) ->
  consistent_output formula l before (dump formula l before).
Proof.
  induction l as [|d l IH] using rev_ind; intros ND H.
  - split; [intros d []|reflexivity].
  - rewrite map_app in ND. simpl in ND. apply NoDup_remove in ND as [ND Nd]. rewrite app_nil_r in ND, Nd.
    destruct IH as [C1 C2]; [exact ND| |].
    { intros a f b E r Hr. destruct (H a f (b ++ [d])%list) with (r := r) as [K|K]; auto.
      - rewrite E. rewrite <- app_assoc. reflexivity.
      - right. intros K'. apply K. rewrite map_app. apply in_app_iff. now left. }
    unfold dump. rewrite fold_left_app. simpl. fold (dump formula l before). set (mid := dump formula l before) in *.
    assert (X : forall r, r <> dname d -> compute formula d mid r = mid r).
    { intros r Hr. unfold compute, assign. apply String.eqb_neq in Hr. now rewrite Hr. }
    split.
    + intros d' Hd'. apply in_app_iff in Hd' as [Hd'|[<-|[]]].
      * rewrite X; [|intros E; apply Nd; rewrite <- E; apply in_map, Hd'].
        rewrite (C1 d' Hd'). f_equal. apply map_ext_in. intros r Hr. symmetry. apply X. intros ->.
        apply in_split in Hd' as (a & b & E).
        destruct (H a d' (b ++ [d])%list) with (r := dname d) as [K|K]; auto.
        -- rewrite E. rewrite <- app_assoc. reflexivity.
        -- apply Nd. rewrite E, map_app. apply in_app_iff. now left.
        -- apply K. rewrite map_app. apply in_app_iff. right. now left.
      * unfold compute at 1, assign at 1. rewrite String.eqb_refl. rewrite (C2 _ Nd). f_equal.
        apply map_ext_in. intros r Hr. symmetry. apply X. intros ->.
        destruct (H l d [] eq_refl (dname d) Hr) as [K|K]; [exact (Nd K)|].
        apply K. rewrite map_app. apply in_app_iff. right. now left.
    + intros n Hn. rewrite map_app, in_app_iff in Hn. simpl in Hn.
      rewrite X; [apply C2; tauto|intros ->; tauto].
Qed.

(** A diagnostic uses another one of the list, directly *)
Definition uses (ds : list diagnostic) (n m : string) : Prop :=
  exists d, In d ds /\ dname d = n /\ In m (required d) /\ In m (map dname ds).

(** C143.  Whatever the order of the list: either the declared requirements are circular, which is reported; or every diagnostic is
    set up, each once, and then, whatever the formulas and whatever the fields contained before (e.g. values of an earlier
    output), the values of every output belong together. *)
Theorem outputs_consistent :
  forall (ds : list diagnostic) (sf : container), usable ds sf ->
  (exists schedule sf', setup_diagnostics ds sf = Ok (schedule, sf') /\ Permutation schedule ds /\
     incl (names sf) (names sf') /\ incl (map dname ds) (names sf') /\
     forall V (formula : diagnostic -> V -> list V -> V) (before : string -> V),
       consistent_output formula ds before (dump formula schedule before)) \/
  (setup_diagnostics ds sf = Err RuntimeError /\ exists n, clos_trans string (uses ds) n n).
Proof.
  intros ds sf U. pose proof (u_distinct _ _ U) as ND.
  destruct (setup_orders_diagnostics _ dname required (non_diagnostics ds sf) ds ND
              (fun d r => required_known ds sf U d r)) as [(l & E & P & Hl)|[E (n & C)]].
  - left.
    assert (Inl : forall d, In d l <-> In d ds).
    { intros d; split; apply Permutation_in; [exact P|apply Permutation_sym, P]. }
    assert (Pn : Permutation (map dname l) (map dname ds)) by (apply Permutation_map, P).
    assert (NDl : NoDup (map dname l)) by (eapply Permutation_NoDup; [apply Permutation_sym, Pn|exact ND]).
    assert (Rd : forall a f b, l = (a ++ f :: b)%list -> forall r, In r (reads f) -> In r (map dname ds) -> In r (map dname a)).
    { intros a f b El r Hr Hn.
      assert (Hf : In f ds) by (apply Inl; rewrite El; apply in_app_iff; right; now left).
      destruct (Hl a f b El r (u_declared _ _ U f r Hf Hr Hn)) as [K|K]; [|exact K].
      destruct (nondiag_no_name ds sf U r K Hn). }
    destruct (setup_all_ok sf l [] sf) as (sf' & E' & I1 & I2).
    { intros a f b El r Hr. simpl in El.
      assert (Hf : In f ds) by (apply Inl; rewrite El; apply in_app_iff; right; now left).
      destruct (u_available _ _ U f r Hf (or_intror Hr)) as [K|[K|K]]; auto.
      right. right. exact (Rd a f b El r Hr K). }
    { apply incl_refl. } { intros r []. }
    exists l, sf'. unfold setup_diagnostics. rewrite E, E'. split; [reflexivity|]. split; [exact P|]. split; [exact I1|].
    split. { intros r Hr. apply I2. simpl. eapply Permutation_in; [apply Permutation_sym, Pn|exact Hr]. }
    intros V formula before.
    destruct (dump_consistent formula before l NDl) as [C1 C2].
    { intros a f b El r Hr. destruct (in_dec string_dec r (map dname ds)) as [K|K].
      - left. exact (Rd a f b El r Hr K).
      - right. intros K'. apply K. eapply Permutation_in; [exact Pn|exact K']. }
    split.
    + intros d Hd. apply C1, Inl, Hd.
    + intros n Hn. apply C2. intros K. apply Hn. eapply Permutation_in; [exact Pn|exact K].
  - right. unfold setup_diagnostics. rewrite E. split; [reflexivity|]. exists n.
    assert (G : forall x y, (exists d, In d ds /\ dname d = x /\ In y (required d) /\ ~ In y (non_diagnostics ds sf)) -> uses ds x y).
    { intros x y (d & Hd & Ex & Hy & Hn). exists d. repeat split; auto.
      destruct (required_known ds sf U d y Hd Hy); tauto. }
    revert C. generalize n at 1 3. intros m C. induction C as [x y H|x y z _ IH1 _ IH2].
    + apply t_step, G, H.
    + eapply t_trans; eassumption.
Qed.
Print Assumptions outputs_consistent.

(** For the diagnostics of the library the condition on declarations holds by itself, except where the theorem above says so *)
Definition keeps_books (d : diagnostic) : bool :=
  match d with
  | RichardsonNumber _ | Dewpoint | WetBulb _ => false
  | CourantNumber (Some v) _ _ req _ => mem v req
  | Custom _ req rd => forallb (fun r => mem r req) rd
  | _ => true
  end.
Corollary library_outputs_consistent :
  forall (ds : list diagnostic) (sf : container),
  (forall d, In d ds -> construct d = Ok tt /\ keeps_books d = true) ->
  NoDup (map dname ds) ->
  (forall d r, In d ds -> In r (required d) -> In r (names sf) \/ In r (map dname ds) \/ In r (creates d)) ->
  (forall d, In d ds -> ends_with "_bar" (dname d) = false /\ ends_with "_init" (dname d) = false /\ ~ In (dname d, false) sf) ->
  ~ (exists n, clos_trans string (uses ds) n n) ->
  exists schedule sf', setup_diagnostics ds sf = Ok (schedule, sf') /\ Permutation schedule ds /\
    forall V (formula : diagnostic -> V -> list V -> V) (before : string -> V),
      consistent_output formula ds before (dump formula schedule before).
Proof.
  intros ds sf Hk ND Hav Hn Hc.
  assert (Hd : forall d, In d ds -> incl (reads d) (required d)).
  { intros d Hd. destruct (Hk d Hd) as [B K]. pose proof (classes_declare_what_they_read d B) as G.
    destruct d; simpl in K; try discriminate; try exact G.
    - destruct velocity; [apply G, mem_In, K|exact G].
    - apply G. intros r Hr. apply mem_In. rewrite forallb_forall in K. exact (K r Hr). }
  destruct (outputs_consistent ds sf) as [(l & s' & E & P & _ & _ & C)|[_ H]].
  - constructor.
    + intros d D. apply (Hk d D).
    + exact ND.
    + intros d r D [H|H]; [exact (Hav d r D H)|exact (Hav d r D (Hd d D r H))].
    + intros d r D H _. exact (Hd d D r H).
    + intros d D. destruct (Hn d D) as (a & b & _). auto.
    + intros d D. apply (Hn d D).
  - exists l, s'. auto.
  - contradiction.
Qed.
Print Assumptions library_outputs_consistent.

(** Non-vacuity: nine diagnostics of a shallow-water model, four of them using others that come later in the list *)
Definition sw_fields : container := [("u", false); ("D", false); ("coriolis", false); ("D_bar", false)].
Definition sw_list : list diagnostic :=
  [CumulativeSum "SWPotentialEnstrophy_from_RelativeVorticity"; SWPotentialEnstrophy "RelativeVorticity"; Gradient "RelativeVorticity";
   SteadyStateError "KineticEnergy"; RelativeVorticity; Perturbation "D"; KineticEnergy; SWPotentialEnergy;
   CourantNumber (Some "u") None "whole" ["u"] true].
Ltac in_cases H := simpl in H; repeat (destruct H as [<-|H]); try contradiction.
Example sw_usable : usable sw_list sw_fields.
Proof.
  constructor.
  - intros d H. in_cases H; reflexivity.
  - vm_compute. repeat constructor; intros H; in_cases H; intuition discriminate.
  - intros d r Hd Hr. in_cases Hd; simpl in Hr; destruct Hr as [H|H]; in_cases H; vm_compute; tauto.
  - intros d r Hd Hr _. in_cases Hd; in_cases Hr; vm_compute; tauto.
  - intros d H. in_cases H; split; reflexivity.
  - intros d H. in_cases H; vm_compute; intuition discriminate.
Qed.
Example sw_order : match setup_diagnostics sw_list sw_fields with
  | Ok (l, sf) => map dname l = ["CourantNumber"; "ShallowWaterPotentialEnergy"; "KineticEnergy"; "KineticEnergy_error"; "D_perturbation";
      "RelativeVorticity"; "RelativeVorticity_gradient"; "SWPotentialEnstrophy_from_RelativeVorticity";
      "SWPotentialEnstrophy_from_RelativeVorticity_cumulative"] /\ List.length sf = 14
  | Err _ => False
  end.
Proof. vm_compute. split; reflexivity. Qed.

(** ** Where it fails *)
Definition euler_fields : container := [("u", false); ("rho", false); ("theta", false); ("rho_bar", false); ("theta_bar", false)].

(** RichardsonNumber declares the density but uses its gradient, which it does not declare: the same three diagnostics are set up in
    one order of the list and refused in another, with the message that the gradient does not exist. *)
Theorem richardson_depends_on_list_order_refuted :
  exists ds ds', Permutation ds ds' /\ (forall d, In d ds -> construct d = Ok tt) /\
    (exists s, setup_diagnostics ds euler_fields = Ok s) /\ setup_diagnostics ds' euler_fields = Err ValueError.
Proof.
  exists [RichardsonNumber "rho"; Gradient "u"; Gradient "rho"], [RichardsonNumber "rho"; Gradient "rho"; Gradient "u"].
  split; [constructor; apply perm_swap|]. split; [intros d H; in_cases H; reflexivity|].
  split; [vm_compute; eexists; reflexivity|vm_compute; reflexivity].
Qed.
Print Assumptions richardson_depends_on_list_order_refuted.

(** CourantNumber does not declare the field it takes the velocity from (unless the user repeats its name in required_fields). *)
Theorem courant_of_diagnostic_refuted :
  exists ds, (forall d, In d ds -> construct d = Ok tt) /\ setup_diagnostics ds euler_fields = Err ValueError /\
    exists s, setup_diagnostics (rev ds) euler_fields = Ok s.
Proof.
  exists [Gradient "theta"; CourantNumber (Some "theta_gradient") None "whole" [] true].
  split; [intros d H; in_cases H; reflexivity|]. split; [vm_compute; reflexivity|vm_compute; eexists; reflexivity].
Qed.
Print Assumptions courant_of_diagnostic_refuted.

(** The perturbation of the Exner pressure from the reference Exner pressure: that diagnostic is called Exner_bar, and names ending in
    _bar are dropped from the requirements.  The perturbation may be computed before it, from the value of the previous output (zero
    at the first). *)
Theorem exner_perturbation_refuted :
  exists ds schedule sf',
    (forall d, In d ds -> construct d = Ok tt /\ keeps_books d = true) /\ NoDup (map dname ds) /\
    setup_diagnostics ds euler_fields = Ok (schedule, sf') /\ Permutation schedule ds /\
    exists (formula : diagnostic -> nat -> list nat -> nat) before,
      ~ consistent_output formula ds before (dump formula schedule before).
Proof.
  exists [Exner true; Perturbation "Exner"; Exner false].
  eexists. eexists. split; [intros d H; in_cases H; split; reflexivity|].
  split; [vm_compute; repeat constructor; intros H; in_cases H; intuition discriminate|].
  split; [vm_compute; reflexivity|].
  split; [apply Permutation_sym; eapply perm_trans; [apply perm_swap|]; eapply perm_trans; [apply perm_skip, perm_swap|]; apply perm_swap|].
  exists (fun d _ l => match d with Perturbation _ => list_sum l | _ => 1 end), (fun _ => 0).
  intros [C _]. specialize (C (Perturbation "Exner") (or_intror (or_introl eq_refl))). vm_compute in C. discriminate.
Qed.
Print Assumptions exner_perturbation_refuted.

(** A second run of the same model: the field of a cumulative sum is by then in the container as a field to be picked up, so it is taken
    for a field of the model and no longer ordered: a diagnostic that uses it is computed from the sum without the current step. *)
Theorem second_run_order_refuted :
  exists ds s1 sf1 s2 sf2,
    usable ds euler_fields /\
    setup_diagnostics ds euler_fields = Ok (s1, sf1) /\ setup_diagnostics s1 sf1 = Ok (s2, sf2) /\
    exists (formula : diagnostic -> nat -> list nat -> nat) before,
      consistent_output formula ds before (dump formula s1 before) /\
      ~ consistent_output formula ds before (dump formula s2 before).
Proof.
  set (ds := [KineticEnergy; CumulativeSum "KineticEnergy"; Component "_x" "KineticEnergy_cumulative"]).
  assert (U : usable ds euler_fields).
  { constructor.
    - intros d H. in_cases H; reflexivity.
    - vm_compute. repeat constructor; intros H; in_cases H; intuition discriminate.
    - intros d r Hd Hr. in_cases Hd; simpl in Hr; destruct Hr as [H|H]; in_cases H; vm_compute; tauto.
    - intros d r Hd Hr _. in_cases Hd; in_cases Hr; vm_compute; tauto.
    - intros d H. in_cases H; split; reflexivity.
    - intros d H. in_cases H; vm_compute; intuition discriminate. }
  destruct (outputs_consistent ds euler_fields U) as [(s1 & sf1 & E1 & _ & _ & _ & C)|[E _]]; [|vm_compute in E; discriminate].
  pose proof E1 as E1'. vm_compute in E1'. injection E1' as <- <-.
  eexists. eexists. eexists. eexists. eexists. split; [exact U|]. split; [exact E1|]. split; [vm_compute; reflexivity|].
  exists (fun d old l => match d with CumulativeSum _ => old + list_sum l | KineticEnergy => 1 | _ => list_sum l end), (fun _ => 0).
  split; [apply C|].
  intros [C' _]. specialize (C' (Component "_x" "KineticEnergy_cumulative") (or_intror (or_intror (or_introl eq_refl)))).
  vm_compute in C'. discriminate.
Qed.
Print Assumptions second_run_order_refuted.

(** One class cannot be constructed at all. *)
Theorem thermodynamic_kinetic_energy_refuted :
  forall ts, construct (ThermodynamicKineticEnergy ts) = Err TypeError.
Proof. reflexivity. Qed.
Print Assumptions thermodynamic_kinetic_energy_refuted.

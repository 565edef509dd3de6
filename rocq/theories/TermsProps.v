(** Properties C70, C71, C72: which terms of an equation a scheme steps forward. *)
From Verif Require Import Base Terms.
From Coq Require Import String.
Close Scope Q_scope.
Open Scope string_scope.

Lemma has_In l t : has l t = true <-> In l (labels t).
Proof.
  unfold has. rewrite existsb_exists. split; [intros (x & H & E); apply String.eqb_eq in E; congruence|].
  intros H; exists l; split; [exact H|apply String.eqb_refl].
Qed.
Lemma any_has ls t : (2 <= List.length ls)%nat ->
  py_any (has_label ls t) = true <-> exists l, In l ls /\ In l (labels t).
Proof.
  intros H. unfold has_label. destruct ls as [|a [|b ls]]; [cbn in H; lia|cbn in H; lia|].
  cbn [py_any]. rewrite existsb_exists. split.
  - intros (x & Hx & Ex). apply in_map_iff in Hx as (l & E & Hl). exists l. split; [exact Hl|]. apply has_In. congruence.
  - intros (l & Hl & El). exists (has l t). split; [apply in_map_iff; exists l; auto|apply has_In; exact El].
Qed.

Lemma NoDup_app_intro_sing {A} (l : list A) a : NoDup l -> ~ In a l -> NoDup (l ++ [a]).
Proof.
  intros H N. induction H as [|x l Hx H IH]; cbn; [constructor; [auto|constructor]|].
  constructor.
  - rewrite in_app_iff. cbn. intros [G|[<-|[]]]; [exact (Hx G)|apply N; cbn; auto].
  - apply IH. intros G; apply N; cbn; auto.
Qed.

(** The terms a user expects for a system or a single field: those of the field that
    are time derivatives or carry one of the labels (all, if no labels are given). *)
Definition wanted (w : target) (active : list string) (t : lterm) : Prop :=
  (match w with OneField f => prognostic t = f | _ => True end) /\
  (active = [] \/ In td (labels t) \/ exists l, In l active /\ In l (labels t)).

(** C70.  For the whole system or one field: exactly the wanted terms, in order, none
    repeated unless repeated in the equation. *)
Theorem active_terms_selected :
  forall (w : target) (active : list string) (r : list lterm),
  (forall fs, w <> FieldList fs) ->
  exists keep : lterm -> bool,
    setup_terms w active r = filter keep r /\ forall t, keep t = true <-> wanted w active t.
Proof.
  intros w active r Hw. unfold setup_terms, select_prognostic, select_active, wanted.
  assert (FF : forall (p q : lterm -> bool) l, filter p (filter q l) = filter (fun t => q t && p t) l).
  { intros p q l; induction l as [|a l IH]; [reflexivity|]. cbn. destruct (q a); cbn; rewrite IH; reflexivity. }
  assert (FT : forall l : list lterm, filter (fun _ => true) l = l).
  { induction l as [|a l IH]; [reflexivity|]. cbn; rewrite IH; reflexivity. }
  assert (A : forall active t, active <> [] ->
     py_any (has_label (td :: active) t) = true <-> In td (labels t) \/ exists l, In l active /\ In l (labels t)).
  { intros ac t Ha. rewrite any_has by (destruct ac; [congruence|cbn; lia]). split.
    - intros (l & [<-|Hl] & El); [left; exact El|right; exists l; auto].
    - intros [H|(l & Hl & El)]; [exists td; cbn; auto|exists l; cbn; auto]. }
  destruct w as [|f|fs]; [| |exfalso; exact (Hw fs eq_refl)]; destruct active as [|a active].
  - exists (fun _ => true). rewrite FT. split; [reflexivity|]. intuition auto.
  - exists (fun t => py_any (has_label (td :: a :: active) t)). split; [reflexivity|]. intros t.
    rewrite A by discriminate. split; [intros H; split; [exact Logic.I|right; exact H]|intros (_ & [H|H]); [discriminate|exact H]].
  - exists (fun t => String.eqb (prognostic t) f). split; [reflexivity|]. intros t. rewrite String.eqb_eq. tauto.
  - exists (fun t => String.eqb (prognostic t) f && py_any (has_label (td :: a :: active) t)). rewrite FF. split; [reflexivity|].
    intros t. rewrite Bool.andb_true_iff, String.eqb_eq, A by discriminate.
    split; [intros (H & G); split; [exact H|right; exact G]|intros (H & [G|G]); [discriminate|split; assumption]].
Qed.
Print Assumptions active_terms_selected.

(** C70.  For a list of fields and exactly one label: all time derivatives, then, field by
    field, the terms carrying the label. *)
Theorem field_list_single_label_partial :
  forall (fs : list string) (l : string) (r : list lterm),
  setup_terms (FieldList fs) [l] r =
  (filter (has td) r ++ flat_map (fun f => filter (fun t => String.eqb (prognostic t) f && has l t) r) fs)%list.
Proof.
  intros fs l r. unfold setup_terms, select_prognostic, select_active.
  assert (G : forall fs acc, fold_left (fun acc f => acc ++
                 filter (fun t => truthy (has_label [l] t)) (filter (fun t => String.eqb (prognostic t) f) r))%list fs acc
    = (acc ++ flat_map (fun f => filter (fun t => String.eqb (prognostic t) f && has l t) r) fs)%list).
  { clear fs. induction fs as [|f fs IH]; intros acc; cbn; [rewrite app_nil_r; reflexivity|].
    rewrite IH, <- app_assoc. do 2 f_equal.
    clear IH. induction r as [|a r IHr]; [reflexivity|]. cbn. destruct (String.eqb (prognostic a) f); cbn;
      [destruct (has l a); rewrite IHr; reflexivity|exact IHr]. }
  apply G.
Qed.
Print Assumptions field_list_single_label_partial.

(** C70 fails for a list of fields and two or more labels: every term of the listed
    fields is kept, whatever its labels, and its time derivatives appear twice. *)
Theorem field_list_two_labels_refuted :
  forall (f : string) (l1 l2 : string) (rest : list string) (r : list lterm),
  setup_terms (FieldList [f]) (l1 :: l2 :: rest) r =
  (filter (has td) r ++ filter (fun t => String.eqb (prognostic t) f) r)%list.
Proof.
  intros. unfold setup_terms, select_prognostic, select_active. cbn [fold_left]. f_equal.
  assert (E : forall l : list lterm, filter (fun t => truthy (has_label (l1 :: l2 :: rest) t)) l = l).
  { induction l as [|a l IH]; [reflexivity|]. cbn in *. rewrite IH; reflexivity. }
  apply E.
Qed.
Print Assumptions field_list_two_labels_refuted.
Example field_list_two_labels_example :
  let t1 := mk_lterm 1 "rho" [td] None None in let t2 := mk_lterm 2 "rho" ["diffusion"] None None in
  setup_terms (FieldList ["rho"]) ["transport"; "pressure"] [t1; t2] = [t1; t1; t2].
Proof. reflexivity. Qed.

(** C70 fails for the multi-level schemes: they can only be set up for the whole
    equation (any label raises), and only if no source term is left; all other schemes
    accept every list of labels. *)
Theorem multilevel_labels_refuted :
  forall (c : scheme_class) (w : target) (active : list string) (r : list lterm),
  (is_multilevel c = false -> scheme_setup c w active r = Ok (setup_terms w active r)) /\
  (is_multilevel c = true ->
     (active <> [] -> scheme_setup c w active r = Err TypeError) /\
     (active = [] -> (exists t, In t (setup_terms w [] r) /\ In "source_label" (labels t)) ->
        scheme_setup c w active r = Err NotImplementedError) /\
     (forall r', scheme_setup c w active r = Ok r' ->
        active = [] /\ r' = setup_terms w [] r /\ forall t, In t r' -> ~ In "source_label" (labels t))).
Proof.
  intros c w active r. unfold scheme_setup. split; intros H; rewrite H; [reflexivity|].
  assert (HS : forall t, has "source_label" t = true <-> In "source_label" (labels t)).
  { intros t. unfold has. rewrite existsb_exists. split.
    - intros (x & Hx & E). apply String.eqb_eq in E. subst x. exact Hx.
    - intros Hx. exists "source_label". split; [exact Hx|apply String.eqb_refl]. }
  split; [|split].
  - intros N. destruct active; [contradiction|reflexivity].
  - intros -> (t & Ht & Hl). cbn [keyword_call]. unfold refuse_sources.
    replace (existsb (has "source_label") (setup_terms w [] r)) with true; [reflexivity|].
    symmetry. apply existsb_exists. exists t. split; [exact Ht|apply HS; exact Hl].
  - intros r'. destruct active as [|a l]; [|discriminate]. cbn [keyword_call]. unfold refuse_sources.
    destruct (existsb (has "source_label") (setup_terms w [] r)) eqn:E; [discriminate|].
    intros R; injection R as <-. repeat split. intros t Ht Hl.
    assert (existsb (has "source_label") (setup_terms w [] r) = true).
    { apply existsb_exists. exists t. split; [exact Ht|apply HS; exact Hl]. }
    congruence.
Qed.
Print Assumptions multilevel_labels_refuted.

Example multilevel_setup_example :
  scheme_setup SBDF2 WholeSystem [] [mk_lterm 0 "u" ["time_derivative"] None None] =
    Ok [mk_lterm 0 "u" ["time_derivative"] None None] /\
  scheme_setup SBDF2 WholeSystem [] [mk_lterm 0 "u" ["source_label"] None None] = Err NotImplementedError /\
  scheme_setup SExplicitRK WholeSystem ["transport"] [mk_lterm 0 "u" ["transport"] None None] =
    Ok [mk_lterm 0 "u" ["transport"] None None].
Proof. repeat split. Qed.

(** C70.  Every physics parametrisation with a term in the residual is evaluated, exactly
    once. *)
Theorem physics_evaluated_once :
  forall r : list lterm,
  NoDup (evaluate_source r) /\ forall p, In p (evaluate_source r) <-> exists t, In t r /\ physics t = Some p.
Proof.
  intros r. unfold evaluate_source.
  assert (G : forall r acc, NoDup acc ->
    let out := fold_left (fun acc t => match physics t with
                          | Some p => if existsb (String.eqb p) acc then acc else (acc ++ [p])%list
                          | None => acc end) r acc in
    NoDup out /\ forall p, In p out <-> In p acc \/ exists t, In t r /\ physics t = Some p).
  { clear r. induction r as [|t r IH]; intros acc Hacc.
    - cbn. split; [exact Hacc|]. intros p; split; [auto|intros [H|(t & [] & _)]; exact H].
    - cbn [fold_left].
      set (acc' := match physics t with
                   | Some p => if existsb (String.eqb p) acc then acc else (acc ++ [p])%list
                   | None => acc end).
      assert (A : NoDup acc' /\ forall p, In p acc' <-> In p acc \/ physics t = Some p).
      { unfold acc'. destruct (physics t) as [q|]; [|split; [exact Hacc|intros p; split; [auto|intros [H|H]; [exact H|discriminate]]]].
        destruct (existsb (String.eqb q) acc) eqn:E.
        - apply existsb_exists in E as (x & Hx & Ex). apply String.eqb_eq in Ex; subst x.
          split; [exact Hacc|]. intros p; split; [auto|intros [H|H]; [exact H|injection H as <-; exact Hx]].
        - assert (Hq : ~ In q acc). { intros H. assert (existsb (String.eqb q) acc = true) by (apply existsb_exists; exists q; split; [exact H|apply String.eqb_refl]). congruence. }
          split.
          + apply NoDup_app_intro_sing; assumption.
          + intros p. rewrite in_app_iff. cbn. split; [intros [H|[<-|[]]]; auto|intros [H|H]; [auto|injection H as <-; auto]]. }
      destruct A as [A1 A2]. destruct (IH acc' A1) as [B1 B2]. split; [exact B1|].
      intros p. rewrite B2, A2. split.
      + intros [[H|H]|(u & Hu & Eu)]; [auto|right; exists t; cbn; auto|right; exists u; cbn; auto].
      + intros [H|(u & [<-|Hu] & Eu)]; [auto|auto|right; exists u; auto]. }
  destruct (G r [] (NoDup_nil _)) as [G1 G2]. split; [exact G1|]. intros p. rewrite G2. cbn. tauto.
Qed.
Print Assumptions physics_evaluated_once.

(* ---------------- mass-weighted terms ---------------- *)

(** C72.  The field f is stepped in mass-weighted form: it has exactly one mass-weighted
    time derivative and some other term with a mass-weighted form. *)
Definition weighted_field (r : list lterm) (f : string) : Prop :=
  List.length (filter (fun t => String.eqb (prognostic t) f && has td t && is_mw t) r) = 1%nat /\
  exists t, In t r /\ prognostic t = f /\ ~ In td (labels t) /\ mass_weighted t <> None.
(** ... but also a term without one. *)
Definition mixed_field (r : list lterm) (f : string) : Prop :=
  weighted_field r f /\ exists t, In t r /\ prognostic t = f /\ ~ In td (labels t) /\ mass_weighted t = None.

Lemma is_mw_iff t : is_mw t = true <-> mass_weighted t <> None.
Proof. unfold is_mw. destruct (mass_weighted t); split; congruence. Qed.
Lemma pos_filter {A} (p : A -> bool) l : Nat.ltb 0 (List.length (filter p l)) = true <-> exists x, In x l /\ p x = true.
Proof.
  rewrite Nat.ltb_lt. split.
  - intros H. destruct (filter p l) as [|x q] eqn:E; [cbn in H; lia|]. exists x. apply filter_In. rewrite E. cbn; auto.
  - intros (x & Hx). apply filter_In in Hx. destruct (filter p l); [destruct Hx|cbn; lia].
Qed.
Lemma not_td t : negb (has td t) = true <-> ~ In td (labels t).
Proof. rewrite Bool.negb_true_iff, <- has_In. destruct (has td t); split; congruence. Qed.

Lemma weight_field_spec f r :
  (mixed_field r f /\ weight_field f r = Err ValueError) \/
  (~ mixed_field r f /\ weighted_field r f /\
     weight_field f r = Ok (map (fun t => if of_field f t && is_mw t then weight_term t else t) r)) \/
  (~ weighted_field r f /\ weight_field f r = Ok r).
Proof.
  unfold weight_field. unfold of_field in *.
  assert (P1 : Nat.ltb 0 (List.length (filter is_mw (filter (fun t => String.eqb (prognostic t) f && negb (has td t)) r))) = true <->
     exists t, In t r /\ prognostic t = f /\ ~ In td (labels t) /\ mass_weighted t <> None).
  { rewrite pos_filter. split; intros (t & H); exists t.
    - destruct H as [H M]. apply filter_In in H as [H G]. apply Bool.andb_true_iff in G as [G1 G2].
      apply String.eqb_eq in G1. apply not_td in G2. apply is_mw_iff in M. auto.
    - destruct H as (H & G1 & G2 & M). split; [|apply is_mw_iff; exact M]. apply filter_In. split; [exact H|].
      apply Bool.andb_true_iff; split; [apply String.eqb_eq; exact G1|apply not_td; exact G2]. }
  assert (P2 : Nat.ltb 0 (List.length (filter (fun t => negb (is_mw t)) (filter (fun t => String.eqb (prognostic t) f && negb (has td t)) r))) = true <->
     exists t, In t r /\ prognostic t = f /\ ~ In td (labels t) /\ mass_weighted t = None).
  { rewrite pos_filter. split; intros (t & H); exists t.
    - destruct H as [H M]. apply filter_In in H as [H G]. apply Bool.andb_true_iff in G as [G1 G2].
      apply String.eqb_eq in G1. apply not_td in G2. unfold is_mw in M. destruct (mass_weighted t); [discriminate|]. auto.
    - destruct H as (H & G1 & G2 & M). split; [|unfold is_mw; rewrite M; reflexivity]. apply filter_In. split; [exact H|].
      apply Bool.andb_true_iff; split; [apply String.eqb_eq; exact G1|apply not_td; exact G2]. }
  unfold mixed_field, weighted_field.
  destruct (Nat.eqb (List.length (filter (fun t => String.eqb (prognostic t) f && has td t && is_mw t) r)) 1) eqn:E.
  - apply Nat.eqb_eq in E.
    destruct (Nat.ltb 0 (List.length (filter is_mw (filter (fun t => String.eqb (prognostic t) f && negb (has td t)) r)))) eqn:E1.
    + destruct (Nat.ltb 0 (List.length (filter (fun t => negb (is_mw t)) (filter (fun t => String.eqb (prognostic t) f && negb (has td t)) r)))) eqn:E2.
      * left. tauto.
      * right; left. split; [|tauto]. intros [_ H]. apply P2 in H. discriminate.
    + right; right. split; [|reflexivity]. intros [_ H]. apply P1 in H. discriminate.
  - apply Nat.eqb_neq in E. right; right. tauto.
Qed.

Lemma filter_map_stable {A} (p : A -> bool) (g : A -> A) l :
  (forall t, p (g t) = p t) -> (forall t, p t = true -> g t = t) -> filter p (map g l) = filter p l.
Proof.
  intros H1 H2. induction l as [|a l IH]; [reflexivity|]. cbn. rewrite H1, IH. destruct (p a) eqn:E; [|reflexivity].
  rewrite (H2 a E). reflexivity.
Qed.

Definition weight_of (sel : string -> bool) (t : lterm) : lterm := if sel (prognostic t) && is_mw t then weight_term t else t.
Lemma weight_of_prog sel t : prognostic (weight_of sel t) = prognostic t.
Proof. unfold weight_of, weight_term. destruct (sel _ && _), (mass_weighted t); reflexivity. Qed.
Lemma weight_of_off sel t : sel (prognostic t) = false -> weight_of sel t = t.
Proof. intros H; unfold weight_of; rewrite H; reflexivity. Qed.

Lemma weighted_stable sel r f : sel f = false ->
  (weighted_field (map (weight_of sel) r) f <-> weighted_field r f) /\
  (mixed_field (map (weight_of sel) r) f <-> mixed_field r f).
Proof.
  intros Hs.
  assert (S : forall t, prognostic t = f -> weight_of sel t = t) by (intros t Ht; apply weight_of_off; rewrite Ht; exact Hs).
  assert (K : filter (fun t => String.eqb (prognostic t) f && has td t && is_mw t) (map (weight_of sel) r)
            = filter (fun t => String.eqb (prognostic t) f && has td t && is_mw t) r).
  { apply filter_map_stable.
    - intros t. rewrite weight_of_prog. destruct (String.eqb (prognostic t) f) eqn:E; [|reflexivity].
      apply String.eqb_eq in E. rewrite (S t E). reflexivity.
    - intros t H. apply Bool.andb_true_iff in H as [H _]. apply Bool.andb_true_iff in H as [H _]. apply String.eqb_eq in H. auto. }
  assert (X : forall Q : lterm -> Prop, (exists t, In t (map (weight_of sel) r) /\ prognostic t = f /\ Q t) <-> (exists t, In t r /\ prognostic t = f /\ Q t)).
  { intros Q. split.
    - intros (t & H & P & HQ). apply in_map_iff in H as (u & E & Hu). rewrite <- E, weight_of_prog in P.
      exists u. rewrite (S u P) in E. subst u. auto.
    - intros (t & H & P & HQ). exists t. split; [apply in_map_iff; exists t; auto|auto]. }
  unfold mixed_field, weighted_field. rewrite K.
  pose proof (X (fun t => ~ In td (labels t) /\ mass_weighted t <> None)) as X1.
  pose proof (X (fun t => ~ In td (labels t) /\ mass_weighted t = None)) as X2. cbn beta in X1, X2.
  split; [tauto|tauto].
Qed.

Lemma weight_fields_spec fs : forall r, NoDup fs ->
  ((exists f, In f fs /\ mixed_field r f) /\ weight_fields fs r = Err ValueError) \/
  ((forall f, In f fs -> ~ mixed_field r f) /\
   exists sel, (forall f, sel f = true <-> In f fs /\ weighted_field r f) /\
     weight_fields fs r = Ok (map (weight_of sel) r)).
Proof.
  induction fs as [|f fs IH]; intros r Hnd.
  - right. split; [intros f []|]. exists (fun _ => false). split; [intros f; split; [discriminate|intros [[] _]]|].
    cbn. f_equal. induction r as [|a r IHr]; [reflexivity|]. cbn. rewrite <- IHr. reflexivity.
  - inversion Hnd as [|? ? Hf Hnd']; subst. cbn [weight_fields].
    destruct (weight_field_spec f r) as [[M E]|[(M & W & E)|(W & E)]]; rewrite E.
    + left. split; [exists f; cbn; auto|reflexivity].
    + change (map (fun t => if of_field f t && is_mw t then weight_term t else t) r)
        with (map (weight_of (fun g => String.eqb g f)) r).
      destruct (IH (map (weight_of (fun g => String.eqb g f)) r) Hnd') as [[(g & Hg & Mg) E']|[NM (sel & Hsel & E')]].
      * left. split; [|exact E']. exists g. split; [cbn; auto|].
        apply (weighted_stable (fun g => String.eqb g f) r g); [|exact Mg]. apply String.eqb_neq. intros ->; exact (Hf Hg).
      * right. split.
        -- intros g [<-|Hg]; [exact M|]. intros Mg. apply (NM g Hg).
           apply (weighted_stable (fun g => String.eqb g f) r g); [|exact Mg]. apply String.eqb_neq. intros ->; exact (Hf Hg).
        -- exists (fun g => String.eqb g f || sel g). split.
           ++ intros g. rewrite Bool.orb_true_iff, String.eqb_eq, Hsel. split.
              ** intros [->|[Hg Wg]]; [cbn; auto|]. split; [cbn; auto|].
                 apply (proj1 (weighted_stable (fun g => String.eqb g f) r g ltac:(apply String.eqb_neq; intros ->; exact (Hf Hg)))); exact Wg.
              ** intros [[<-|Hg] Wg]; [auto|]. right. split; [exact Hg|].
                 apply (proj1 (weighted_stable (fun g => String.eqb g f) r g ltac:(apply String.eqb_neq; intros ->; exact (Hf Hg)))); exact Wg.
           ++ rewrite E'. f_equal. rewrite map_map. apply map_ext. intros t.
              unfold weight_of, weight_term. cbn beta. destruct (String.eqb (prognostic t) f) eqn:Ef; cbn [orb andb].
              ** unfold is_mw. destruct (mass_weighted t) eqn:Mt; cbn [andb prognostic mass_weighted].
                 --- rewrite Bool.andb_false_r. reflexivity.
                 --- rewrite Mt, Bool.andb_false_r. reflexivity.
              ** reflexivity.
    + destruct (IH r Hnd') as [[(g & Hg & Mg) E']|[NM (sel & Hsel & E')]].
      * left. split; [|exact E']. exists g. cbn; auto.
      * right. split.
        -- intros g [<-|Hg]; [intros [H _]; exact (W H)|exact (NM g Hg)].
        -- exists sel. split; [|exact E']. intros g. rewrite Hsel. split; [intros [A B]; cbn; auto|].
           intros [[<-|A] B]; [exfalso; exact (W B)|auto].
Qed.

(** C72.  For every equation (distinct field names): set-up raises exactly if some field
    that has to be stepped in mass-weighted form also has a term without such a form;
    otherwise exactly the fields with a mass-weighted time derivative and some other
    mass-weighted term are replaced, all their terms, and nothing else changes. *)
Theorem mass_weighted_terms :
  forall (field_names : list string) (r : list lterm), NoDup field_names ->
  ((exists f, In f field_names /\ mixed_field r f) /\ setup_mass_weighted field_names r = Err ValueError) \/
  ((forall f, In f field_names -> ~ mixed_field r f) /\
   exists r', setup_mass_weighted field_names r = Ok r' /\ List.length r' = List.length r /\
     forall i t, nth_error r i = Some t ->
       (In (prognostic t) field_names /\ weighted_field r (prognostic t) ->
          nth_error r' i = Some (weight_term t) /\ (~ In td (labels t) -> mass_weighted t <> None)) /\
       (~ (In (prognostic t) field_names /\ weighted_field r (prognostic t)) -> nth_error r' i = Some t)).
Proof.
  intros fs r Hnd. unfold setup_mass_weighted.
  destruct (Nat.ltb 0 (List.length (filter is_mw r))) eqn:E0.
  - destruct (weight_fields_spec fs r Hnd) as [H|[NM (sel & Hsel & E)]]; [left; exact H|].
    right. split; [exact NM|]. exists (map (weight_of sel) r). split; [exact E|]. split; [apply map_length|].
    intros i t Hi. rewrite nth_error_map, Hi. cbn [option_map]. split.
    + intros W. assert (S : sel (prognostic t) = true) by (apply Hsel; exact W).
      assert (G : weight_of sel t = weight_term t).
      { unfold weight_of, weight_term. rewrite S. cbn. unfold is_mw. destruct (mass_weighted t); reflexivity. }
      rewrite G. split; [reflexivity|]. intros Htd Mt. destruct W as [W1 W2]. apply (NM _ W1). split; [exact W2|]. exists t. repeat split; auto.
      eapply nth_error_In; exact Hi.
    + intros W. f_equal. apply weight_of_off. destruct (sel (prognostic t)) eqn:S; [|reflexivity]. apply Hsel in S. contradiction.
  - assert (NW : forall f, ~ weighted_field r f).
    { intros f [_ (t & Ht & _ & _ & M)].
      assert (Nat.ltb 0 (List.length (filter is_mw r)) = true) by (apply pos_filter; exists t; split; [exact Ht|apply is_mw_iff; exact M]).
      congruence. }
    right. split; [intros f _ [H _]; exact (NW f H)|]. exists r. repeat split; try reflexivity.
    + exfalso. destruct H0 as [_ H0]. exact (NW _ H0).
    + intros. exfalso. destruct H0 as [_ H0]. exact (NW _ H0).
    + intros _. exact H.
Qed.
Print Assumptions mass_weighted_terms.

Example mass_weighted_example :
  let m := mk_lterm 1 "m" [td] None (Some 11%nat) in
  let tr := mk_lterm 2 "m" ["transport"] None (Some 12%nat) in
  let ph := mk_lterm 3 "m" ["physics"] (Some "rain") None in
  let rho := mk_lterm 4 "rho" [td] None None in
  setup_mass_weighted ["rho"; "m"] [rho; m; tr] = Ok [rho; mk_lterm 11 "m" [td] None None; mk_lterm 12 "m" ["transport"] None None] /\
  setup_mass_weighted ["rho"; "m"] [rho; m; tr; ph] = Err ValueError /\
  setup_mass_weighted ["rho"; "m"] [rho; m; ph] = Ok [rho; m; ph].
Proof. repeat split. Qed.

(** Properties C03, C04: time levels and the state-field registry. *)
From Verif Require Import Base Fields FieldsFacts.
Local Open Scope string_scope.

(** C03.  Start with any levels (oldest first) [ps ++ [x]] over the same distinct
    field names; run any number of steps producing the states [news].  Then no
    error occurs and the levels nm_k, ..., n, np1 are exactly the most recent
    [length ps + 1] states of the history. *)
Theorem time_levels_hold_latest_states :
  forall (V : Type) (ns : list string) (news ps : list (level V)) (x : level V),
  wf_levels V ns (ps ++ [x]) -> ps <> [] -> Forall (fun l => names_of V l = ns) news ->
  exists y, steps (mk_tlf ps x) news = Some y /\
    (previous y ++ [np1 y])%list = skipn (length news) (ps ++ [x] ++ news)%list.
Proof. exact steps_spec. Qed.
Print Assumptions time_levels_hold_latest_states.

(** C03.  One update(): every level receives the next newer one, n receives np1
    and np1 itself is unchanged. *)
Theorem update_shifts_levels :
  forall (V : Type) (ns : list string) (ps : list (level V)) (x : level V),
  wf_levels V ns (ps ++ [x]) -> ps <> [] ->
  update (mk_tlf ps x) = Some (mk_tlf (tl ps ++ [x])%list x).
Proof. exact update_spec. Qed.
Print Assumptions update_shifts_levels.

Example time_levels_example :
  steps (mk_tlf [[("u", 0)]; [("u", 0)]] [("u", 1)]) [[("u", 2)]; [("u", 3)]; [("u", 4)]]
  = Some (mk_tlf [[("u", 2)]; [("u", 3)]] [("u", 4)])
  /\ wf_levels nat ["u"] ([[("u", 0)]; [("u", 0)]] ++ [[("u", 1)]]).
Proof. split; [reflexivity|]. split; [repeat constructor; simpl; tauto|repeat constructor]. Qed.

(** C03/C05.  The levels registered for pick-up are the current level n and all
    older ones except the oldest (which the next update overwrites). *)
Theorem pickup_saves_all_but_oldest_level :
  forall k, 2 <= k -> map snd (pickup_levels k) = rev (tl (previous_names k) ++ ["n"])%list.
Proof. exact pickup_levels_spec. Qed.
Print Assumptions pickup_saves_all_but_oldest_level.
Example pickup_levels_4 :
  pickup_levels 4 = [("nm1", "n"); ("nm2", "nm1"); ("nm3", "nm2")].
Proof. vm_compute; reflexivity. Qed.

(** C04.  Once a name has been answered, every later request for that name - after
    any further requests, with any other arguments - returns the same object and
    changes nothing. *)
Theorem registry_lookup_is_stable :
  forall s q s' a qs q2,
  call s q = (s', Ok a) -> q_name q2 = q_name q ->
  call (runs call_state s' qs) q2 = (runs call_state s' qs, Ok a).
Proof. exact lookup_stable. Qed.
Print Assumptions registry_lookup_is_stable.

(** C04.  A new name with exactly one of field/space creates exactly one field,
    registered for dumping / pick-up exactly as requested. *)
Theorem registry_new_field :
  forall s q, has_attr s (q_name q) = false -> valid_request q ->
  exists s' id, call s q = (s', Ok (AField id)) /\
    (match q_field q with Some f => id = f | None => id = r_next s end) /\
    r_fields s' = (r_fields s ++ [id])%list /\
    r_names s' = (r_names s ++ [q_name q])%list /\
    r_types s' = (r_types s ++ [match q_type q with None => default_type q | Some ty => ty end])%list /\
    r_to_dump s' = (r_to_dump s ++ if q_dump q then [q_name q] else [])%list /\
    r_to_pick_up s' = (r_to_pick_up s ++ if q_pick_up q then [q_name q] else [])%list.
Proof. exact call_new. Qed.
Print Assumptions registry_new_field.

(** C04.  An unknown name with neither or both of field/space raises ValueError
    and leaves the registry untouched. *)
Theorem registry_unknown_field_raises :
  forall s q, has_attr s (q_name q) = false ->
  (q_field q = None /\ q_space q = None) \/ (q_field q <> None /\ q_space q <> None) ->
  call s q = (s, Err ValueError).
Proof. exact unknown_without_space. Qed.
Print Assumptions registry_unknown_field_raises.

(** C04.  After any sequence of requests (including failing ones) the registered
    names are distinct and every registered name has a field and a type. *)
Theorem registry_consistent :
  forall d qs, let s := runs call_state (reg_init d) qs in
  NoDup (r_names s) /\
  (forall n, In n (r_names s) ->
     (exists id, assoc n (r_attrs s) = Some (AField id)) /\ exists ty, field_type s n = Ok ty).
Proof.
  intros d qs s. pose proof (calls_inv qs (reg_init d) (reg_inv_init d)) as H. fold s in H.
  split; [exact (proj1 H)|]. intros n Hn. split; [exact (proj2 (proj2 H) n Hn)|exact (field_type_total s n H Hn)].
Qed.
Print Assumptions registry_consistent.

(** C04.  The type reported for a newly created field is the requested one, or
    the default derived from pick_up/dump. *)
Theorem registry_type_of_new_field :
  forall s q, reg_inv s -> has_attr s (q_name q) = false -> valid_request q ->
  field_type (call_state s q) (q_name q) =
    Ok (match q_type q, q_pick_up q, q_dump q with
        | Some ty, _, _ => ty              (* the type asked for *)
        | None, true, _ => Prescribed      (* picked up: prescribed *)
        | None, false, true => Diagnostic  (* only output: diagnostic *)
        | None, false, false => Derived
        end).
Proof. intros s q H1 H2 H3. rewrite (new_field_type s q H1 H2 H3). destruct (q_type q); [reflexivity|]. unfold default_type. destruct (q_pick_up q), (q_dump q); reflexivity. Qed.
Print Assumptions registry_type_of_new_field.

Example registry_example :
  let s := runs call_state (reg_init [])
     [mk_req "u" (Some 7) None true true (Some Prognostic);
      mk_req "Courant" None (Some SingleSpace) false false None;
      mk_req "u" None (Some SingleSpace) false false None] in
  snd (call s (mk_req "u" None None true false None)) = Ok (AField 7)
  /\ r_to_dump s = ["u"] /\ r_to_pick_up s = ["u"]
  /\ field_type s "Courant" = Ok Derived
  /\ has_attr s "theta" = false.
Proof. vm_compute; repeat split. Qed.

(** C04, refuted for rejected requests: a request with an unpermitted field type
    raises, yet the field stays attached: it is then returned by later requests
    and scheduled for output although it has no type. *)
Theorem registry_rejected_request_has_no_effect_refuted :
  exists s q e, reg_inv s /\ snd (call s q) = Err e /\
    has_attr s (q_name q) = false /\
    has_attr (call_state s q) (q_name q) = true /\
    In (q_name q) (r_to_dump (call_state s q)) /\
    field_type (call_state s q) (q_name q) = Err ValueError.
Proof.
  exists (reg_init []), (mk_req "q" None (Some SingleSpace) true false (Some (Unpermitted "tracer"))), AssertionError.
  split; [apply reg_inv_init|]. vm_compute. repeat split; left; reflexivity.
Qed.
Print Assumptions registry_rejected_request_has_no_effect_refuted.

(** C04, refuted for the object's own attribute names: a request for a field
    called e.g. "fields" does not create or return a field. *)
Theorem registry_reserved_name_refuted :
  exists s q, valid_request q /\ ~ In (q_name q) (r_names s) /\
    call s q = (s, Ok AOwn).
Proof.
  exists (reg_init []), (mk_req "to_dump" None (Some SingleSpace) true false None).
  split; [split; [right; auto|exact I]|]. split; [simpl; tauto|reflexivity].
Qed.
Print Assumptions registry_reserved_name_refuted.

(** C65 (reference profiles), refuted: setting a reference profile from an
    expression is rejected even if the reference field already exists. *)
Theorem reference_profile_from_expression_refuted :
  exists s n, has_attr s (n ++ "_bar") = true /\
    snd (set_reference_profile s n PExpression) = Err ValueError.
Proof.
  exists (call_state (reg_init []) (mk_req "rho_bar" None (Some SingleSpace) false true (Some Reference))), "rho".
  vm_compute; auto.
Qed.
Print Assumptions reference_profile_from_expression_refuted.

(** C65.  In fact it is rejected for every state; a Function profile always
    yields the (one) reference field for that name. *)
Theorem reference_profile_behaviour :
  forall s n, set_reference_profile s n PExpression = (s, Err ValueError) /\
  (forall id, assoc (n ++ "_bar") (r_attrs s) = Some (AField id) ->
     set_reference_profile s n (PFunction SingleSpace) = (s, Ok (AField id))) /\
  (has_attr s (n ++ "_bar") = false ->
     exists s' id, set_reference_profile s n (PFunction SingleSpace) = (s', Ok (AField id)) /\
       In (n ++ "_bar") (r_to_pick_up s') /\ r_to_dump s' = r_to_dump s).
Proof. exact reference_profile_cases. Qed.
Print Assumptions reference_profile_behaviour.

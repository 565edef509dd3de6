(** Property C12: diagnostics are evaluated after what they depend on. *)
From Verif Require Import Base TopoSort TopoSortFacts.
From Coq Require Import Permutation Relations.
Local Open Scope string_scope.

(** C12.  For every finite list of diagnostics with distinct names and every
    requirement relation among them: either the call returns a permutation of the
    diagnostics in which everything a diagnostic requires comes before it (and the
    requirements are not circular), or it raises RuntimeError and they are
    circular. *)
Theorem diagnostics_ordered_or_circular :
  forall F (name : F -> string) (fd : list (F * list string)),
  NoDup (map (fun p => name (fst p)) fd) ->
  Forall (fun p => NoDup (snd p)) fd ->
  Forall (fun p => incl (snd p) (map (fun p => name (fst p)) fd)) fd ->
  (exists l, topo_sort name fd = Ok l /\ Permutation l (map fst fd) /\
     (forall a f b, l = (a ++ f :: b)%list -> forall d, requires name fd (name f) d -> In d (map name a)) /\
     ~ circular name fd) \/
  (topo_sort name fd = Err RuntimeError /\ circular name fd).
Proof. exact @topo_sort_correct. Qed.
Print Assumptions diagnostics_ordered_or_circular.

(** C12.  A requirement that is neither a diagnostic nor already removed as an
    existing field is reported as an error. *)
Theorem missing_requirement_raises :
  forall F (name : F -> string) (fd : list (F * list string)),
  Exists (fun p => ~ incl (snd p) (map (fun p => name (fst p)) fd)) fd ->
  topo_sort name fd = Err KeyError.
Proof. exact @topo_sort_missing. Qed.
Print Assumptions missing_requirement_raises.

(** C12.  The ordering as used when setting up a run: required fields that are
    prognostic/prescribed/reference fields are filtered out first. *)
Theorem setup_orders_diagnostics :
  forall F (name : F -> string) (required : F -> list string) (nondiag : list string) (ds : list F),
  NoDup (map name ds) ->
  (forall d r, In d ds -> In r (required d) -> In r nondiag \/ In r (map name ds)) ->
  let R := fun f d => exists x, In x ds /\ name x = f /\ In d (required x) /\ ~ In d nondiag in
  (exists l, topo_sort name (field_deps required nondiag ds) = Ok l /\ Permutation l ds /\
     (forall a f b, l = (a ++ f :: b)%list -> forall d, In d (required f) -> In d nondiag \/ In d (map name a))) \/
  (topo_sort name (field_deps required nondiag ds) = Err RuntimeError /\
     exists x, clos_trans string R x x).
Proof. exact @setup_diagnostics_order. Qed.
Print Assumptions setup_orders_diagnostics.

(** Non-vacuity: a chain with a diamond, and a cycle. *)
Example topo_diamond :
  topo_sort (fun s => s) [("d", ["b"; "c"]); ("b", ["a"]); ("c", ["a"]); ("a", [])]
  = Ok ["a"; "c"; "b"; "d"].
Proof. vm_compute; reflexivity. Qed.
Example topo_cycle :
  topo_sort (fun s => s) [("b", ["a"]); ("a", ["b"]); ("c", [])] = Err RuntimeError.
Proof. vm_compute; reflexivity. Qed.
Example topo_missing : topo_sort (fun s => s) [("b", ["zz"])] = Err KeyError.
Proof. vm_compute; reflexivity. Qed.
(** A diagnostic requested twice that has requirements makes the sort fail with
    a ValueError unrelated to any cycle. *)
Theorem duplicate_diagnostic_refuted :
  exists fd : list (string * list string),
    Forall (fun p => incl (snd p) (map fst fd)) fd /\ ~ circular (fun s => s) fd /\
    topo_sort (fun s => s) fd = Err ValueError.
Proof.
  exists [("b", ["a"]); ("b", ["a"]); ("a", [])].
  split; [|split; [|vm_compute; reflexivity]].
  - repeat (apply Forall_cons; [simpl; intros z Hz; simpl in *; tauto|]); apply Forall_nil.
  - intros (x & Hx).
    assert (G : forall u v, clos_trans string (requires (fun s : string => s) [("b", ["a"]); ("b", ["a"]); ("a", [])]) u v -> u = "b" /\ v = "a").
    { induction 1 as [u v (p & Hp & <- & Hd)|u w v _ [-> ->] _ [E _]]; [|discriminate].
      simpl in Hp. destruct Hp as [<-|[<-|[<-|[]]]]; simpl in *; intuition congruence. }
    destruct (G x x Hx) as [-> E]; discriminate.
Qed.
Print Assumptions duplicate_diagnostic_refuted.

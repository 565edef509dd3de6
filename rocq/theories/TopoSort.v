(** Model of topo_sort, gusto/core/io.py l.934-977, which orders diagnostics,
    and of the dependency filtering in IO.setup_diagnostics (l.345-357). *)
From Verif Require Import Base.
Local Open Scope string_scope.

(** Auxiliary, nothing in the code by itself. *)
Definition mem (x : string) (l : list string) : bool := existsb (String.eqb x) l.

(** list.remove(x): drop the first occurrence, ValueError (None) if absent. *)
(** Auxiliary, nothing in the code by itself. *)
Fixpoint py_remove (x : string) (l : list string) : option (list string) :=
  match l with
  | [] => None
  | h :: tl => if String.eqb x h then Some tl
               else option_map (cons h) (py_remove x tl)
  end.

(** dict assignment on total maps; the key set is kept separately. *)
(** Auxiliary, nothing in the code by itself. *)
Definition fupd {A} (m : string -> A) (k : string) (v : A) : string -> A :=
  fun j => if String.eqb j k then v else m j.

Section Sort.
  Variable F : Type.              (* diagnostic field objects *)
  Variable name : F -> string.    (* f.name *)

  (** name2field = dict((f.name, f) for f, _ in field_deps)   (l.948):
      later entries override earlier ones. *)
  Definition name2field (fd : list (F * list string)) (n : string) : option F :=
    fold_left (fun acc p => if String.eqb n (name (fst p)) then Some (fst p) else acc) fd None.

  (** Keys of [graph] (l.950). *)
  Definition keys (fd : list (F * list string)) : list string := map (fun p => name (fst p)) fd.

  (** graph[n][0] at creation (l.950), later duplicates override. *)
  Definition init_in (fd : list (F * list string)) : string -> list string :=
    fold_left (fun m p => fupd m (name (fst p)) (snd p)) fd (fun _ => []).

  (** First loop (l.952-959): collect roots and output edges.  None = KeyError
      on graph[d] for a dependency d that is not a key. *)
  Fixpoint add_outs (ks : list string) (f : string) (deps : list string)
      (out : string -> list string) : option (string -> list string) :=
    match deps with
    | [] => Some out
    | d :: tl => if mem d ks then add_outs ks f tl (fupd out d (out d ++ [f])%list) else None
    end.

  (** l.946-955. *)
  Fixpoint build (ks : list string) (fd : list (F * list string)) (roots : list string)
      (out : string -> list string) : option (list string * (string -> list string)) :=
    match fd with
    | [] => Some (roots, out)
    | (f, deps) :: tl =>
        let roots' := match deps with [] => (roots ++ [name f])%list | _ => roots end in
        match add_outs ks (name f) deps out with
        | Some out' => build ks tl roots' out'
        | None => None
        end
    end.

  (** The dictionaries and lists of l.946-970. *)
  Record st := mk_st {
    s_sched : list string; s_roots : list string;
    s_in : string -> list string; s_out : string -> list string }.

  (** Inner loop over output_deps of n (l.966-972). *)
  Fixpoint relax (n : string) (ms : list string) (s : st) : option st :=
    match ms with
    | [] => Some s
    | m :: tl =>
        match py_remove n (s_in s m), py_remove m (s_out s n) with
        | Some im, Some on =>
            let roots' := match im with [] => (s_roots s ++ [m])%list | _ => s_roots s end in
            relax n tl (mk_st (s_sched s) roots' (fupd (s_in s) m im) (fupd (s_out s) n on))
        | _, _ => None
        end
    end.

  (** roots.pop(): last element (l.963). *)
  Definition py_pop (l : list string) : option (string * list string) :=
    match rev l with [] => None | x :: tl => Some (x, rev tl) end.

  (** What l.957-977 end with. *)
  Inductive outcome := Done (s : st) | RemoveError | OutOfFuel.

  (** while roots: ... (l.961-972). *)
  Fixpoint sort_loop (fuel : nat) (s : st) : outcome :=
    match py_pop (s_roots s) with
    | None => Done s
    | Some (n, roots) =>
        match fuel with
        | O => OutOfFuel
        | S f =>
            match relax n (s_out s n)
                    (mk_st (s_sched s ++ [n])%list roots (s_in s) (s_out s)) with
            | Some s' => sort_loop f s'
            | None => RemoveError
            end
        end
    end.

  (** Auxiliary, nothing in the code by itself. *)
  Definition nonempty (l : list string) : bool := match l with [] => false | _ => true end.

  (** l.972-977. *)
  Fixpoint lookup_all (fd : list (F * list string)) (l : list string) : res (list F) :=
    match l with
    | [] => Ok []
    | n :: tl => match name2field fd n with
                 | Some f => match lookup_all fd tl with Ok r => Ok (f :: r) | Err e => Err e end
                 | None => Err KeyError
                 end
    end.

  (** topo_sort(field_deps), l.934-977. *)
  Definition topo_sort (fd : list (F * list string)) : res (list F) :=
    let ks := keys fd in
    match build ks fd [] (fun _ => []) with
    | None => Err KeyError
    | Some (roots, out) =>
        match sort_loop (length ks) (mk_st [] roots (init_in fd) out) with
        | OutOfFuel => Err AssertionError   (* excluded by the theorems *)
        | RemoveError => Err ValueError
        | Done s =>
            if existsb (fun k => nonempty (s_in s k)) ks then Err RuntimeError
            else lookup_all fd (s_sched s)
        end
    end.
End Sort.
Arguments topo_sort {F}.
Arguments keys {F}.

(** The dependency lists handed to topo_sort by setup_diagnostics (l.345-355):
    required fields, without duplicates, minus the fields that are not
    diagnostics.  (Sorting of the set is irrelevant to the theorems: they hold for
    every duplicate-free order.) *)
Fixpoint dedup (l : list string) : list string :=
  match l with
  | [] => []
  | h :: tl => if mem h tl then dedup tl else h :: dedup tl
  end.
(** IO.setup_diagnostics, l.336-368. *)
Definition field_deps {F} (required : F -> list string) (non_diagnostics : list string)
    (ds : list F) : list (F * list string) :=
  map (fun d => (d, dedup (filter (fun r => negb (mem r non_diagnostics)) (required d)))) ds.

(** Model of subcycling and of the apply() wrapper:
    gusto/time_discretisation/time_discretisation.py. *)
From Verif Require Import Base.
From Coq Require Import Qround.

(** update_subcycling, l.427-452: number of subcycles from the Courant number, the
    target and the cap.  target = 0 is Python's ZeroDivisionError.  Float rounding
    of the quotient is ignored. *)
Definition ncycles_adaptive (courant target : Q) (max_subcycles : option Z) : res Z :=
  if Qeq_bool target 0 then Err ZeroDivisionError
  else
    let n := Z.max 1 (Qceiling (courant / target)) in
    Ok (match max_subcycles with
        | Some m => if (m <? n)%Z then m else n
        | None => n
        end).

(** SubcyclingOptions as seen by the schemes. *)
(** core/configuration.py SubcyclingOptions. *)
Record sub_opts := mk_sub { so_fixed : option Z; so_target : option Q; so_max : option Z }.

(** The part of a scheme that subcycling touches: dt, original_dt, ncycles. *)
(** time_discretisation.py l.428-453. *)
Record sub_state := mk_sub_state { ss_dt : Q; ss_orig : Q; ss_n : Z }.

(** TimeDiscretisation.__init__ l.88-92 and ExplicitTimeDiscretisation.setup
    l.517-525. *)
Definition explicit_setup (dt : Q) (o : option sub_opts) : res sub_state :=
  match o with
  | Some {| so_fixed := Some n |} =>
      if (n =? 0)%Z then Err ZeroDivisionError else Ok (mk_sub_state (dt / inject_Z n) dt n)
  | _ => Ok (mk_sub_state dt dt 1)
  end.

(** BackwardEuler.setup l.660-671, ThetaMethod.setup l.800-811: reads
    self.fixed_subcycles, an attribute no class defines. *)
Definition implicit_setup (dt : Q) (o : option sub_opts) : res sub_state :=
  match o with
  | Some {| so_fixed := Some n |} => Err AttributeError
  | _ => Ok (mk_sub_state dt dt 1)
  end.

(** update_subcycling on the state (called at the start of every apply). *)
(** time_discretisation.py l.428-453. *)
Definition update_subcycling (o : option sub_opts) (courant : Q) (s : sub_state) : res sub_state :=
  match o with
  | Some {| so_target := Some target; so_max := mx |} =>
      do n <- ncycles_adaptive courant target mx;
      if (n =? 0)%Z then Err ZeroDivisionError
      else Ok (mk_sub_state (ss_orig s / inject_Z n) (ss_orig s) n)
  | _ => Ok s
  end.

Section Apply.
  Variable X : Type.
  (** apply_cycle with the current dt. *)
  Variable cycle : Q -> X -> X.

  (** The loop of apply, l.618-623 (and l.719-724, 859-864): x0 := x_in; x1 := the
      scheme's x1; each subcycle x1 := cycle x0; x0 := x1.  Returns x1. *)
  Definition apply_loop (dt : Q) (n : nat) (x1 x_in : X) : X :=
    snd (niter n (fun '(x0, x1) => let y := cycle dt x0 in (y, y)) (x_in, x1)).

  (** apply of a scheme without wrapper; [stale] is what self.x1 holds. range(n)
      of a negative n is empty. *)
  (** ExplicitTimeDiscretisation.apply, time_discretisation.py l.592-606. *)
  Definition apply (o : option sub_opts) (courant : Q) (s : sub_state) (stale x_in : X) : res (sub_state * X) :=
    do s' <- update_subcycling o courant s;
    Ok (s', apply_loop (ss_dt s') (Z.to_nat (ss_n s')) stale x_in).
End Apply.

(** wrapper_apply, l.33-62: the sequence of calls made by apply(x_out, x_in). *)
Inductive field_ref := Given_in | Given_out | Aug_in | Aug_out | Wrap_in | Wrap_out.
(** wrapper_apply, time_discretisation.py l.33-61. *)
Inductive call_event :=
| AugPre (x : field_ref) | AugPost (x : field_ref)
| WrapPre (x : field_ref) | WrapPost (x : field_ref)
| Original (out inp : field_ref).
(** wrapper_apply, time_discretisation.py l.33-61. *)
Definition wrapped_apply (has_augmentation has_wrapper : bool) : list call_event :=
  if has_augmentation then [AugPre Given_in; Original Aug_out Aug_in; AugPost Given_out]
  else if has_wrapper then [WrapPre Given_in; Original Wrap_out Wrap_in; WrapPost Given_out]
  else [Original Given_out Given_in].

(** The effect of these calls on the fields they name.  U is the type of all
    functions (of any space).  pre_apply writes the inner input, the original apply
    writes its first argument, post_apply reads the inner output and writes its
    argument. *)
(** Auxiliary, nothing in the code by itself. *)
Definition ref_eqb (a b : field_ref) : bool :=
  match a, b with
  | Given_in, Given_in | Given_out, Given_out | Aug_in, Aug_in | Aug_out, Aug_out
  | Wrap_in, Wrap_in | Wrap_out, Wrap_out => true
  | _, _ => false
  end.
(** Auxiliary, nothing in the code by itself. *)
Definition set_ref {U} (s : field_ref -> U) (r : field_ref) (u : U) : field_ref -> U :=
  fun q => if ref_eqb q r then u else s q.
(** Auxiliary, nothing in the code by itself. *)
Definition exec_call {U} (apre apost wpre wpost scheme : U -> U) (s : field_ref -> U) (e : call_event) : field_ref -> U :=
  match e with
  | AugPre x => set_ref s Aug_in (apre (s x))
  | AugPost x => set_ref s x (apost (s Aug_out))
  | WrapPre x => set_ref s Wrap_in (wpre (s x))
  | WrapPost x => set_ref s x (wpost (s Wrap_out))
  | Original o i => set_ref s o (scheme (s i))
  end.
(** Auxiliary, nothing in the code by itself. *)
Definition exec_calls {U} (apre apost wpre wpost scheme : U -> U) (s : field_ref -> U) (l : list call_event) :=
  fold_left (exec_call apre apost wpre wpost scheme) l s.

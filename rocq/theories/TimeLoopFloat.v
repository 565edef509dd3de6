(** The clock of the same loop in binary64 arithmetic
    (timestepper.py l.241 and l.253: float(self.t) + float(self.dt)). *)
From Verif Require Import Base.
From Coq Require Import Floats.
Local Open Scope float_scope.

(** Number of iterations if the loop stops within the fuel. *)
(** timestepper.py l.236-257. *)
Fixpoint float_loop (fuel : nat) (dt tmax t : float) : option nat :=
  if t <? tmax - 0.5 * dt then
    match fuel with
    | O => None
    | S f => option_map S (float_loop f dt tmax (t + dt))
    end
  else Some O.

Lemma float_loop_diverges :
  exists t tmax dt : float,
    (0 <? dt) = true /\ (t <? tmax) = true /\
    forall fuel, float_loop fuel dt tmax t = None.
Proof.
  exists 9007199254740992, 9007199254741002, 1.
  split; [vm_compute; reflexivity|]. split; [vm_compute; reflexivity|].
  induction fuel as [|f IH]; cbn [float_loop].
  - replace (9007199254740992 <? 9007199254741002 - 0.5 * 1) with true by (vm_compute; reflexivity).
    reflexivity.
  - replace (9007199254740992 <? 9007199254741002 - 0.5 * 1) with true by (vm_compute; reflexivity).
    replace (9007199254740992 + 1) with 9007199254740992 by (vm_compute; reflexivity).
    rewrite IH; reflexivity.
Qed.

(** C28 in floating point: the weight checks of split_timestepper.py (l.63-73, l.110-121) add Python floats
    and compare with [==].  Python's [sum] starts at 0 and adds from the left, l.115-118
    accumulates from the left as well; both are binary64 additions, which Coq's primitive
    floats implement. *)
From Coq Require Import List PrimFloat Uint63.
Import ListNotations.
Open Scope float_scope.

(** term_weight = 0; for w in the selected weights: term_weight += w *)
(** l.63-73, 110-121. *)
Definition float_sum (ws : list float) : float := fold_left PrimFloat.add ws 0.
(** l.63-73, 110-121. *)
Definition float_check (ws : list float) : bool := PrimFloat.eqb (float_sum ws) 1.

(** Ten equal sub-steps of one tenth each: rejected (the sum is 0.9999999999999999). *)
Theorem ten_tenths_rejected_refuted : float_check (repeat 0.1 10) = false.
Proof. vm_compute. reflexivity. Qed.
Print Assumptions ten_tenths_rejected_refuted.

(** Four quarters, three thirds and the like are accepted, so this is not the only
    outcome of the check. *)
Example quarters_accepted : float_check (repeat 0.25 4) = true /\ float_check [1/3; 1/3; 1/3] = true.
Proof. vm_compute. split; reflexivity. Qed.

(** Properties C01, C02: the time loop. *)
From Verif Require Import Base TimeLoopSpec TimeLoop TimeLoopFacts TimeLoopFloat.
From Coq Require Import Lqa Floats.
Local Open Scope Q_scope.

(** C01.  run(t, tmax) returns; it takes the least number n of steps reaching
    tmax - dt/2; the final time is t + n dt; the step counter is 1 + n; the state
    is the n-th element of the trajectory, and output has been offered once
    initially and once after each step, in order, with the state of that step. *)
Theorem run_reaches_tmax :
  forall (X : Type) (update : X -> X) (timestep : Q -> nat -> X -> X) (t tmax dt : Q) (x : X),
  0 < dt ->
  exists n m, run update timestep t tmax dt x = Some m /\
    number_of_steps t tmax dt n /\
    m_t m == t + inject_Z (Z.of_nat n) * dt /\
    m_step m = (1 + n)%nat /\
    m_x m = trajectory update timestep dt t 1 x n /\
    m_dumps m = ([(t, 1%nat, x)] ++ map (fun k => (clock dt k t, (1 + k)%nat,
                    trajectory update timestep dt t 1 x k)) (seq 1 n))%list.
Proof. intros X update timestep t tmax dt x Hdt. exact (run_spec X update timestep dt t tmax 1 x _ Hdt). Qed.
Print Assumptions run_reaches_tmax.

(** C01.  If any step was taken the final time is within half a step of tmax. *)
Theorem run_final_time_close :
  forall t tmax dt n, 0 < dt -> number_of_steps t tmax dt n -> (0 < n)%nat ->
    - ((1#2) * dt) <= t + inject_Z (Z.of_nat n) * dt - tmax /\
    t + inject_Z (Z.of_nat n) * dt - tmax < (1#2) * dt.
Proof. exact number_of_steps_final. Qed.
Print Assumptions run_final_time_close.

(** C01, pick-up form: continuing from a checkpointed (t, step, x). *)
Theorem run_from_reaches_tmax :
  forall (X : Type) (update : X -> X) (timestep : Q -> nat -> X -> X) (t tmax dt : Q) (s : nat) (x : X),
  0 < dt ->
  exists n m, run_from update timestep t s x tmax dt = Some m /\
    number_of_steps t tmax dt n /\
    m_t m == t + inject_Z (Z.of_nat n) * dt /\
    m_step m = (s + n)%nat /\
    m_x m = trajectory update timestep dt t s x n /\
    m_dumps m = map (fun k => (clock dt k t, (s + k)%nat,
                    trajectory update timestep dt t s x k)) (seq 1 n).
Proof. intros X update timestep t tmax dt s x Hdt. exact (run_spec X update timestep dt t tmax s x [] Hdt). Qed.
Print Assumptions run_from_reaches_tmax.

(** C02.  Stopping at tm and continuing (from the time, step and state reached)
    to tmax gives exactly the same state, time and step as one run; the dumps of
    the two parts concatenate to the dumps of the single run. *)
Theorem run_in_two_stages :
  forall (X : Type) (update : X -> X) (timestep : Q -> nat -> X -> X) (t tm tmax dt : Q) (x : X) m1,
  0 < dt -> tm <= tmax ->
  run update timestep t tm dt x = Some m1 ->
  exists m2 m,
    run_from update timestep (m_t m1) (m_step m1) (m_x m1) tmax dt = Some m2 /\
    run update timestep t tmax dt x = Some m /\
    m_x m = m_x m2 /\ m_t m = m_t m2 /\ m_step m = m_step m2 /\
    m_dumps m = (m_dumps m1 ++ m_dumps m2)%list.
Proof. exact run_two_stages. Qed.
Print Assumptions run_in_two_stages.

(** Non-vacuity: a counter model, t = 0 .. 1, dt = 3/10: number of steps is 3
    (0.9 >= 0.85), final time 0.9. *)
Example run_example :
  run (fun x => x) (fun _ _ x => S x) 0 1 (3#10) 0%nat =
  Some (mk_model 3%nat (900#1000) 4%nat
     [(0, 1%nat, 0%nat); (3#10, 2%nat, 1%nat); (60#100, 3%nat, 2%nat); (900#1000, 4%nat, 3%nat)]).
Proof. vm_compute; reflexivity. Qed.

(** C01 in floating point: the loop need not terminate.  With binary64 numbers
    t = 2^53, dt = 1, tmax = 2^53 + 10 the loop runs for ever, whatever fuel. *)
Theorem run_float_nonterminating_refuted :
  exists t tmax dt : float,
    (0 <? dt)%float = true /\ (t <? tmax)%float = true /\
    forall fuel, float_loop fuel dt tmax t = None.
Proof. exact float_loop_diverges. Qed.
Print Assumptions run_float_nonterminating_refuted.

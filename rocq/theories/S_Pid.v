(** Specification for pid_step_adjuster over the reals. *)
From Coq Require Import List Arith Reals.
From Verif Require Import M_Num M_Run M_RK M_Adams M_Pid S_Adams.
Import ListNotations.
Local Open Scope R_scope.

(** The error relative to the tolerance. *)
Definition pid_scaled {I} (ea er dt : R) (err x dxdt : I -> R) (i : I) : R :=
  Rabs (err i) / (ea + er * (Rabs (x i) + Rabs dt * Rabs (dxdt i))).

(** The runs of an adjuster: any calls with non-zero steps; a step is accepted by the stepper if the new step is
    at least 9/10 of it.  [n]: the number of accepted steps since the last rejected one; the list has the scaled
    errors and the steps of all accepted steps, latest first. *)
Section Run.
Variable eps : R.
Context {I : Type}.
Notation NN := (RNum eps).
Variables (pw : R -> R -> R) (at_ : R -> R) (idx : list I).
Variable cf : pid_cfg NN.
Inductive pid_run : pid NN I -> nat -> list ((I -> R) * R) -> Prop :=
| pr_start es ds : rb_wf 3 es -> rb_wf 3 ds -> pid_run (mkPid es ds 0) 0 []
| pr_accept p n h steps (dt : R) err x dxdt p' e' (dt' : R) : pid_run p n h -> dt <> 0 ->
    adjust_stepsize (N := NN) pw at_ idx cf p steps dt err x dxdt = Ok (p', e', dt') -> 9/10 <= dt' / dt ->
    pid_run p' (S n) ((pid_scaled (pc_abs cf) (pc_rel cf) dt err x dxdt, dt) :: h)
| pr_reject p n h steps (dt : R) err x dxdt p' e' (dt' : R) : pid_run p n h -> dt <> 0 ->
    adjust_stepsize (N := NN) pw at_ idx cf p steps dt err x dxdt = Ok (p', e', dt') -> dt' / dt < 9/10 ->
    pid_run p' 0 h.
End Run.

(** The formula of the controllers, with the exponents divided by [n]. *)
Definition pid_formula (b1 b2 b3 a1 a2 n e0 e1 e2 r1 r2 : R) : R :=
  Rpower e0 (b1 / n) * Rpower e1 (b2 / n) * Rpower e2 (b3 / n) * Rpower r1 (a1 / n) * Rpower r2 (a2 / n).

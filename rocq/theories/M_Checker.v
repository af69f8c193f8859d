(** Step counters. Source: integrate/max_step_checker.hpp:37-108. *)
From Coq Require Import Arith.
From Verif Require Import M_Run.

(** operator(): [if( m_steps++ >= m_max_steps ) throw], max_step_checker.hpp:67-75, 99-107.
    The counter is the [int m_steps]; [e] is the exception of the class. *)
Definition checker_call (e : exn) (max_steps steps : nat) : res nat :=
  if Nat.leb max_steps steps then Exc e else Ok (S steps).

(** reset(): max_step_checker.hpp:59-62. *)
Definition checker_reset (steps : nat) : nat := 0.

(** Default limit, max_step_checker.hpp:50 and 92. *)
Definition default_max_steps : nat := 500.

(** failed_step_checker::operator(), max_step_checker.hpp:99-107. *)
Definition fail_check (steps : nat) : res nat :=
  checker_call StepAdjustment default_max_steps steps.

(** modified_midpoint as a stepper of its own. *)
From Coq Require Import ZArith List.
From Verif Require Import M_Num M_Run M_RK M_Midpoint.

(** do_step( sys , x , t , dt ) in place, with [steps] = m_steps sub-steps: the base class evaluates [sys( x , m_dxdt , t )] and
    calls do_step_impl( sys , x , m_dxdt , t , x , dt ).  The object is its buffers m_x0, m_x1, m_dxdt, which keep what the last step
    left in them.
    Source: stepper/modified_midpoint.hpp:79-117, stepper/base/explicit_stepper_base.hpp:225-231. *)
Definition mm_do_step_inplace {N : Num} {I : Type} (sys : vec N I -> N -> vec N I) (steps : nat) (tmp : rkmem N I) (x : vec N I) (t dt : N)
  : rkmem N I * vec N I :=
  let m' := fst (run_step sys (mkAlias true false) (mm_prog steps t dt) t (upd tmp LIn x)) in
  (m', m' LIn).

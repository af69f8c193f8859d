(** make_dense_output. *)
From Coq Require Import ZArith List Bool.
From Verif Require Import M_Num M_Run M_RK M_CtrlRK M_Dense M_DenseRK M_Integrate M_LU M_Implicit.
Import ListNotations.
Local Open Scope num_scope.

Section Make.
Context {N : Num}.

(** The member m_max_dt: the call without max_dt takes 0, the default argument of
    stepper/controlled_runge_kutta.hpp:109-111 and the initializer stepper/rosenbrock4_controller.hpp:62. *)
Definition made_limit (max_dt : option N) : N := match max_dt with Some m => m | None => nofZ 0 end.

(** make_dense_output( abs_error , rel_error , [max_dt ,] runge_kutta_dopri5 ), generation/make_dense_output.hpp:66-92,
    with generation/generation_dense_output_runge_kutta.hpp:41-53: the try_step of its controller.  The orders are
    those of the stepper, stepper/controlled_runge_kutta.hpp:776,781. *)
Definition made_dense_try {I : Type} (idx : list I) (pw : N -> N -> N) (sys : vec N I -> N -> vec N I)
  (abs_error rel_error : N) (max_dt : option N) :=
  dopri5_ftry sys idx pw (Z.of_nat (rk_error_order rk_dopri5)) (Z.of_nat (rk_order rk_dopri5))
    (made_cfg abs_error rel_error) (made_limit max_dt).
(** Its do_step, stepper/dense_output_runge_kutta.hpp:323-346. *)
Definition made_dense_step {I : Type} (idx : list I) (pw : N -> N -> N) (sys : vec N I -> N -> vec N I)
  (abs_error rel_error : N) (max_dt : option N) :=
  df_step sys (made_dense_try idx pw sys abs_error rel_error max_dt).
(** The stepper as the integrate functions use it. *)
(* Source: stepper/dense_output_runge_kutta.hpp:305-466. *)
Definition made_dense_ops {I : Type} (idx : list I) (pw : N -> N -> N) (sys : vec N I -> N -> vec N I)
  (abs_error rel_error : N) (max_dt : option N) (W : Type) :=
  df_ops sys (made_dense_try idx pw sys abs_error rel_error max_dt) dopri5_fcalc W.

(** make_dense_output( abs_error , rel_error , [max_dt ,] rosenbrock4 ), generation/make_dense_output.hpp:66-92 with
    generation/generation_rosenbrock4.hpp:60-69: the try_step of its controller, stepper/rosenbrock4_controller.hpp:112-178. *)
Definition made_ros_try (n : nat) (pw : N -> N -> N) (sq : N -> N) (f : vec N nat -> N -> vec N nat)
  (jac : vec N nat -> N -> mat N) (dft : vec N nat -> N -> vec N nat) (co : roscoef N)
  (abs_error rel_error : N) (max_dt : option N) :=
  rosc_core (seq 0 n) pw sq (ros_step n f jac dft co) abs_error rel_error (made_limit max_dt).
(** stepper().prepare_dense_output(), stepper/rosenbrock4_dense_output.hpp:89 and rosenbrock4.hpp:263-272. *)
Definition made_ros_prepare (co : roscoef N) (c : rosc N nat (rbuf N)) : rosc N nat (rbuf N) :=
  mkRosc (ros_prepare co (rc_st c)) (rc_xerr c) (rc_xnew c) (rc_first c) (rc_err_old c) (rc_dt_old c) (rc_rejected c).
(** Its do_step, stepper/rosenbrock4_dense_output.hpp:76-92. *)
Definition made_ros_step (n : nat) (pw : N -> N -> N) (sq : N -> N) (f : vec N nat -> N -> vec N nat)
  (jac : vec N nat -> N -> mat N) (dft : vec N nat -> N -> vec N nat) (co : roscoef N)
  (abs_error rel_error : N) (max_dt : option N) : rosd N (rosc N nat (rbuf N)) -> res (rosd N (rosc N nat (rbuf N))) :=
  rd_step (made_ros_try n pw sq f jac dft co abs_error rel_error max_dt) (made_ros_prepare co).
End Make.

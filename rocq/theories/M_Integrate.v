(** integrate() and make_controlled(): the user-level functions built from
    controlled_runge_kutta and integrate_adaptive. *)
From Coq Require Import List ZArith.
From Verif Require Import M_Num M_Run M_Controlled M_RK M_CtrlRK.
Import ListNotations.
Local Open Scope num_scope.

Section Make.
Context {N : Num} {I : Type}.
Variable idx : list I.                       (* the components of a state *)
Variable pw : N -> N -> N.                   (* std::pow *)
Variable sys : vec N I -> N -> vec N I.

(** error_checker_type( abs_error , rel_error ): the weights a_x and a_dxdt keep their default
    value 1; generation_controlled_runge_kutta.hpp:42-53, controlled_runge_kutta.hpp:65-71. *)
Definition made_cfg (abs_error rel_error : N) : err_cfg N :=
  mkErrCfg abs_error rel_error (nofZ 1) (nofZ 1).

(** The try_step of make_controlled( abs_error , rel_error , max_dt , stepper ) for an error stepper,
    generation/make_controlled.hpp:84-96 and generation/generation_controlled_runge_kutta.hpp:42-53.
    The overload without max_dt (make_controlled.hpp:70-81) is max_dt = 0, the default of
    default_step_adjuster, controlled_runge_kutta.hpp:109-111. *)
Definition made_explicit (n : rk_name) (abs_error rel_error max_dt : N)
  : ck N I (rkmem N I) -> vec N I -> N -> N -> ck N I (rkmem N I) * vec N I * N * N * bool :=
  ck_try idx pw sys (rk_estep sys n) (Z.of_nat (rk_error_order n)) (Z.of_nat (rk_order n))
         (made_cfg abs_error rel_error) max_dt.

(** The same for runge_kutta_dopri5, whose controller is the FSAL version,
    generation/generation_runge_kutta_dopri5.hpp:32-37.  [rs]: the temporaries were resized
    by try_step (only the first call of a newly constructed stepper does). *)
Definition made_dopri5 (abs_error rel_error max_dt : N) (rs : bool)
  : ckf N I (rkmem N I) -> vec N I -> N -> N -> ckf N I (rkmem N I) * vec N I * N * N * bool :=
  ckf_try idx pw sys (dopri5_fstep sys (mkAlias false false)) (Z.of_nat (rk_error_order rk_dopri5))
          (Z.of_nat (rk_order rk_dopri5)) (made_cfg abs_error rel_error) max_dt rs.

(** A newly constructed controlled_runge_kutta< runge_kutta_dopri5 >: the contents [c] of the
    buffers do not matter, m_first_call is true, controlled_runge_kutta.hpp:583-590. *)
Definition new_dopri5 (c : ckf N I (rkmem N I)) : ckf N I (rkmem N I) :=
  mkCkf (cf_st c) (cf_dxdt c) (cf_xerr c) (cf_xnew c) (cf_dxdtnew c) true.

(** static_cast< value_type >( 1.0e-6 ), controlled_runge_kutta.hpp:66-67. *)
Definition default_eps : N := nfrac 1 1000000.

(** integrate( system , start_state , start_time , end_time , dt , observer ),
    integrate/integrate.hpp:42-57; the overload with an explicit value type has the same body.
    The overloads without observer (lines 65-75) pass null_observer.
    Returned besides the number of steps: the copy of the stepper, observer, state, time, step. *)
Definition integrate {W : Type} (obs : W -> vec N I -> N -> M (ev (vec N I) N) W) (rs : bool) (fuel : nat)
  (c : ckf N I (rkmem N I)) (w : W) (x : vec N I) (start_time end_time dt : N)
  : M (ev (vec N I) N) (ckf N I (rkmem N I) * W * vec N I * N * N * nat) :=
  integrate_adaptive_ctrl (ctrl_step (made_dopri5 default_eps default_eps (nofZ 0) rs)) obs fuel
    (new_dopri5 c) w x start_time end_time dt.
End Make.

(** make_controlled for adaptive_adams_bashforth_moulton. *)
From Coq Require Import ZArith List Bool.
From Verif Require Import M_Num M_Run M_RK M_CtrlRK M_Midpoint M_Adams M_AABM M_Pid.
Import ListNotations.
Local Open Scope num_scope.
Local Open Scope res_scope.

Section Make.
Context {N : Num} {I : Type}.
Variable ov : nat.                           (* Steps, the largest order *)
Variable pw : N -> N -> N.                   (* std::pow *)
Variable at_ : N -> N.                       (* atan *)
Variable idx : list I.                       (* the components of a state *)

(** step_adjuster_type( abs_error , rel_error ) and step_adjuster_type( abs_error , rel_error , max_dt ),
    stepper/generation/generation_controlled_adams_bashforth_moulton.hpp:43-53; [None] stands for the call
    without max_dt, where the default argument of detail/pid_step_adjuster.hpp:129 is 1.0.  The type H211PI is
    the default of controlled_adams_bashforth_moulton.hpp:115-122. *)
Definition made_pid (abs_error rel_error : N) (max_dt : option N) : pid_cfg N :=
  mkPidCfg (pid_coeffs H211PI) abs_error rel_error (match max_dt with Some m => m | None => nofZ 1 end).

(** A new step adjuster, detail/pid_step_adjuster.hpp:129-132 and detail/rotating_buffer.hpp:36-38: the contents
    [e] and [d] of the storages are those of default constructed elements. *)
Definition new_pid (e : list (vec N I)) (d : list N) : pid N I := mkPid (mkRb e 0) (mkRb d 0) 0.

(** adjust_stepsize as the member function called by try_step, controlled_adams_bashforth_moulton.hpp:232.
    Simplified: the accesses to the rotating buffers are in bounds for every object with three elements in
    each storage, so the other outcomes of adjust_stepsize are not passed on. *)
Definition pid_adj (cf : pid_cfg N) (p : pid N I) (steps : nat) (dt : N) (err x dxdt : vec N I) : pid N I * vec N I * N :=
  match adjust_stepsize pw at_ idx cf p steps dt err x dxdt with
  | Ok r => r
  | _ => (p, err, dt)
  end.

(** make_controlled( abs_error , rel_error , [max_dt ,] stepper ), generation/make_controlled.hpp:70-96 with
    generation_controlled_adams_bashforth_moulton.hpp:43-53 and controlled_adams_bashforth_moulton.hpp:157-161:
    the controller holds the default constructed stepper [fresh]; the argument [stepper] is not used. *)
Definition made_abm (fresh stepper : aac N I) (xerr : list (vec N I)) (p : pid N I) : cabm N I (pid N I) :=
  mkCabm fresh xerr p.

(** Its try_step( system , inOut , t , dt ), controlled_adams_bashforth_moulton.hpp:206-219. *)
Definition made_abm_try (abs_error rel_error : N) (max_dt : option N) (sys : vec N I -> N -> vec N I)
  (s : cabm N I (pid N I)) (x : vec N I) (t dt : N) : res (cabm N I (pid N I) * bool * vec N I * N * N) :=
  let! (s', ok, out, t', dt') :=
    cabm_try ov (norm_inf idx) (pid_adj (made_pid abs_error rel_error max_dt)) pid_threshold sys s x t dt in
  Ok (s', ok, if (ok : bool) then out else x, t', dt').
End Make.

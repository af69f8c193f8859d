(** detail/pid_step_adjuster.hpp: the default StepAdjuster of controlled_adams_bashforth_moulton.

    [pow] and [atan] of the C++ library are section variables; [norm_inf] is the one of M_CtrlRK.
    Simplified: m_init does not wrap around; units of boost::units. *)
From Coq Require Import ZArith List Bool.
From Verif Require Import M_Num M_Run M_RK M_CtrlRK M_Midpoint M_Adams.
Import ListNotations.
Local Open Scope num_scope.
Local Open Scope res_scope.

(** detail/pid_step_adjuster_coefficients.hpp, 22-36. *)
Inductive pid_type := BASIC | H0211 | H211b | H211PI | H0312 | H312b | H312PID | H0321 | H321.

Section Pid.
Context {N : Num} {I : Type}.
Variable pw : N -> N -> N.
Variable at_ : N -> N.
Variable idx : list I.

(** beta1, beta2, beta3, alpha1, alpha2. *)
Record pid_coeff := mkPc { pb1 : N; pb2 : N; pb3 : N; pa1 : N; pa2 : N }.
(** detail/pid_step_adjuster_coefficients.hpp, 41-171. *)
Definition pid_coeffs (ty : pid_type) : pid_coeff :=
  match ty with
  | BASIC => mkPc (nofZ 1) (nofZ 0) (nofZ 0) (nofZ 0) (nofZ 0)
  | H0211 => mkPc (nfrac 1 2) (nfrac 1 2) (nofZ 0) (nfrac 1 2) (nofZ 0)
  | H211b => mkPc (nfrac 1 5) (nfrac 2 5) (nofZ 0) (nfrac 1 5) (nofZ 0)
  | H211PI => mkPc (nfrac 1 6) (nfrac 2 6) (nofZ 0) (nofZ 0) (nofZ 0)
  | H0312 => mkPc (nfrac 1 4) (nfrac 2 2) (nfrac 1 4) (nfrac 3 4) (nfrac 1 4)
  | H312b => mkPc (nfrac 1 6) (nfrac 2 6) (nfrac 1 6) (nfrac 3 6) (nfrac 1 6)
  | H312PID => mkPc (nfrac 1 18) (nfrac 2 9) (nfrac 1 18) (nofZ 0) (nofZ 0)
  | H0321 => mkPc (nfrac 5 4) (nfrac 1 2) (nfrac_neg 3 4) (nfrac_neg 1 4) (nfrac_neg 3 4)
  | H321 => mkPc (nfrac 1 3) (nfrac 1 18) (nfrac_neg 5 18) (nfrac_neg 5 16) (nfrac_neg 1 6)
  end.

(** pid_op::adapted_pow, 85-100. *)
Definition adapted_pow (base ex : N) : N :=
  if negb (nneq ex (nofZ 0)) then nofZ 1
  else if nofZ 0 <? ex then pw base ex
  else nofZ 1 / pw base (nopp ex).

(** pid_op::operator() with four arguments, 60-72. *)
Definition pid_op4 (c : pid_coeff) (steps : nat) (dt1 dt2 dt3 : N) (t2 t3 t4 : N) : N :=
  let n := nofnat (steps + 1) in
  let t1 := adapted_pow (nabs t2) (nopp (pb1 c) / n) * adapted_pow (nabs t3) (nopp (pb2 c) / n)
            * adapted_pow (nabs t4) (nopp (pb3 c) / n)
            * adapted_pow (nabs (dt1 / dt2)) (nopp (pa1 c) / n) * adapted_pow (nabs (dt2 / dt3)) (nopp (pa2 c) / n) in
  nofZ 1 / t1.
(** pid_op::operator() with two arguments, 74-82; beta1 = 0.7, 152. *)
Definition pid_op2 (steps : nat) (t2 : N) : N :=
  nofZ 1 / adapted_pow (nabs t2) (nopp (nfrac 7 10) / nofnat (steps + 1)).

(** Members m_error_storage, m_dt_storage, m_init, 183-187. *)
Record pid := mkPid { p_err : rb (vec N I); p_dt : rb N; p_init : nat }.

(** Template argument and parameters of the constructor, 129-132. *)
Record pid_cfg := mkPidCfg { pc_coeff : pid_coeff; pc_abs : N; pc_rel : N; pc_dtmax : N }.
(** threshold, 115. *)
(* Source: detail/pid_step_adjuster.hpp:115. *)
Definition pid_threshold : N := nfrac 9 10.

(** The value of [ratio] in line 158 for the norm of [err], and in line 163. *)
Definition pid_growth (norm : N) : N := nofZ 1 + nofZ 1 * at_ ((nofZ 1 / norm - nofZ 1) / nofZ 1).
(* Source: detail/pid_step_adjuster.hpp:160-165. *)
Definition pid_limit (dtmax dt ratio : N) : N := if dtmax <=? ratio * dt then dtmax / dt else ratio.

(** adjust_stepsize, 134-178.  Result: object, [err], the step.  The storages are read and written through
    rotating_buffer< ... , 3 >. *)
Definition adjust_stepsize (cf : pid_cfg) (p : pid) (steps : nat) (dt : N) (err x dxdt : vec N I) : res (pid * vec N I * N) :=
  let e := fun i => rel_error (pc_abs cf) (pc_rel cf) (nofZ 1) (nofZ 1 * nabs dt) (err i) (x i) (dxdt i) in
  let! es := rb_set 3 (p_err p) 0 e in
  let! ds := rb_set 3 (p_dt p) 0 dt in
  let! e' := if (2 <=? p_init p)%nat then
      let! e0 := rb_get 3 es 0 in
      let! e1 := rb_get 3 es 1 in
      let! e2 := rb_get 3 es 2 in
      let! d0 := rb_get 3 ds 0 in
      let! d1 := rb_get 3 ds 1 in
      let! d2 := rb_get 3 ds 2 in
      Ok (fun i => pid_op4 (pc_coeff cf) steps d0 d1 d2 (e0 i) (e1 i) (e2 i))
    else
      let! e0 := rb_get 3 es 0 in
      Ok (fun i => pid_op2 steps (e0 i)) in
  let ratio := pid_limit (pc_dtmax cf) dt (pid_growth (norm_inf idx e')) in
  let p' := if pid_threshold <=? ratio then mkPid (rb_rotate 3 es) (rb_rotate 3 ds) (S (p_init p))
            else mkPid es ds 0 in
  Ok (p', e', dt * ratio).
End Pid.
Arguments pid N I : clear implicits.
Arguments mkPid {N I}.
Arguments pid_coeff N : clear implicits.
Arguments mkPc {N}.
Arguments pid_cfg N : clear implicits.
Arguments mkPidCfg {N}.

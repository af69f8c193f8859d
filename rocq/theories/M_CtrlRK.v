(** controlled_runge_kutta, rosenbrock4_controller and the FSAL base class.

    The elementary functions [pow] and [sqrt] of the C++ library are section
    variables.  States are functions [I -> N] as in M_RK; [idx] enumerates the
    components in the order of the container.

    Simplified: the resizing of the temporaries (the outcome of [adjust_size]
    that matters to the FSAL classes is the argument [rs]); units of
    boost::units ([get_unit_value] is the identity). *)
From Coq Require Import ZArith List Bool.
From Verif Require Import M_Num M_Sign M_RK.
Import ListNotations.
Local Open Scope num_scope.

Section Norm.
Context {N : Num} {I : Type}.
Variable idx : list I.

(** range_algebra::norm_inf, algebra/range_algebra.hpp:128-133 with
    algebra/detail/norm_inf.hpp:28-36; array_algebra.hpp:274-285:
    [init = max( init , abs( x ) )] starting from 0. *)
Definition norm_inf (v : vec N I) : N := fold_left (fun m i => nmax m (nabs (v i))) idx (nofZ 0).

(** operator!= of the number type (IEEE: a == b iff a <= b and b <= a). *)
(* Source: operator!= as used in stepper/controlled_runge_kutta.hpp:126,150,159. *)
Definition nneq (a b : N) : bool := negb ((a <=? b) && (b <=? a)).

(** The four parameters of default_error_checker,
    stepper/controlled_runge_kutta.hpp:67-73. *)
Record err_cfg := mkErrCfg { eps_abs : N; eps_rel : N; a_x : N; a_dxdt : N }.

(** default_operations::rel_error, algebra/default_operations.hpp:429-446. *)
Definition rel_error (ea er ax adx : N) (e x dx : N) : N :=
  nabs e / (ea + er * (ax * nabs x + adx * nabs dx)).

(** default_error_checker::error, stepper/controlled_runge_kutta.hpp:82-94;
    returns the overwritten [x_err] and the error value. *)
Definition checker_error (c : err_cfg) (x_old dxdt_old x_err : vec N I) (dt : N) : vec N I * N :=
  let e := fun i => rel_error (eps_abs c) (eps_rel c) (a_x c) (a_dxdt c * nabs dt)
                              (x_err i) (x_old i) (dxdt_old i) in
  (e, norm_inf e).
End Norm.
Arguments err_cfg N : clear implicits.
Arguments mkErrCfg {N}.

Section Adjust.
Context {N : Num}.
(** std::pow. *)
Variable pw : N -> N -> N.
(** The member m_max_dt, 0 = no limit; stepper/controlled_runge_kutta.hpp:109-111. *)
Variable max_dt : N.

(* Source: The test m_max_dt != 0, stepper/controlled_runge_kutta.hpp:126,150,159. *)
Definition limited : bool := nneq max_dt (nofZ 0).

(** default_step_adjuster::decrease_step, controlled_runge_kutta.hpp:114-130. *)
Definition decrease_step (dt error : N) (error_order : Z) : N :=
  let dt1 := dt * nmax (nofZ 9 / nofZ 10 * pw error (nofZ (-1) / nofZ (error_order - 1)))
                       (nofZ 1 / nofZ 5) in
  if limited then min_abs dt1 max_dt else dt1.

(** default_step_adjuster::increase_step, controlled_runge_kutta.hpp:132-155. *)
Definition increase_step (dt error : N) (stepper_order : Z) : N :=
  if error <? nofZ 1 / nofZ 2 then
    let error1 := nmax (pw (nofZ 5) (nopp (nofZ stepper_order))) error in
    let dt1 := dt * (nofZ 9 / nofZ 10 * pw error1 (nofZ (-1) / nofZ stepper_order)) in
    if limited then min_abs dt1 max_dt else dt1
  else dt.

(** default_step_adjuster::check_step_size_limit, controlled_runge_kutta.hpp:157-162. *)
Definition check_step_size_limit (dt : N) : bool :=
  if limited then less_eq_with_sign dt max_dt dt else true.
End Adjust.

(** ** controlled_runge_kutta for steppers with error estimate,
    stepper/controlled_runge_kutta.hpp:209-518. *)
Section Explicit.
Context {N : Num} {I S : Type}.
Variable idx : list I.
Variable pw : N -> N -> N.
Variable sys : vec N I -> N -> vec N I.
(** m_stepper.do_step( sys , in , dxdt , t , out , dt , xerr ): the stepper
    object with its buffers, the result and the error estimate. *)
Variable estep : S -> vec N I -> vec N I -> N -> N -> S * vec N I * vec N I.
Variable error_order stepper_order : Z.
Variable cfg : err_cfg N.
Variable max_dt : N.

(** The data members that change: m_stepper, m_dxdt, m_xerr, m_xnew. *)
(* Source: stepper/controlled_runge_kutta.hpp:506-517. *)
Record ck := mkCk { ck_st : S; ck_dxdt : vec N I; ck_xerr : vec N I; ck_xnew : vec N I }.

(** Version 4: try_step( sys , in , dxdt , t , out , dt ), 411-440.
    Result: m_stepper, m_xerr, out, t, dt, success. *)
Definition ck_core (st : S) (xerr inp dxdt : vec N I) (t : N) (out : vec N I) (dt : N)
  : S * vec N I * vec N I * N * N * bool :=
  if check_step_size_limit max_dt dt then
    let '(st1, out1, xerr1) := estep st inp dxdt t dt in
    let (xerr2, err) := checker_error idx cfg inp dxdt xerr1 dt in
    if ngt err (nofZ 1)
    then (st1, xerr2, out1, t, decrease_step pw max_dt dt err error_order, false)
    else (st1, xerr2, out1, t + dt, increase_step pw max_dt dt err stepper_order, true)
  else (st, xerr, out, t, max_dt, false).

(** Version 2: try_step( sys , x , dxdt , t , dt ), 337-347. *)
Definition ck_try_v2 (c : ck) (x dxdt : vec N I) (t dt : N) : ck * vec N I * N * N * bool :=
  let '(st1, xerr1, xnew1, t1, dt1, ok) := ck_core (ck_st c) (ck_xerr c) x dxdt t (ck_xnew c) dt in
  (mkCk st1 (ck_dxdt c) xerr1 xnew1, if (ok : bool) then xnew1 else x, t1, dt1, ok).

(** Version 3: try_step( sys , in , t , out , dt ), 376-384. *)
Definition ck_try_v3 (c : ck) (inp : vec N I) (t : N) (out : vec N I) (dt : N)
  : ck * vec N I * N * N * bool :=
  let dx := sys inp t in
  let '(st1, xerr1, out1, t1, dt1, ok) := ck_core (ck_st c) (ck_xerr c) inp dx t out dt in
  (mkCk st1 dx xerr1 (ck_xnew c), out1, t1, dt1, ok).

(** Version 1: try_step( sys , x , t , dt ), 280-309 and 477-484. *)
Definition ck_try (c : ck) (x : vec N I) (t dt : N) : ck * vec N I * N * N * bool :=
  let dx := sys x t in
  ck_try_v2 (mkCk (ck_st c) dx (ck_xerr c) (ck_xnew c)) x dx t dt.
End Explicit.
Arguments ck N I S : clear implicits.
Arguments mkCk {N I S}.

(** ** explicit_error_stepper_fsal_base, base/explicit_error_stepper_fsal_base.hpp. *)
Section FSALBase.
Context {N : Num} {I S : Type}.
Variable sys : vec N I -> N -> vec N I.
(** do_step_impl( sys , in , dxdt_in , t , out , dxdt_out , dt , xerr ) called with
    [in]/[out] and [dxdt_in]/[dxdt_out] the same objects (versions 1, 2, 5, 6) or
    separate (versions 3, 7 share only dxdt; 4, 8 nothing): buffers, out,
    dxdt_out, xerr. *)
Variable fstep : alias -> S -> vec N I -> vec N I -> N -> N -> S * vec N I * vec N I * vec N I.

(** Members: the buffers of the stepper, m_dxdt (line 354), m_first_call (349). *)
Record fsal := mkFsal { fs_st : S; fs_dxdt : vec N I; fs_first : bool }.

(** reset(), 281-284. *)
Definition fsal_reset (s : fsal) : fsal := mkFsal (fs_st s) (fs_dxdt s) true.
(** initialize( deriv ), 286-291. *)
Definition fsal_init_deriv (s : fsal) (d : vec N I) : fsal := mkFsal (fs_st s) d false.
(** initialize( sys , x , t ), 293-299. *)
Definition fsal_init (s : fsal) (x : vec N I) (t : N) : fsal := mkFsal (fs_st s) (sys x t) false.

(** The test at the head of versions 1, 3, 5, 7: [adjust_size(...) || m_first_call];
    [rs] is what adjust_size returned.  180-183, 254-257, 313-316, 323-326. *)
Definition fsal_enter (s : fsal) (rs : bool) (x : vec N I) (t : N) : fsal :=
  if rs || fs_first s then fsal_init s x t else s.

(** do_step( sys , x , t , dt [, xerr] ), 121-134, 212-225, 310-328, and
    do_step( sys , in , t , out , dt [, xerr] ), 176-185, 251-259 ([al_x] false):
    the object, out and xerr. *)
Definition fsal_do_step (alx : bool) (s : fsal) (rs : bool) (x : vec N I) (t dt : N)
  : fsal * vec N I * vec N I :=
  let s1 := fsal_enter s rs x t in
  let '(st2, out, dxout, xerr) := fstep (mkAlias alx true) (fs_st s1) x (fs_dxdt s1) t dt in
  (mkFsal st2 dxout (fs_first s1), out, xerr).

(** Versions 2, 4, 6, 8 with the derivative given by the caller: m_first_call is set. 144-150,
    160-165, 193-201, 235-241, 267-273.  The object, out, dxdt_out, xerr. *)
Definition fsal_do_step_dxdt (al : alias) (s : fsal) (x dxdt : vec N I) (t dt : N)
  : fsal * vec N I * vec N I * vec N I :=
  let '(st2, out, dxout, xerr) := fstep al (fs_st s) x dxdt t dt in
  (mkFsal st2 (fs_dxdt s) true, out, dxout, xerr).
End FSALBase.
Arguments fsal N I S : clear implicits.
Arguments mkFsal {N I S}.

(** ** controlled_runge_kutta for FSAL steppers, stepper/controlled_runge_kutta.hpp:549-921. *)
Section FSALControlled.
Context {N : Num} {I S : Type}.
Variable idx : list I.
Variable pw : N -> N -> N.
Variable sys : vec N I -> N -> vec N I.
(** m_stepper.do_step( sys , in , dxdt_in , t , out , dxdt_out , dt , xerr ). *)
Variable fstep : S -> vec N I -> vec N I -> N -> N -> S * vec N I * vec N I * vec N I.
Variable error_order stepper_order : Z.
Variable cfg : err_cfg N.
Variable max_dt : N.

(** Members m_stepper, m_dxdt, m_xerr, m_xnew, m_dxdtnew, m_first_call (906-921). *)
Record ckf := mkCkf { cf_st : S; cf_dxdt : vec N I; cf_xerr : vec N I; cf_xnew : vec N I;
                      cf_dxdtnew : vec N I; cf_first : bool }.

(** Version 4: try_step( sys , in , dxdt_in , t , out , dxdt_out , dt ), 752-784. *)
Definition ckf_core (st : S) (xerr inp dxdt : vec N I) (t : N) (out dxout : vec N I) (dt : N)
  : S * vec N I * vec N I * vec N I * N * N * bool :=
  if check_step_size_limit max_dt dt then
    let '(st1, out1, dxout1, xerr1) := fstep st inp dxdt t dt in
    let (xerr2, err) := checker_error idx cfg inp dxdt xerr1 dt in
    if ngt err (nofZ 1)
    then (st1, xerr2, out1, dxout1, t, decrease_step pw max_dt dt err error_order, false)
    else (st1, xerr2, out1, dxout1, t + dt, increase_step pw max_dt dt err stepper_order, true)
  else (st, xerr, out, dxout, t, max_dt, false).

(** Version 3: try_step( sys , x , dxdt , t , dt ), 713-726; also returns dxdt. *)
Definition ckf_try_v3 (c : ckf) (x dxdt : vec N I) (t dt : N)
  : ckf * vec N I * vec N I * N * N * bool :=
  let '(st1, xerr1, xnew1, dxnew1, t1, dt1, ok) :=
    ckf_core (cf_st c) (cf_xerr c) x dxdt t (cf_xnew c) (cf_dxdtnew c) dt in
  (mkCkf st1 (cf_dxdt c) xerr1 xnew1 dxnew1 (cf_first c),
   if (ok : bool) then xnew1 else x, if ok then dxnew1 else dxdt, t1, dt1, ok).

(** reset(), 789-792; initialize( deriv ), 799-804; initialize( sys , x , t ), 814-820. *)
Definition ckf_reset (c : ckf) : ckf :=
  mkCkf (cf_st c) (cf_dxdt c) (cf_xerr c) (cf_xnew c) (cf_dxdtnew c) true.
(* Source: initialize( deriv ), stepper/controlled_runge_kutta.hpp:800-804. *)
Definition ckf_init_deriv (c : ckf) (d : vec N I) : ckf :=
  mkCkf (cf_st c) d (cf_xerr c) (cf_xnew c) (cf_dxdtnew c) false.
(* Source: initialize( system , x , t ), stepper/controlled_runge_kutta.hpp:815-820. *)
Definition ckf_init (c : ckf) (x : vec N I) (t : N) : ckf := ckf_init_deriv c (sys x t).

(** Version 1: try_step( sys , x , t , dt ), 616-646 and 895-903; version 2 (677-686)
    calls an overload that does not exist and is not modelled; m_dxdt is passed as the
    reference argument dxdt of version 3.  [rs]: the temporaries were resized. *)
Definition ckf_try (rs : bool) (c : ckf) (x : vec N I) (t dt : N) : ckf * vec N I * N * N * bool :=
  let c1 := if rs || cf_first c then ckf_init c x t else c in
  let '(c2, x2, dx2, t2, dt2, ok) := ckf_try_v3 c1 x (cf_dxdt c1) t dt in
  (mkCkf (cf_st c2) dx2 (cf_xerr c2) (cf_xnew c2) (cf_dxdtnew c2) (cf_first c2), x2, t2, dt2, ok).
End FSALControlled.
Arguments ckf N I S : clear implicits.
Arguments mkCkf {N I S}.

(** ** The library's error steppers as [estep] and [fstep]. *)
Section Named.
Context {N : Num} {I : Type}.
Variable sys : vec N I -> N -> vec N I.

(** do_step( sys , in , dxdt , t , out , dt , xerr ), base/explicit_error_stepper_base.hpp:
    all argument buffers separate.  A stepper without error estimate has no such
    function (it is not an error stepper); the case does not occur. *)
Definition rk_estep (n : rk_name) (m : rkmem N I) (x dx : vec N I) (t dt : N)
  : rkmem N I * vec N I * vec N I :=
  let al := mkAlias false false in
  let m1 := upd (upd m LIn x) LDx dx in
  match rk_err_impl n al t dt with
  | Some p => let m2 := fst (exec sys al p m1) in (m2, m2 LOut, m2 LErr)
  | None => (m, x, dx)
  end.

(** runge_kutta_dopri5::do_step_impl with error estimate, runge_kutta_dopri5.hpp:161-200. *)
Definition dopri5_fstep (al : alias) (m : rkmem N I) (x dx : vec N I) (t dt : N)
  : rkmem N I * vec N I * vec N I * vec N I :=
  let m1 := upd (upd m LIn x) LDx dx in
  let m2 := fst (exec sys al (dopri5_err_prog al t dt) m1) in
  (m2, rd al m2 LOut, rd al m2 LDxOut, m2 LErr).

(** The same without error estimate, runge_kutta_dopri5.hpp:90-157 (xerr: unused). *)
Definition dopri5_fstep_noerr (al : alias) (m : rkmem N I) (x dx : vec N I) (t dt : N)
  : rkmem N I * vec N I * vec N I * vec N I :=
  let m1 := upd (upd m LIn x) LDx dx in
  let m2 := fst (exec sys al (dopri5_prog t dt) m1) in
  (m2, rd al m2 LOut, rd al m2 LDxOut, m2 LErr).
End Named.

(** ** rosenbrock4_controller, stepper/rosenbrock4_controller.hpp. *)
Section Rosenbrock.
Context {N : Num} {I S : Type}.
Variable idx : list I.
Variable pw : N -> N -> N.      (* std::pow *)
Variable sq : N -> N.           (* std::sqrt *)
(** m_stepper.do_step( sys , x , t , xout , dt , xerr ). *)
Variable rstep : S -> vec N I -> N -> N -> S * vec N I * vec N I.
Variable atol rtol max_dt : N.

(** error( x , xold , xerr ), 74-88: root mean square of the scaled errors. *)
Definition ros_error (x xold xerr : vec N I) : N :=
  let s := fold_left (fun err i =>
             let sk := atol + rtol * nmax (nabs (xold i)) (nabs (x i)) in
             err + xerr i * xerr i / sk / sk) idx (nofZ 0) in
  sq (s / nofnat (length idx)).

(** Members m_stepper, m_xerr, m_xnew, m_first_step, m_err_old, m_dt_old, m_last_rejected. *)
(* Source: stepper/rosenbrock4_controller.hpp:221-227. *)
Record rosc := mkRosc { rc_st : S; rc_xerr : vec N I; rc_xnew : vec N I; rc_first : bool;
                        rc_err_old : N; rc_dt_old : N; rc_rejected : bool }.

(** Constructors, 59-72. *)
Definition rosc_new (st : S) (xerr xnew : vec N I) : rosc :=
  mkRosc st xerr xnew true (nofZ 0) (nofZ 0) false.

(** max( fac2 , min( fac1 , f ) ) with fac1 = 5.0, fac2 = 1.0/6.0; 128, 135-138, 149-150.
    The double literals 0.9, 0.25, 0.01 are written as quotients below. *)
Definition ros_clamp (f : N) : N := nmax (nofZ 1 / nofZ 6) (nmin (nofZ 5) f).

(** try_step( sys , x , t , xout , dt ), 112-178. *)
Definition rosc_core (c : rosc) (x : vec N I) (t : N) (xout : vec N I) (dt : N)
  : rosc * vec N I * N * N * bool :=
  if nneq max_dt (nofZ 0) && less_with_sign max_dt dt dt then (c, xout, t, max_dt, false)
  else
    let '(st1, xout1, xerr1) := rstep (rc_st c) x t dt in
    let err := ros_error xout1 x xerr1 in
    let safe := nofZ 9 / nofZ 10 in
    let fac := ros_clamp (pw err (nofZ 1 / nofZ 4) / safe) in
    if err <=? nofZ 1 then
      let fac1 := if rc_first c then fac
                  else nmax fac (ros_clamp (rc_dt_old c / dt *
                                 pw (err * err / rc_err_old c) (nofZ 1 / nofZ 4) / safe)) in
      let dt_new := dt / fac1 in
      let dt_new1 := if rc_rejected c
                     then (if nofZ 0 <=? dt then nmin dt_new dt else nmax dt_new dt)
                     else dt_new in
      (mkRosc st1 xerr1 (rc_xnew c) false (nmax (nofZ 1 / nofZ 100) err) dt false,
       xout1, t + dt, (if nneq max_dt (nofZ 0) then min_abs max_dt dt_new1 else dt_new1), true)
    else
      (mkRosc st1 xerr1 (rc_xnew c) (rc_first c) (rc_err_old c) (rc_dt_old c) true,
       xout1, t, dt / fac, false).

(** try_step( sys , x , t , dt ), 98-109. *)
Definition rosc_try (c : rosc) (x : vec N I) (t dt : N) : rosc * vec N I * N * N * bool :=
  let '(c1, xnew1, t1, dt1, ok) := rosc_core c x t (rc_xnew c) dt in
  (mkRosc (rc_st c1) (rc_xerr c1) xnew1 (rc_first c1) (rc_err_old c1) (rc_dt_old c1) (rc_rejected c1),
   if (ok : bool) then xnew1 else x, t1, dt1, ok).
End Rosenbrock.
Arguments rosc N I S : clear implicits.
Arguments mkRosc {N I S}.

(** Explicit Runge-Kutta steppers.

    A stepper's [do_step_impl] is a straight-line sequence of algebra calls
    ([for_eachN] with [scale_sumN]) and system calls on named buffers.  It is
    modelled as a small program over those buffers, so that aliasing (in-place
    stepping, [dxdt_in] and [dxdt_out] the same object) is visible.

    A state is a function [I -> N] for an arbitrary index type [I] (any dimension
    of any container).  The system is a total function of state and time: the
    C++ system writes all of [dxdt] and does not change [x].

    Simplified: resizing of the temporaries (see M_Resize) and the element loop
    inside [for_eachN] (see M_Algebra); the latter is pointwise, which is what
    [ISum] does. *)
From Coq Require Import ZArith List Bool.
From Verif Require Import M_Num.
Import ListNotations.
Local Open Scope num_scope.

(** Buffers: the arguments [in], [out], [dxdt_in], [dxdt_out], [xerr] and the
    members [m_x_tmp], [m_F[i]] (or [m_k2]...), [m_dxdt_tmp].
    runge_kutta_dopri5.hpp:91-199, detail/generic_rk_algorithm.hpp:171-180. *)
Inductive loc : Set :=
| LIn | LOut | LDx | LDxOut | LErr | LTmp | LDxTmp | LK (i : nat).

(* No counterpart in /repo: the store of buffers that makes aliasing explicit. *)
Definition loc_eqb (a b : loc) : bool :=
  match a, b with
  | LIn, LIn | LOut, LOut | LDx, LDx | LDxOut, LDxOut | LErr, LErr
  | LTmp, LTmp | LDxTmp, LDxTmp => true
  | LK i, LK j => Nat.eqb i j
  | _, _ => false
  end.

Section RK.
Context {N : Num} {I : Type}.
(* Source: state_type and deriv_type and the buffers of the steppers, base/explicit_stepper_base.hpp, base/explicit_error_stepper_base.hpp. *)
Definition vec := I -> N.
(* Source: state_type and deriv_type and the buffers of the steppers, base/explicit_stepper_base.hpp, base/explicit_error_stepper_base.hpp. *)
Definition rkmem := loc -> vec.
Variable sys : vec -> N -> vec.

(** [static_cast<Value>(p) / static_cast<Value>(q)]. *)
(* Source: static_cast as in runge_kutta_cash_karp54.hpp and runge_kutta_dopri5.hpp. *)
Definition nfrac (p q : Z) : N := nofZ p / nofZ q.

(** scale_sumN: [t1 = a1*t2 + a2*t3 + ...], left to right,
    algebra/default_operations.hpp:60-405; scale_sum1: [t1 = a1*t2]. *)
Definition scale_sum (l : list (N * N)) : N :=
  match l with
  | [] => nofZ 0
  | (a, x) :: r => fold_left (fun s p => s + fst p * snd p) r (a * x)
  end.

Inductive instr : Type :=
| ISum (dst : loc) (terms : list (N * loc))   (* algebra.for_eachN( dst , srcs... , scale_sum(...) ) *)
| ISys (dst src : loc) (t : N)                (* system( src , dst , t ) *)
| ICopy (dst src : loc).                      (* boost::numeric::odeint::copy( src , dst ) *)

(** Which argument buffers are the same object: [in]/[out] for in-place steps
    (base/explicit_stepper_base.hpp:137,230), [dxdt_in]/[dxdt_out] for the FSAL
    steppers (base/explicit_error_stepper_fsal_base.hpp:149,184,317). *)
Record alias := mkAlias { al_x : bool; al_dx : bool }.
(* Source: References passed twice, base/explicit_stepper_base.hpp:148-167. *)
Definition resolve (al : alias) (l : loc) : loc :=
  match l with
  | LOut => if al_x al then LIn else LOut
  | LDxOut => if al_dx al then LDx else LDxOut
  | _ => l
  end.

(* No counterpart in /repo: the store of buffers that makes aliasing explicit. *)
Definition upd (m : rkmem) (l : loc) (v : vec) : rkmem :=
  fun l' => if loc_eqb l l' then v else m l'.

(* Source: References passed twice, base/explicit_stepper_base.hpp:148-167. *)
Definition rd (al : alias) (m : rkmem) (l : loc) : vec := m (resolve al l).
(* Source: References passed twice, base/explicit_stepper_base.hpp:148-167. *)
Definition wr (al : alias) (m : rkmem) (l : loc) (v : vec) : rkmem := upd m (resolve al l) v.

(** One algebra call or system call; the second component collects the
    arguments of the system calls in order. *)
(* Source: Execution of the algebra calls, algebra/default_operations.hpp, algebra/detail/for_each.hpp. *)
Definition exec1 (al : alias) (i : instr) (m : rkmem) : rkmem * list (vec * N) :=
  match i with
  | ISum d ts => (wr al m d (fun j => scale_sum (map (fun p => (fst p, rd al m (snd p) j)) ts)), [])
  | ISys d s t => (wr al m d (sys (rd al m s) t), [(rd al m s, t)])
  | ICopy d s => (wr al m d (rd al m s), [])
  end.

(* Source: Execution of the algebra calls, algebra/default_operations.hpp, algebra/detail/for_each.hpp. *)
Fixpoint exec (al : alias) (p : list instr) (m : rkmem) : rkmem * list (vec * N) :=
  match p with
  | [] => (m, [])
  | i :: p' => let (m1, c1) := exec1 al i m in
               let (m2, c2) := exec al p' m1 in (m2, c1 ++ c2)
  end.

(** ** The generic algorithm, detail/generic_rk_algorithm.hpp:194-235.

    [rows] are the coefficient arrays stage by stage: [a[0], ..., a[n-2], b]
    (stage_vector constructor, 153-161), [cs] the nodes.  Stage [s] (counted from
    1) calls the system on [m_x_tmp] if [s > 1] and then forms
    [1.0*x + (a_s[0]*dt)*dxdt + (a_s[1]*dt)*F[0] + ...] into [m_x_tmp], the last
    stage into [out] (detail/generic_rk_operations.hpp:37-165,
    detail/generic_rk_call_algebra.hpp). *)
Definition ksrc (j : nat) : loc := match j with O => LDx | S i => LK i end.

(* Source: detail/generic_rk_algorithm.hpp:173-236. *)
Definition gk_terms (dt : N) (row : list N) : list (N * loc) :=
  combine (map (fun a => a * dt) row) (map ksrc (seq 0 (length row))).

(* Source: detail/generic_rk_algorithm.hpp:173-236. *)
Fixpoint generic_stages (t dt : N) (s : nat) (rows : list (list N)) (cs : list N) : list instr :=
  match rows, cs with
  | row :: rows', c :: cs' =>
      (if Nat.ltb 1 s then [ISys (LK (s - 2)) LTmp (t + c * dt)] else [])
      ++ [ISum (match rows' with [] => LOut | _ => LTmp end) ((nofZ 1, LIn) :: gk_terms dt row)]
      ++ generic_stages t dt (S s) rows' cs'
  | _, _ => []
  end.

(** A Butcher tableau as passed to the constructor: [coef_a], [coef_b],
    [coef_c] (explicit_generic_rk.hpp:129-133) and [b2] of the error stepper
    (explicit_error_generic_rk.hpp:104-111). *)
Record tableau := mkTableau {
  tab_a : list (list N);
  tab_b : list N;
  tab_c : list N;
  tab_b2 : list N
}.

(** explicit_generic_rk.hpp:141-149, explicit_error_generic_rk.hpp:128-136. *)
Definition generic_prog (tb : tableau) (t dt : N) : list instr :=
  generic_stages t dt 1 (tab_a tb ++ [tab_b tb]) (tab_c tb).

(** explicit_error_generic_rk.hpp:115-125: the step, then [xerr] from the same
    derivatives with the coefficients [b2[j]*dt]. *)
Definition generic_err_prog (tb : tableau) (t dt : N) : list instr :=
  generic_prog tb t dt ++ [ISum LErr (gk_terms dt (tab_b2 tb))].

(** ** Coefficients of the named steppers. *)

(** runge_kutta4.hpp:44-97. *)
Definition rk4_tab : tableau := mkTableau
  [ [nfrac 1 2]; [nofZ 0; nfrac 1 2]; [nofZ 0; nofZ 0; nofZ 1] ]
  [nfrac 1 6; nfrac 1 3; nfrac 1 3; nfrac 1 6]
  [nofZ 0; nfrac 1 2; nfrac 1 2; nofZ 1]
  [].

(** runge_kutta_cash_karp54.hpp:45-142. *)
Definition ck54_tab : tableau := mkTableau
  [ [nfrac 1 5];
    [nfrac 3 40; nfrac 9 40];
    [nfrac 3 10; nfrac (-9) 10; nfrac 6 5];
    [nfrac (-11) 54; nfrac 5 2; nfrac (-70) 27; nfrac 35 27];
    [nfrac 1631 55296; nfrac 175 512; nfrac 575 13824; nfrac 44275 110592; nfrac 253 4096] ]
  [nfrac 37 378; nofZ 0; nfrac 250 621; nfrac 125 594; nofZ 0; nfrac 512 1771]
  [nofZ 0; nfrac 1 5; nfrac 3 10; nfrac 3 5; nofZ 1; nfrac 7 8]
  [nfrac 37 378 - nfrac 2825 27648; nofZ 0; nfrac 250 621 - nfrac 18575 48384;
   nfrac 125 594 - nfrac 13525 55296; nfrac (-277) 14336; nfrac 512 1771 - nfrac 1 4].

(** runge_kutta_fehlberg78.hpp:46-284. *)
Definition f78_tab : tableau := mkTableau
  [ [nfrac 2 27];
    [nfrac 1 36; nfrac 1 12];
    [nfrac 1 24; nofZ 0; nfrac 1 8];
    [nfrac 5 12; nofZ 0; nfrac (-25) 16; nfrac 25 16];
    [nfrac 1 20; nofZ 0; nofZ 0; nfrac 1 4; nfrac 1 5];
    [nfrac (-25) 108; nofZ 0; nofZ 0; nfrac 125 108; nfrac (-65) 27; nfrac 125 54];
    [nfrac 31 300; nofZ 0; nofZ 0; nofZ 0; nfrac 61 225; nfrac (-2) 9; nfrac 13 900];
    [nofZ 2; nofZ 0; nofZ 0; nfrac (-53) 6; nfrac 704 45; nfrac (-107) 9; nfrac 67 90; nofZ 3];
    [nfrac (-91) 108; nofZ 0; nofZ 0; nfrac 23 108; nfrac (-976) 135; nfrac 311 54;
     nfrac (-19) 60; nfrac 17 6; nfrac (-1) 12];
    [nfrac 2383 4100; nofZ 0; nofZ 0; nfrac (-341) 164; nfrac 4496 1025; nfrac (-301) 82;
     nfrac 2133 4100; nfrac 45 82; nfrac 45 164; nfrac 18 41];
    [nfrac 3 205; nofZ 0; nofZ 0; nofZ 0; nofZ 0; nfrac (-6) 41; nfrac (-3) 205;
     nfrac (-3) 41; nfrac 3 41; nfrac 6 41; nofZ 0];
    [nfrac (-1777) 4100; nofZ 0; nofZ 0; nfrac (-341) 164; nfrac 4496 1025; nfrac (-289) 82;
     nfrac 2193 4100; nfrac 51 82; nfrac 33 164; nfrac 12 41; nofZ 0; nofZ 1] ]
  [nofZ 0; nofZ 0; nofZ 0; nofZ 0; nofZ 0; nfrac 34 105; nfrac 9 35; nfrac 9 35;
   nfrac 9 280; nfrac 9 280; nofZ 0; nfrac 41 840; nfrac 41 840]
  [nofZ 0; nfrac 2 27; nfrac 1 9; nfrac 1 6; nfrac 5 12; nfrac 1 2; nfrac 5 6; nfrac 1 6;
   nfrac 2 3; nfrac 1 3; nofZ 1; nofZ 0; nofZ 1]
  [nfrac (-41) 840; nofZ 0; nofZ 0; nofZ 0; nofZ 0; nofZ 0; nofZ 0; nofZ 0; nofZ 0;
   nofZ 0; nfrac (-41) 840; nfrac 41 840; nfrac 41 840].

(** ** Hand-written steppers. *)

(** euler.hpp:79-84. *)
Definition euler_prog (t dt : N) : list instr :=
  [ISum LOut [(nofZ 1, LIn); (dt, LDx)]].

(** euler.hpp:86-92, calc_state; [LDx] is [m_dxdt], [LIn] the old state. *)
Definition euler_calc_prog (t t_old : N) : list instr :=
  [ISum LOut [(nofZ 1, LIn); (t - t_old, LDx)]].

(** runge_kutta4_classic.hpp:87-128; [m_dxt], [m_dxm], [m_dxh] are [LK 0..2]. *)
Definition rk4_classic_prog (t dt : N) : list instr :=
  let dh := dt / nofZ 2 in
  let th := t + dh in
  let dt6 := dt / nofZ 6 in
  let dt3 := dt / nofZ 3 in
  [ ISum LTmp [(nofZ 1, LIn); (dh, LDx)];
    ISys (LK 0) LTmp th;
    ISum LTmp [(nofZ 1, LIn); (dh, LK 0)];
    ISys (LK 1) LTmp th;
    ISum LTmp [(nofZ 1, LIn); (dt, LK 1)];
    ISys (LK 2) LTmp (t + dt);
    ISum LOut [(nofZ 1, LIn); (dt6, LDx); (dt3, LK 0); (dt3, LK 1); (dt6, LK 2)] ].

(** runge_kutta_cash_karp54_classic.hpp:116-170; [m_k2..m_k6] are [LK 0..4]. *)
Definition ck54_classic_prog (t dt : N) : list instr :=
  [ ISum LTmp [(nofZ 1, LIn); (dt * nfrac 1 5, LDx)];
    ISys (LK 0) LTmp (t + dt * nfrac 1 5);
    ISum LTmp [(nofZ 1, LIn); (dt * nfrac 3 40, LDx); (dt * nfrac 9 40, LK 0)];
    ISys (LK 1) LTmp (t + dt * nfrac 3 10);
    ISum LTmp [(nofZ 1, LIn); (dt * nfrac 3 10, LDx); (dt * nfrac (-9) 10, LK 0);
               (dt * nfrac 6 5, LK 1)];
    ISys (LK 2) LTmp (t + dt * nfrac 3 5);
    ISum LTmp [(nofZ 1, LIn); (dt * nfrac (-11) 54, LDx); (dt * nfrac 5 2, LK 0);
               (dt * nfrac (-70) 27, LK 1); (dt * nfrac 35 27, LK 2)];
    ISys (LK 3) LTmp (t + dt * nofZ 1);
    ISum LTmp [(nofZ 1, LIn); (dt * nfrac 1631 55296, LDx); (dt * nfrac 175 512, LK 0);
               (dt * nfrac 575 13824, LK 1); (dt * nfrac 44275 110592, LK 2);
               (dt * nfrac 253 4096, LK 3)];
    ISys (LK 4) LTmp (t + dt * nfrac 7 8);
    ISum LOut [(nofZ 1, LIn); (dt * nfrac 37 378, LDx); (dt * nfrac 250 621, LK 1);
               (dt * nfrac 125 594, LK 2); (dt * nfrac 512 1771, LK 4)] ].

(** runge_kutta_cash_karp54_classic.hpp:92-112. *)
Definition ck54_classic_err_prog (t dt : N) : list instr :=
  ck54_classic_prog t dt ++
  [ ISum LErr [(dt * (nfrac 37 378 - nfrac 2825 27648), LDx);
               (dt * (nfrac 250 621 - nfrac 18575 48384), LK 1);
               (dt * (nfrac 125 594 - nfrac 13525 55296), LK 2);
               (dt * nfrac (-277) 14336, LK 3);
               (dt * (nfrac 512 1771 - nfrac 1 4), LK 4)] ].

(** runge_kutta_dopri5.hpp:90-157; [m_k2..m_k6] are [LK 0..4]. *)
Definition dopri5_prog (t dt : N) : list instr :=
  [ ISum LTmp [(nofZ 1, LIn); (dt * nfrac 1 5, LDx)];
    ISys (LK 0) LTmp (t + dt * nfrac 1 5);
    ISum LTmp [(nofZ 1, LIn); (dt * nfrac 3 40, LDx); (dt * nfrac 9 40, LK 0)];
    ISys (LK 1) LTmp (t + dt * nfrac 3 10);
    ISum LTmp [(nofZ 1, LIn); (dt * nfrac 44 45, LDx); (dt * nfrac (-56) 15, LK 0);
               (dt * nfrac 32 9, LK 1)];
    ISys (LK 2) LTmp (t + dt * nfrac 4 5);
    ISum LTmp [(nofZ 1, LIn); (dt * nfrac 19372 6561, LDx); (dt * nfrac (-25360) 2187, LK 0);
               (dt * nfrac 64448 6561, LK 1); (dt * nfrac (-212) 729, LK 2)];
    ISys (LK 3) LTmp (t + dt * nfrac 8 9);
    ISum LTmp [(nofZ 1, LIn); (dt * nfrac 9017 3168, LDx); (dt * nfrac (-355) 33, LK 0);
               (dt * nfrac 46732 5247, LK 1); (dt * nfrac 49 176, LK 2);
               (dt * nfrac (-5103) 18656, LK 3)];
    ISys (LK 4) LTmp (t + dt);
    ISum LOut [(nofZ 1, LIn); (dt * nfrac 35 384, LDx); (dt * nfrac 500 1113, LK 1);
               (dt * nfrac 125 192, LK 2); (dt * nfrac (-2187) 6784, LK 3);
               (dt * nfrac 11 84, LK 4)];
    ISys LDxOut LOut (t + dt) ].

(** runge_kutta_dopri5.hpp:161-200; if [dxdt_in] and [dxdt_out] are the same
    instance the derivative is saved in [m_dxdt_tmp] first. *)
Definition dopri5_err_terms (dt : N) (first : loc) : list (N * loc) :=
  [ (dt * (nfrac 35 384 - nfrac 5179 57600), first);
    (dt * (nfrac 500 1113 - nfrac 7571 16695), LK 1);
    (dt * (nfrac 125 192 - nfrac 393 640), LK 2);
    (dt * (nfrac (-2187) 6784 - nfrac (-92097) 339200), LK 3);
    (dt * (nfrac 11 84 - nfrac 187 2100), LK 4);
    (dt * nfrac (-1) 40, LDxOut) ].

(* Source: runge_kutta_dopri5.hpp:163-199. *)
Definition dopri5_err_prog (al : alias) (t dt : N) : list instr :=
  if al_dx al
  then ICopy LDxTmp LDx :: dopri5_prog t dt ++ [ISum LErr (dopri5_err_terms dt LDxTmp)]
  else dopri5_prog t dt ++ [ISum LErr (dopri5_err_terms dt LDx)].

(** runge_kutta_dopri5.hpp:225-269, calc_state: the dense output polynomials
    [b_i(theta)]. *)
Definition dopri5_btheta (theta : N) : list N :=
  let b1 := nfrac 35 384 in
  let b3 := nfrac 500 1113 in
  let b4 := nfrac 125 192 in
  let b5 := nfrac (-2187) 6784 in
  let b6 := nfrac 11 84 in
  let X1 := nofZ 5 * (nofZ 2558722523 - nofZ 31403016 * theta) / nofZ 11282082432 in
  let X3 := nofZ 100 * (nofZ 882725551 - nofZ 15701508 * theta) / nofZ 32700410799 in
  let X4 := nofZ 25 * (nofZ 443332067 - nofZ 31403016 * theta) / nofZ 1880347072 in
  let X5 := nofZ 32805 * (nofZ 23143187 - nofZ 3489224 * theta) / nofZ 199316789632 in
  let X6 := nofZ 55 * (nofZ 29972135 - nofZ 7076736 * theta) / nofZ 822651844 in
  let X7 := nofZ 10 * (nofZ 7414447 - nofZ 829305 * theta) / nofZ 29380423 in
  let theta_m_1 := theta - nofZ 1 in
  let theta_sq := theta * theta in
  let A := theta_sq * (nofZ 3 - nofZ 2 * theta) in
  let B := theta_sq * theta_m_1 in
  let C := theta_sq * theta_m_1 * theta_m_1 in
  let D := theta * theta_m_1 * theta_m_1 in
  [ A * b1 - C * X1 + D; A * b3 + C * X3; A * b4 - C * X4; A * b5 + C * X5;
    A * b6 - C * X6; B + C * X7 ].

(** The interpolated state from the old state, the old derivative, the stages
    [m_k3..m_k6] left in the stepper and the new derivative. *)
(* Source: runge_kutta_dopri5.hpp:227-269. *)
Definition dopri5_calc_state (t : N) (x_old deriv_old : vec) (t_old : N)
    (k3 k4 k5 k6 : vec) (deriv_new : vec) (t_new : N) : vec :=
  let dt := t_new - t_old in
  let theta := (t - t_old) / dt in
  fun j => scale_sum ((nofZ 1, x_old j)
    :: combine (map (fun b => dt * b) (dopri5_btheta theta))
               [deriv_old j; k3 j; k4 j; k5 j; k6 j; deriv_new j]).

(** ** Public entry points.

    do_step( sys , x , t , dt ) and do_step( sys , in , t , out , dt ):
    [sys( in , m_dxdt , t )] and then [do_step_impl] with [m_dxdt],
    base/explicit_stepper_base.hpp:166-174,225-231,
    base/explicit_error_stepper_base.hpp:175-185,254-264,289-304.
    [LDx] is [m_dxdt]. *)
Definition do_step_prog (impl : list instr) (t : N) : list instr := ISys LDx LIn t :: impl.

(** Memory at the call: [in] holds [x], every other buffer arbitrary. *)
(* Source: base/explicit_stepper_base.hpp:225-231. *)
Definition run_step (al : alias) (impl : list instr) (t : N) (m : rkmem) : rkmem * list (vec * N) :=
  exec al (do_step_prog impl t) m.

(** The named explicit steppers and the [do_step_impl] without error estimate.
    dopri5 is used here as on its first call, when the derivative is computed
    (base/explicit_error_stepper_fsal_base.hpp:141-150,332-345). *)
Inductive rk_name : Set :=
| rk_euler | rk_rk4 | rk_rk4_classic | rk_ck54 | rk_ck54_classic | rk_dopri5 | rk_f78.

(* Source: Selects the do_step_impl of the named stepper: euler.hpp, runge_kutta4.hpp, runge_kutta4_classic.hpp, runge_kutta_cash_karp54.hpp, runge_kutta_cash_karp54_classic.hpp, runge_kutta_dopri5.hpp, runge_kutta_fehlberg78.hpp. *)
Definition rk_impl (n : rk_name) (t dt : N) : list instr :=
  match n with
  | rk_euler => euler_prog t dt
  | rk_rk4 => generic_prog rk4_tab t dt
  | rk_rk4_classic => rk4_classic_prog t dt
  | rk_ck54 => generic_prog ck54_tab t dt
  | rk_ck54_classic => ck54_classic_prog t dt
  | rk_dopri5 => dopri5_prog t dt
  | rk_f78 => generic_prog f78_tab t dt
  end.

(** The same with error estimate, for the error steppers. *)
(* Source: Selects the do_step_impl of the named stepper: euler.hpp, runge_kutta4.hpp, runge_kutta4_classic.hpp, runge_kutta_cash_karp54.hpp, runge_kutta_cash_karp54_classic.hpp, runge_kutta_dopri5.hpp, runge_kutta_fehlberg78.hpp. *)
Definition rk_err_impl (n : rk_name) (al : alias) (t dt : N) : option (list instr) :=
  match n with
  | rk_ck54 => Some (generic_err_prog ck54_tab t dt)
  | rk_ck54_classic => Some (ck54_classic_err_prog t dt)
  | rk_dopri5 => Some (dopri5_err_prog al t dt)
  | rk_f78 => Some (generic_err_prog f78_tab t dt)
  | _ => None
  end.

(** The stepper object as used by the integrate functions: do_step( sys , x , t , dt )
    in place; the object is its buffers.  base/explicit_stepper_base.hpp:225-231,
    base/explicit_error_stepper_base.hpp:289-304.  For dopri5 this is a stepper
    that is reset before every step (see M_FSAL for the kept derivative). *)
Definition rk_do_step (n : rk_name) (tmp : rkmem) (x : vec) (t dt : N) : rkmem * vec :=
  let m' := fst (run_step (mkAlias true false) (rk_impl n t dt) t (upd tmp LIn x)) in
  (m', m' LIn).
End RK.

Arguments loc_eqb a b : simpl nomatch.
Arguments tableau N : clear implicits.
Arguments mkTableau {N}.
Arguments instr N : clear implicits.
Arguments vec N I : clear implicits.
Arguments rkmem N I : clear implicits.

(** order() and error_order(): euler.hpp:48, runge_kutta4.hpp:112,
    runge_kutta4_classic.hpp:51, runge_kutta_cash_karp54.hpp:156,
    runge_kutta_cash_karp54_classic.hpp:53-55, runge_kutta_dopri5.hpp:56,
    runge_kutta_fehlberg78.hpp:301. *)
Definition rk_order (n : rk_name) : nat :=
  match n with
  | rk_euler => 1 | rk_rk4 | rk_rk4_classic => 4
  | rk_ck54 | rk_ck54_classic | rk_dopri5 => 5 | rk_f78 => 8
  end.
(* Source: The template argument error_order of the base classes, runge_kutta_cash_karp54.hpp, runge_kutta_dopri5.hpp, runge_kutta_fehlberg78.hpp. *)
Definition rk_error_order (n : rk_name) : nat :=
  match n with
  | rk_ck54 | rk_ck54_classic | rk_dopri5 => 4 | rk_f78 => 7 | _ => 0
  end.

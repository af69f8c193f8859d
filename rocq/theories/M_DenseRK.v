(** dense_output_runge_kutta, stepper/dense_output_runge_kutta.hpp: the two
    state buffers with their toggle, for steppers without step size control
    (lines 63-266) and for controlled FSAL steppers (lines 281-468).

    Simplified: resizing (the buffers always have the size of the state);
    a system function or stepper that throws. *)
From Coq Require Import ZArith List Bool.
From Verif Require Import M_Num M_Run M_Checker M_RK M_CtrlRK M_Dense.
Import ListNotations.
Local Open Scope num_scope.

(** ** Steppers without step size control, 63-266. *)
Section Plain.
Context {N : Num} {I S : Type}.
Notation X := (vec N I).
(** m_stepper.do_step( system , in , t , out , dt ): the stepper and out. *)
Variable pstep : S -> X -> N -> N -> S * X.
(** m_stepper.calc_state( x , t , old , t_old , current , t_current ); the second
    argument is what x contained before. *)
Variable pcalc : S -> X -> N -> X -> N -> X -> N -> X.

(** Members m_stepper, m_x1, m_x2, m_current_state_x1, m_t, m_t_old, m_dt; 259-263. *)
Record drp := mkDrp { dp_st : S; dp_x1 : X; dp_x2 : X; dp_cur : bool; dp_t : N; dp_told : N; dp_dt : N }.

(** get_current_state, get_old_state; 223-241. *)
Definition dp_current (o : drp) : X := if dp_cur o then dp_x1 o else dp_x2 o.
(* Source: stepper/dense_output_runge_kutta.hpp:233-241. *)
Definition dp_old (o : drp) : X := if dp_cur o then dp_x2 o else dp_x1 o.

(** initialize( x0 , t0 , dt0 ), 105-112; m_t_old keeps its value. *)
Definition dp_init (o : drp) (x0 : X) (t0 dt0 : N) : drp :=
  if dp_cur o then mkDrp (dp_st o) x0 (dp_x2 o) true t0 (dp_told o) dt0
  else mkDrp (dp_st o) (dp_x1 o) x0 false t0 (dp_told o) dt0.

(** do_step( system ), 122-130. *)
Definition dp_step (o : drp) : drp :=
  let (st1, out) := pstep (dp_st o) (dp_current o) (dp_t o) (dp_dt o) in
  if dp_cur o then mkDrp st1 (dp_x1 o) out false (dp_t o + dp_dt o) (dp_t o) (dp_dt o)
  else mkDrp st1 out (dp_x2 o) true (dp_t o + dp_dt o) (dp_t o) (dp_dt o).

(** calc_state( t , x ) with x a mutable reference, 142-150: the copy at the
    current time is not followed by a return. *)
Definition dp_calc (o : drp) (x : X) (t : N) : X :=
  let x1 := if negb (nneq t (dp_t o)) then dp_current o else x in
  pcalc (dp_st o) x1 t (dp_old o) (dp_told o) (dp_current o) (dp_t o).
End Plain.
Arguments drp N I S : clear implicits.
Arguments mkDrp {N I S}.

(** ** Controlled FSAL steppers, 281-468. *)
Section Fsal.
Context {N : Num} {I C : Type}.
Notation X := (vec N I).
Variable sys : X -> N -> X.
(** m_stepper.try_step( system , in , dxdt_in , t , out , dxdt_out , dt ): the
    controlled stepper, out, dxdt_out, t, dt, success. *)
Variable ftry : C -> X -> X -> N -> X -> X -> N -> C * X * X * N * N * bool.
(** m_stepper.stepper().calc_state( t , x , old , old_deriv , t_old , current ,
    current_deriv , t_current ). *)
Variable fcalc : C -> N -> X -> X -> N -> X -> X -> N -> X.

(** Members m_stepper, m_current_state_x1, m_x1, m_x2, m_dxdt1, m_dxdt2, m_t,
    m_t_old, m_dt, m_is_deriv_initialized; 460-466. *)
Record drf := mkDrf { df_st : C; df_cur : bool; df_x1 : X; df_x2 : X; df_d1 : X; df_d2 : X;
                      df_t : N; df_told : N; df_dt : N; df_der : bool }.

(** get_current_state, get_old_state, get_current_deriv, get_old_deriv; 413-451. *)
Definition df_current (o : drf) : X := if df_cur o then df_x1 o else df_x2 o.
(* Source: stepper/dense_output_runge_kutta.hpp:413-451. *)
Definition df_old (o : drf) : X := if df_cur o then df_x2 o else df_x1 o.
(* Source: stepper/dense_output_runge_kutta.hpp:413-451. *)
Definition df_cderiv (o : drf) : X := if df_cur o then df_d1 o else df_d2 o.
(* Source: stepper/dense_output_runge_kutta.hpp:413-451. *)
Definition df_oderiv (o : drf) : X := if df_cur o then df_d2 o else df_d1 o.

(** initialize( x0 , t0 , dt0 ), 313-321. *)
Definition df_init (o : drf) (x0 : X) (t0 dt0 : N) : drf :=
  if df_cur o
  then mkDrf (df_st o) true x0 (df_x2 o) (df_d1 o) (df_d2 o) t0 (df_told o) dt0 false
  else mkDrf (df_st o) false (df_x1 o) x0 (df_d1 o) (df_d2 o) t0 (df_told o) dt0 false.

(** Lines 326-331: the derivative at the current state if it is not known yet. *)
Definition df_enter (o : drf) : drf :=
  if df_der o then o
  else let d := sys (df_current o) (df_t o) in
    if df_cur o
    then mkDrf (df_st o) true (df_x1 o) (df_x2 o) d (df_d2 o) (df_t o) (df_told o) (df_dt o) true
    else mkDrf (df_st o) false (df_x1 o) (df_x2 o) (df_d1 o) d (df_t o) (df_told o) (df_dt o) true.

(** The effect of one try_step call on the object, 338-339. *)
Definition df_try (o : drf) : drf * bool :=
  let '(st1, out1, dout1, t1, dt1, ok) :=
    ftry (df_st o) (df_current o) (df_cderiv o) (df_t o) (df_old o) (df_oderiv o) (df_dt o) in
  (if df_cur o
   then mkDrf st1 true (df_x1 o) out1 (df_d1 o) dout1 t1 (df_told o) dt1 (df_der o)
   else mkDrf st1 false out1 (df_x2 o) dout1 (df_d2 o) t1 (df_told o) dt1 (df_der o), ok).

(** The loop of lines 336-342: try_step, then the checker, whatever try_step said. *)
Fixpoint df_loop (fuel : nat) (o : drf) (steps : nat) : drf * res unit :=
  match fuel with
  | O => (o, Fuel)
  | Datatypes.S fuel' =>
      let (o1, ok) := df_try o in
      match fail_check steps with
      | Ok steps1 => if (ok : bool) then (o1, Ok tt) else df_loop fuel' o1 steps1
      | Exc e => (o1, Exc e)
      | UB => (o1, UB)
      | Fuel => (o1, Fuel)
      end
  end.

(** toggle_current_state, 454-457. *)
Definition df_toggle (o : drf) : drf :=
  mkDrf (df_st o) (negb (df_cur o)) (df_x1 o) (df_x2 o) (df_d1 o) (df_d2 o)
        (df_t o) (df_told o) (df_dt o) (df_der o).

(** m_t_old = m_t, 335. *)
(* Source: stepper/dense_output_runge_kutta.hpp:335. *)
Definition df_save_time (o : drf) : drf :=
  mkDrf (df_st o) (df_cur o) (df_x1 o) (df_x2 o) (df_d1 o) (df_d2 o)
        (df_t o) (df_t o) (df_dt o) (df_der o).

(** do_step( system ), 323-345: the object afterwards (also when the checker has
    thrown) and the outcome.  The loop makes at most 501 calls. *)
Definition df_step (o : drf) : drf * res unit :=
  let (o1, r) := df_loop (Datatypes.S default_max_steps) (df_save_time (df_enter o)) 0 in
  match r with
  | Ok _ => (df_toggle o1, Ok tt)
  | Exc e => (o1, Exc e)
  | UB => (o1, UB)
  | Fuel => (o1, Fuel)
  end.

(** calc_state( t , x ), 351-363. *)
Definition df_calc (o : drf) (t : N) : X :=
  fcalc (df_st o) t (df_old o) (df_oderiv o) (df_told o) (df_current o) (df_cderiv o) (df_t o).

(** The class as a dense output stepper of the integrate functions. *)
(* Source: stepper/dense_output_runge_kutta.hpp:314-410, the functions called by integrate/detail/integrate_const.hpp:104-162. *)
Definition df_ops (W : Type) : DenseOps N drf W X :=
  {| d_init := df_init;
     d_step := fun o w => match df_step o with
                          | (o1, Ok _) => ([EDo (df_told o1) (df_t o1) (df_current o1)], Ok (o1, w))
                          | (_, Exc e) => ([], Exc e)
                          | (_, UB) => ([], UB)
                          | (_, Fuel) => ([], Fuel)
                          end;
     d_calc := df_calc; d_t := df_t; d_x := df_current; d_dt := df_dt |}.
End Fsal.
Arguments drf N I C : clear implicits.
Arguments mkDrf {N I C}.

(** ** The steppers of the library with dense output. *)
Section Instances.
Context {N : Num} {I : Type}.
Notation X := (vec N I).
Variable sys : X -> N -> X.

(** euler: do_step( sys , in , t , out , dt ), base/explicit_stepper_base.hpp:225-231,
    and calc_state, euler.hpp:86-92, which reads the member m_dxdt. *)
Definition euler_pstep (m : rkmem N I) (x : X) (t dt : N) : rkmem N I * X :=
  let m1 := fst (run_step sys (mkAlias false false) (euler_prog t dt) t (upd m LIn x)) in (m1, m1 LOut).
(* Source: euler.hpp:87-92, as called in stepper/dense_output_runge_kutta.hpp:149. *)
Definition euler_pcalc (m : rkmem N I) (x : X) (t : N) (old : X) (t_old : N) (cur : X) (t_new : N) : X :=
  fst (exec sys (mkAlias false false) (euler_calc_prog t t_old) (upd (upd m LIn old) LOut x)) LOut.

(** controlled_runge_kutta< runge_kutta_dopri5 >: the stepper object and m_xerr. *)
Variable idx : list I.
Variable pw : N -> N -> N.
Variable eo so : Z.
Variable cfg : err_cfg N.
Variable max_dt : N.
Definition dopri5_ftry (c : rkmem N I * X) (x dx : X) (t : N) (out dout : X) (dt : N)
  : (rkmem N I * X) * X * X * N * N * bool :=
  let '(st1, xerr1, out1, dout1, t1, dt1, ok) :=
    ckf_core idx pw (dopri5_fstep sys (mkAlias false false)) eo so cfg max_dt (fst c) (snd c) x dx t out dout dt in
  ((st1, xerr1), out1, dout1, t1, dt1, ok).
(** runge_kutta_dopri5::calc_state, runge_kutta_dopri5.hpp:226-269, with the
    members m_k3..m_k6. *)
Definition dopri5_fcalc (c : rkmem N I * X) (t : N) (x_old d_old : X) (t_old : N) (x_new d_new : X) (t_new : N) : X :=
  dopri5_calc_state t x_old d_old t_old (fst c (LK 1)) (fst c (LK 2)) (fst c (LK 3)) (fst c (LK 4)) d_new t_new.
End Instances.

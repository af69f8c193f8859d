(** controlled_runge_kutta with boost::numeric::ublas::matrix states.

    The default algebra of these states is vector_space_algebra
    (algebra/algebra_dispatcher.hpp:77-81), whose norm is the structure
    vector_space_norm_inf of util/ublas_wrapper.hpp.  All other operations are
    elementwise (util/ublas_wrapper.hpp:64-230).  An element is addressed by its row and column. *)
From Coq Require Import ZArith List Bool.
From Verif Require Import M_Num M_Sign M_RK M_CtrlRK.
Import ListNotations.
Local Open Scope num_scope.

Section Ublas.
Context {N : Num}.
Variable rows cols : nat.

(** vector_space_norm_inf< ublas::matrix >, util/ublas_wrapper.hpp:52-61, calls
    ublas::norm_inf( matrix ): the largest sum of the absolute values of a row.
    Simplified: the loop of uBLAS (boost/numeric/ublas/functional.hpp, matrix_norm_inf::apply)
    is not part of /repo; taken from its documentation. *)
Definition row_sum (v : vec N (nat * nat)) (i : nat) : N :=
  fold_left (fun u j => u + nabs (v (i, j))) (seq 0 cols) (nofZ 0).
(* Source: util/ublas_wrapper.hpp:52-61. *)
Definition mat_norm (v : vec N (nat * nat)) : N :=
  fold_left (fun m i => nmax m (row_sum v i)) (seq 0 rows) (nofZ 0).
End Ublas.

Section VS.
Context {N : Num} {I S : Type}.
(** algebra_type::norm_inf, here vector_space_algebra::norm_inf, algebra/vector_space_algebra.hpp:170-175. *)
Variable norm : vec N I -> N.
Variable pw : N -> N -> N.
Variable sys : vec N I -> N -> vec N I.
Variable estep : S -> vec N I -> vec N I -> N -> N -> S * vec N I * vec N I.
Variable error_order stepper_order : Z.
Variable cfg : err_cfg N.
Variable max_dt : N.

(** default_error_checker::error with this norm, stepper/controlled_runge_kutta.hpp:82-94. *)
Definition vs_error (x_old dxdt_old x_err : vec N I) (dt : N) : vec N I * N :=
  let e := fun i => rel_error (eps_abs cfg) (eps_rel cfg) (a_x cfg) (a_dxdt cfg * nabs dt)
                              (x_err i) (x_old i) (dxdt_old i) in
  (e, norm e).

(** try_step( sys , x , t , dt ), stepper/controlled_runge_kutta.hpp:280-309, 337-347, 411-440, 477-484. *)
Definition vs_try (c : ck N I S) (x : vec N I) (t dt : N) : ck N I S * vec N I * N * N * bool :=
  let dx := sys x t in
  if check_step_size_limit max_dt dt then
    let '(st1, xnew1, xerr1) := estep (ck_st c) x dx t dt in
    let (xerr2, err) := vs_error x dx xerr1 dt in
    if ngt err (nofZ 1)
    then (mkCk st1 dx xerr2 xnew1, x, t, decrease_step pw max_dt dt err error_order, false)
    else (mkCk st1 dx xerr2 xnew1, xnew1, t + dt, increase_step pw max_dt dt err stepper_order, true)
  else (mkCk (ck_st c) dx (ck_xerr c) (ck_xnew c), x, t, max_dt, false).
End VS.

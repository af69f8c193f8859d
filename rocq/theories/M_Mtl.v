(** implicit_euler_mtl4, external/mtl4/implicit_euler_mtl4.hpp:41-160.

    States are mtl::dense_vector: functions of the index with the size [n] beside them.
    Simplified: resizing. *)
From Coq Require Import ZArith List Bool.
From Verif Require Import M_Num M_RK M_LU.
Import ListNotations.
Local Open Scope num_scope.

Section Mtl.
Context {N : Num}.
Variable f : vec N nat -> N -> vec N nat.      (* deriv_func( x , dxdt , t ) *)
Variable jac : vec N nat -> N -> mat N.        (* jacobi_func( x , J , t ) *)
(** itl::bicgstab with the preconditioner ilu_0, at most 500 iterations and relative tolerance 1e-6
    (lines 99-101, 118-130; external library): matrix, start vector, right-hand side |-> vector left in x. *)
Variable bicgstab : mat N -> vec N nat -> vec N nat -> vec N nat.

(** m_jacobi *= dt; m_jacobi -= m_identity, lines 92-93. *)
Definition mtl_matrix (x : vec N nat) (t dt : N) : mat N :=
  fun r c => jac x t r c * dt - (if Nat.eqb r c then nofZ 1 else nofZ 0).

(** do_step( system , x , t , dt ), lines 69-105: the new x.  [epsilon] is m_epsilon, set by the
    constructor (62) and never read. *)
Definition mtl_do_step (epsilon : N) (x : vec N nat) (t dt : N) : vec N nat :=
  let t1 := t + dt in
  let mx := x in
  let dxdt := f x t1 in
  let b := fun i => dxdt i * nopp dt in
  let mx1 := bicgstab (mtl_matrix x t1 dt) mx b in
  fun i => x i + mx1 i.
End Mtl.

(** What the implicit steppers should compute, over the reals. *)
From Coq Require Import Reals Arith List.
From Verif Require Import S_LU.
Import ListNotations.
Local Open Scope R_scope.

(** The implicit Euler equation x1 = x0 + dt f( x1 , t + dt ). *)
Definition implicit_euler_eq (n : nat) (f : (nat -> R) -> R -> nat -> R) (x0 : nat -> R) (t dt : R)
  (x1 : nat -> R) : Prop :=
  forall r, (r < n)%nat -> x1 r = x0 r + dt * f x1 (t + dt) r.

(** Right-hand sides A x + g( t ). *)
Definition affine (n : nat) (A : nat -> nat -> R) (g : R -> nat -> R) (f : (nat -> R) -> R -> nat -> R) : Prop :=
  forall x t r, (r < n)%nat -> f x t r = mvec n A x r + g t r.

(** I - dt A. *)
Definition euler_matrix (dt : R) (A : nat -> nat -> R) : nat -> nat -> R :=
  fun r c => ident r c - dt * A r c.

(** ** Rosenbrock methods in the form of Hairer and Wanner, volume II, section IV.7: with
    W = 1/(gamma dt) I - J( x , t ),
    W g_k = f( x + sum_j a_kj g_j , t + alpha_k dt ) + dt d_k f_t( x , t ) + sum_j c_kj g_j / dt,
    k = 1 .. s, new state x + sum_k m_k g_k.  [lc m gs] is the combination sum m_k g_k. *)
Fixpoint lc (m : list R) (gs : list (nat -> R)) (i : nat) : R :=
  match m, gs with
  | a :: m', g :: gs' => a * g i + lc m' gs' i
  | _, _ => 0
  end.

Record rstage := mkRstage { rs_a : list R; rs_alpha : R; rs_d : R; rs_c : list R }.

Definition ros_W (n : nat) (gamma dt : R) (J : nat -> nat -> R) : nat -> nat -> R :=
  fun r c => ident r c / gamma / dt - J r c.

Fixpoint ros_stages (n : nat) (f : (nat -> R) -> R -> nat -> R) (ft : nat -> R) (W : nat -> nat -> R)
  (x : nat -> R) (t dt : R) (done : list (nat -> R)) (st : list rstage) (gs : list (nat -> R)) : Prop :=
  match st, gs with
  | [], [] => True
  | s :: st', g :: gs' =>
      (exists xk, veq n xk (fun i => x i + lc (rs_a s) done i) /\
       solves n W g (fun i => f xk (t + rs_alpha s * dt) i + dt * rs_d s * ft i + lc (rs_c s) done i / dt)) /\
      ros_stages n f ft W x t dt (done ++ [g]) st' gs'
  | _, _ => False
  end.

(** [x1] and the error estimate [e] are the result of a Rosenbrock step with stages [st] and
    weights [m]; the error estimate is the last stage. *)
Definition ros_result (n : nat) (f : (nat -> R) -> R -> nat -> R) (ft : nat -> R) (J : nat -> nat -> R)
  (gamma : R) (st : list rstage) (m : list R) (x : nat -> R) (t dt : R) (x1 e : nat -> R) : Prop :=
  exists gs, ros_stages n f ft (ros_W n gamma dt J) x t dt [] st (gs ++ [e]) /\
             veq n x1 (fun i => x i + lc m (gs ++ [e]) i).

(** A linear functional of the first n components. *)
Definition functional (n : nat) (w : nat -> R) (x : nat -> R) : R := sigma n (fun c => w c * x c).

(** The functional is an invariant of the system, and the derivatives handed over agree with that. *)
Definition ros_invariant (n : nat) (w : nat -> R) (f : (nat -> R) -> R -> nat -> R)
  (J : (nat -> R) -> R -> nat -> nat -> R) (ft : (nat -> R) -> R -> nat -> R) : Prop :=
  (forall x t, functional n w (f x t) = 0) /\
  (forall x t c, (c < n)%nat -> functional n w (fun r => J x t r c) = 0) /\
  (forall x t, functional n w (ft x t) = 0).

(** Local error of order p in the sense of the documentation: O( dt^(p+1) ) as dt -> 0. *)
Definition local_order (err : R -> R) (p : nat) : Prop :=
  exists C d, 0 < d /\ forall dt, 0 < dt <= d -> Rabs (err dt) <= C * dt ^ (p + 1).

(** Autonomous systems for rosenbrock4: the right-hand side and its derivative as functions of the first n components. *)
From Coq Require Import List Reals.
From Verif Require Import M_Num M_RK M_Implicit S_LU S_BSeries.
Local Open Scope R_scope.

(** The first n components of a state. *)
Definition fin (n : nat) : Type := {i : nat | (i < n)%nat}.
Definition restrict {n} (x : nat -> R) : fin n -> R := fun k => x (proj1_sig k).

(** The system function is F, the Jacobian handed over is the derivative of F in the sense that DF x u = J(x) u,
    and the time derivative handed over is zero. *)
Record ros_system (n : nat) (f : (nat -> R) -> R -> nat -> R) (jac : (nat -> R) -> R -> nat -> nat -> R) (dft : (nat -> R) -> R -> nat -> R)
  (F : (fin n -> R) -> fin n -> R) (DF : (fin n -> R) -> (fin n -> R) -> fin n -> R) : Prop := {
  rsy_f : forall x t (k : fin n), f x t (proj1_sig k) = F (restrict x) k;
  rsy_jac : forall x t u (k : fin n), mvec n (jac x t) u (proj1_sig k) = DF (restrict x) (restrict u) k;
  rsy_dft : forall x t (k : fin n), dft x t (proj1_sig k) = 0
}.

(** F and its derivative are Lipschitz with the constant M, the derivative is bounded by it. *)
Record ros_lipschitz {J : Type} (M : R) (F : (J -> R) -> J -> R) (DF : (J -> R) -> (J -> R) -> J -> R) : Prop := {
  rl_F : forall u v d, (forall j, Rabs (u j - v j) <= d) -> bnd (M * d) (fun k => F u k - F v k);
  rl_lin : forall x u v k, DF x (fun j => u j - v j) k = DF x u k - DF x v k;
  rl_bnd : forall x u r, bnd r u -> bnd (M * r) (DF x u);
  rl_DF : forall x z d u r, (forall j, Rabs (x j - z j) <= d) -> bnd r u -> bnd (M * d * r) (fun k => DF x u k - DF z u k)
}.

(** The first n components are within [D] of each other. *)
Definition near_n (n : nat) (D : R) (x z : nat -> R) : Prop := forall k, (k < n)%nat -> Rabs (x k - z k) <= D.
(** [y] solves x' = F(x) at the times in [T]. *)
Definition ros_solves {n} (T : R -> Prop) (F : (fin n -> R) -> fin n -> R) (y : R -> nat -> R) : Prop :=
  forall t (k : fin n), T t -> derivable_pt_lim (fun s => y s (proj1_sig k)) t (F (restrict (y t)) k).
(** The rate of the error that is left because the coefficients are decimals of 16 digits. *)
Definition ros_excess (M h : R) : R := / 10 ^ 15 * (M + M ^ 2 * h + 2 * M ^ 3 * h ^ 2 + 5 * M ^ 4 * h ^ 3).

(** The stepper as the integrate functions call it, do_step( system , x , t , dt ), with x updated in place and the
    error estimate written to the member m_x_err; the members keep whatever the steps before left. *)
Definition ros_stp (eps : R) (n : nat) (f : (nat -> R) -> R -> nat -> R) (jac : (nat -> R) -> R -> nat -> nat -> R) (dft : (nat -> R) -> R -> nat -> R)
  (m : rbuf (RNum eps)) (x : nat -> R) (t dt : R) : rbuf (RNum eps) * (nat -> R) :=
  let m' := ros_in_place (N := RNum eps) n f jac dft (default_rosenbrock (N := RNum eps)) m x (m RErr) t dt in (m', rread true m' RX).

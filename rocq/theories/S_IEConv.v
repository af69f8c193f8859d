(** Convergence of implicit_euler: vocabulary. *)
From Coq Require Import List Reals.
From Verif Require Import S_LU S_RosConv.
Local Open Scope R_scope.

(** Right-hand side and Jacobian of n components: Lipschitz with the constant [L] in the state; the matrices handed over
    are bounded by [M] in the maximum norm, they need not be the derivative. *)
Record ie_system (n : nat) (T : R -> Prop) (M L : R) (f : (nat -> R) -> R -> nat -> R) (jac : (nat -> R) -> R -> nat -> nat -> R) : Prop := {
  ies_f : forall x z t D, T t -> near_n n D x z -> near_n n (L * D) (f x t) (f z t);
  ies_jac : forall x t u r, T t -> (forall k, (k < n)%nat -> Rabs (u k) <= r) -> forall k, (k < n)%nat -> Rabs (mvec n (jac x t) u k) <= M * r
}.
(** A solution whose derivative is at most [B] and changes at rate at most [K]. *)
Record ie_solution (n : nat) (T : R -> Prop) (B K : R) (f : (nat -> R) -> R -> nat -> R) (y : R -> nat -> R) : Prop := {
  iso_conv : forall s u c, T s -> T u -> 0 <= c <= 1 -> T (s + c * (u - s));
  iso_diff : forall t k, T t -> (k < n)%nat -> derivable_pt_lim (fun s => y s k) t (f (y t) t k);
  iso_bnd : forall t k, T t -> (k < n)%nat -> Rabs (f (y t) t k) <= B;
  iso_rate : forall s t k, T s -> T t -> (k < n)%nat -> Rabs (f (y s) s k - f (y t) t k) <= K * Rabs (s - t)
}.
(** Rate of growth and constant of the local error for steps of width at most [H]. *)
Definition ie_growth (M L H : R) : R := L + 2 * M * L * H.
Definition ie_const (M L H B K : R) : R := L * B + 2 * M * (B + L * H * B) + K.
(** Error after the time [a] with steps of width [h] and the error [D] at the start. *)
Definition ie_error (M L H B K D h a : R) : R := exp (ie_growth M L H * a) * (D + ie_const M L H B K * h * a).

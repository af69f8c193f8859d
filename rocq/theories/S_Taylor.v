(** Smooth functions given with their derivatives; second order differential equations. *)
From Coq Require Import Reals.
Local Open Scope R_scope.

(** [F 0], [F 1], ..., [F m]: a function with its derivatives up to order [m] at the times in [T]. *)
Definition derivatives {I : Type} (T : R -> Prop) (m : nat) (F : nat -> R -> I -> R) : Prop :=
  forall k t i, (k < m)%nat -> T t -> derivable_pt_lim (fun s => F k s i) t (F (S k) t i).
(** The derivative of order [k] is bounded by [M]. *)
Definition deriv_bound {I : Type} (T : R -> Prop) (k : nat) (M : R) (F : nat -> R -> I -> R) : Prop :=
  forall t i, T t -> Rabs (F k t i) <= M.

(** [Y 0] solves y'' = f(y,y',t). *)
Definition solution2 {I : Type} (T : R -> Prop) (f : (I -> R) -> (I -> R) -> R -> (I -> R)) (Y : nat -> R -> I -> R) : Prop :=
  forall t i, T t -> Y 2%nat t i = f (Y 0%nat t) (Y 1%nat t) t i.
(** Lipschitz in the coordinate with [L], in the velocity with [Lv], in the maximum norm.  [Lv] = 0: the force
    does not depend on the velocity. *)
Definition lipschitz2 {I : Type} (T : R -> Prop) (L Lv : R) (f : (I -> R) -> (I -> R) -> R -> (I -> R)) : Prop :=
  forall q q' p p' t Dq Dp, T t -> (forall j, Rabs (q j - q' j) <= Dq) -> (forall j, Rabs (p j - p' j) <= Dp) ->
  forall i, Rabs (f q p t i - f q' p' t i) <= L * Dq + Lv * Dp.

(** velocity_verlet, steps of width at most [H]: rate of growth of the error; constant of the third order terms. *)
Definition vv_growth (L Lv H : R) : R := 1 + (L + Lv) * (1 + H + H * H * (L + Lv) / 4).
Definition vv_const (L Lv M H : R) : R := (Lv * M / 2 + M / 6) * (1 + H * L / 2) + 5 * M / 12.

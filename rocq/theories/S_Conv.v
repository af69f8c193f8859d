(** Convergence and stability of one-step methods: vocabulary. *)
From Coq Require Import List Reals.
From Verif Require Import M_Num M_RK S_RK.
Import ListNotations.
Local Open Scope R_scope.

Section S.
Context {I : Type}.
(** Lipschitz in the state, in the maximum norm, at the times in [T]. *)
Definition lipschitz (T : R -> Prop) (L : R) (f : (I -> R) -> R -> (I -> R)) : Prop :=
  forall x y t D, T t -> (forall j, Rabs (x j - y j) <= D) -> forall i, Rabs (f x t i - f y t i) <= L * D.

(** [y] is a solution of y' = f(y,t) at the times in [T]. *)
Definition solution (T : R -> Prop) (f : (I -> R) -> R -> (I -> R)) (y : R -> I -> R) : Prop :=
  forall t i, T t -> derivable_pt_lim (fun s => y s i) t (f (y t) t i).

(** The derivative of the solution changes at rate at most [K]. *)
Definition smooth (T : R -> Prop) (K : R) (f : (I -> R) -> R -> (I -> R)) (y : R -> I -> R) : Prop :=
  forall s t i, T s -> T t -> Rabs (f (y s) s i - f (y t) t i) <= K * Rabs (s - t).

End S.

(** Constants of a tableau: sums of the absolute values of the stage and of the result coefficients. *)
Definition stage_size {eps : R} (tb : tableau (RNum eps)) : R :=
  rsum (map (fun row => rsum (map Rabs row)) (tab_a tb)).
Definition weight_size {eps : R} (tb : tableau (RNum eps)) : R := rsum (map Rabs (tab_b tb)).

(** For steps of width at most [H]: rate of growth of a difference between two runs, and
    constant of the local error. *)
Definition growth {eps : R} (tb : tableau (RNum eps)) (L H : R) : R :=
  weight_size tb * L * (1 + H * L * stage_size tb) ^ length (tab_a tb).
Definition local_const {eps : R} (tb : tableau (RNum eps)) (L H K : R) : R :=
  K * (1 + weight_size tb * (1 + L * H) * (1 + H * L * stage_size tb) ^ length (tab_a tb)).

(** The times from [t0] on in direction [sg] up to [tend] (within the epsilon of the comparisons). *)
Definition span (eps t0 tend sg t : R) : Prop := 0 <= sg * (t - t0) /\ sg * (t - tend) <= eps.

(** A linear right-hand side of size at most [L] in the maximum norm. *)
Definition bounded_map {I : Type} (L : R) (A : (I -> R) -> (I -> R)) : Prop :=
  forall u D, (forall j, Rabs (u j) <= D) -> forall i, Rabs (A u i) <= L * D.

(** Consistency of order [p] along the solution [y]: one step of width [h], at most [H], that starts on the solution ends
    within E |h|^(p+1) of it. *)
Definition consistent {eps : R} {I : Type} (tb : tableau (RNum eps)) (f : (I -> R) -> R -> (I -> R)) (y : R -> I -> R)
  (T : R -> Prop) (H E : R) (p : nat) : Prop :=
  forall t h x', T t -> T (t + h) -> Rabs h <= H -> rk_result eps tb f (y t) t h x' ->
  forall i, Rabs (x' i - y (t + h) i) <= E * Rabs h ^ S p.

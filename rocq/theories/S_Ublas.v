(** The tolerance of matrix states. *)
From Coq Require Import List Reals.
From Verif Require Import S_RK S_CtrlRK.
Local Open Scope R_scope.

(** The elements of a matrix. *)
Definition elements (rows cols : nat) : list (nat * nat) := list_prod (seq 0 rows) (seq 0 cols).

(** What the user allows for one element. *)
Definition allowed {I : Type} (ea er ax adx : R) (x dx : I -> R) (dt : R) (i : I) : R :=
  ea + er * (ax * Rabs (x i) + adx * Rabs dt * Rabs (dx i)).

(** The used up fractions of the tolerance add up to at most 1 in every row. *)
Definition rows_within (rows cols : nat) (ea er ax adx : R) (x dx e : nat * nat -> R) (dt : R) : Prop :=
  forall i, (i < rows)%nat -> sumn cols (fun j => Rabs (e (i, j)) / allowed ea er ax adx x dx dt (i, j)) <= 1.

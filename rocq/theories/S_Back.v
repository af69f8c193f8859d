(** Specifications for the back ends: linear solvers, strided vectors, multi-dimensional arrays. *)
From Coq Require Import List Arith ZArith Reals.
Import ListNotations.

(** Matrix times vector in dimension [n]. *)
Definition matvec (n : nat) (A : nat -> nat -> R) (y : nat -> R) (r : nat) : R :=
  fold_right Rplus 0%R (map (fun c => (A r c * y c)%R) (seq 0 n)).

(** Every right-hand side has a solution. *)
Definition nonsingular (n : nat) (A : nat -> nat -> R) : Prop :=
  forall b : nat -> R, exists y : nat -> R, forall r, r < n -> matvec n A y r = b r.

(** A linear solver that is exact whenever there is a solution for every right-hand side; the start
    vector does not matter. *)
Definition exact_solver (n : nat)
  (solver : (nat -> nat -> R) -> (nat -> R) -> (nat -> R) -> (nat -> R)) : Prop :=
  forall A x0 b, nonsingular n A -> forall r, r < n -> matvec n A (solver A x0 b) r = b r.

(** The elements of a vector with [size] elements, [stride] apart, from position [start] on. *)
Definition strided {V} (block : list V) (start stride size : nat) : list (option V) :=
  map (fun i => nth_error block (start + i * stride)) (seq 0 size).

(** Linear systems over the reals, written independently of the elimination algorithm. *)
From Coq Require Import Reals Arith.
Local Open Scope R_scope.

Fixpoint sigma (n : nat) (g : nat -> R) : R :=
  match n with O => 0 | S k => sigma k g + g k end.

(** Component r of the product A x of an n x n matrix and a vector. *)
Definition mvec (n : nat) (A : nat -> nat -> R) (x : nat -> R) (r : nat) : R :=
  sigma n (fun c => A r c * x c).

(** A x = b. *)
Definition solves (n : nat) (A : nat -> nat -> R) (x b : nat -> R) : Prop :=
  forall r, (r < n)%nat -> mvec n A x r = b r.

(** Only the zero vector is mapped to zero. *)
Definition nonsingular (n : nat) (A : nat -> nat -> R) : Prop :=
  forall x, solves n A x (fun _ => 0) -> forall c, (c < n)%nat -> x c = 0.

Definition ident (r c : nat) : R := if Nat.eqb r c then 1 else 0.

(** Equality of the first n components. *)
Definition veq (n : nat) (x y : nat -> R) : Prop := forall r, (r < n)%nat -> x r = y r.

(** Smooth right-hand sides: Taylor's formula with multilinear derivatives. *)
From Coq Require Import List Reals.
From Verif Require Import S_RK.
Import ListNotations.
Local Open Scope R_scope.

Section Taylor.
Context {J : Type}.

(** Every component is at most [r]. *)
Definition bnd (r : R) (v : J -> R) : Prop := forall j, Rabs (v j) <= r.

(** [D y [u1;..;uk]] is the k-th derivative of [G] at the point [y] of [B] in the directions u1..uk: linear in
    each of them and bounded by [M] for k < p; Taylor's formula holds with the remainder M r^m, m <= p. *)
Record taylor (p : nat) (M : R) (B : (J -> R) -> Prop) (G : (J -> R) -> (J -> R)) (D : (J -> R) -> list (J -> R) -> (J -> R)) : Prop := {
  ty_lin : forall y l l' a b u v j, B y ->
    D y (l ++ (fun i => a * u i + b * v i) :: l') j = a * D y (l ++ u :: l') j + b * D y (l ++ v :: l') j;
  ty_bnd : forall y l rs j, B y -> (length l < p)%nat -> Forall2 bnd rs l -> Rabs (D y l j) <= M * fold_right Rmult 1 rs;
  ty_rem : forall y w r m j, B y -> (1 <= m <= p)%nat -> bnd r w ->
    Rabs (G (fun i => y i + w i) j - sumn m (fun k => D y (repeat w k) j / INR (fact k))) <= M * r ^ m
}.
End Taylor.

(** The right-hand side f(x,t) as a function of the point (x,t); the index [None] stands for the time. *)
Definition autonomous {I : Type} (f : (I -> R) -> R -> (I -> R)) (v : option I -> R) : option I -> R :=
  fun k => match k with None => 1 | Some i => f (fun i => v (Some i)) (v None) i end.
(** The point (x,t). *)
Definition point {I : Type} (x : I -> R) (t : R) : option I -> R :=
  fun k => match k with None => t | Some i => x i end.

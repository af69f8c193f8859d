(** Specification of Gragg's midpoint scheme and of polynomial extrapolation. *)
From Coq Require Import ZArith List Reals.
From Verif Require Import M_Num M_RK.
Import ListNotations.

(** [z] and [th] are the midpoint sequence and its nodes for x' = f(x,t) with
    sub-step [h], from [x] at time [t] with f(x,t) = [dx]; operations in the order
    of the code. *)
Record gragg {N : Num} {I : Type} (f : vec N I -> N -> vec N I) (x dx : vec N I) (t h : N)
    (z : nat -> vec N I) (th : nat -> N) : Prop := {
  gr_t0 : th 0%nat = t;
  gr_ts : forall m, th (S m) = nadd (th m) h;
  gr_z0 : z 0%nat = x;
  gr_z1 : forall i, z 1%nat i = nadd (nmul (nofZ 1) (x i)) (nmul h (dx i));
  gr_zs : forall m i, z (S (S m)) i
            = nadd (nmul (nofZ 1) (z m i)) (nmul (nmul (nofZ 2) h) (f (z (S m)) (th (S m)) i)) }.

(** Gragg's smoothing: (z_{n-1} + z_n + h f(z_n, t_n)) / 2. *)
Definition smoothed {N : Num} {I : Type} (f : vec N I -> N -> vec N I) (h : N)
    (z : nat -> vec N I) (th : nat -> N) (n : nat) : vec N I := fun i =>
  let half := ndiv (nofZ 1) (nofZ 2) in
  nadd (nadd (nmul half (z (n - 1)%nat i)) (nmul half (z n i))) (nmul (nmul half h) (f (z n) (th n) i)).

Local Open Scope R_scope.
(** Polynomials over R as coefficient lists. *)
Fixpoint peval (p : list R) (z : R) : R := match p with [] => 0 | a :: q => a + z * peval q z end.
Local Close Scope R_scope.

(** [y k] is the result of the modified midpoint method with [q k] sub-steps. *)
Definition mid_values {N : Num} {I : Type} (f : vec N I -> N -> vec N I) (q : nat -> nat) (x : vec N I) (t dt : N)
    (y : nat -> vec N I) : Prop :=
  forall k, exists z th, gragg f x (f x t) t (ndiv dt (nofnat (q k))) z th
    /\ y k = smoothed f (ndiv dt (nofnat (q k))) z th (q k).

(** Specifications for the splitting, parallel loop and norm theorems. *)
From Coq Require Import List ZArith Bool Arith Reals Permutation Floats.SpecFloat.
From Verif Require Import M_Num M_Par.
Import ListNotations.

(** [f 0], …, [f (p-1)] cut the interval [0,n) into consecutive pieces whose
    lengths differ by at most one. *)
Definition cuts (n p : Z) (f : Z -> option (Z * Z)) : Prop :=
  forall i, (0 <= i < p)%Z ->
  exists b e, f i = Some (b, e) /\ (0 <= b <= e)%Z /\ (e <= n)%Z /\
    (i = 0 -> b = 0)%Z /\ (i = p - 1 -> e = n)%Z /\
    (forall b' e', (i + 1 < p)%Z -> f (i + 1)%Z = Some (b', e') -> b' = e) /\
    (forall j b' e', (0 <= j < p)%Z -> f j = Some (b', e') ->
        (Z.abs ((e - b) - (e' - b')) <= 1)%Z).

(** What an operation does to the values of ONE component of its containers
    ([b]: which buffer a parameter refers to), independent of any loop. *)
Definition comp_step {V} (b : nat -> nat) (s : stmt V) (v : nat -> V) : nat -> V :=
  let x := s_rhs s (map (fun k => v (b k)) (s_args s)) in
  fun k => if k =? b (s_dst s) then x else v k.
Definition comp_run {V} (b : nat -> nat) (op : list (stmt V)) (v : nat -> V) : nat -> V :=
  fold_left (fun v s => comp_step b s v) op v.

(** The comparison of a number type as far as norms need it: a strict total order
    on the values satisfying [ok]; an absolute value is [ok] or compares greater
    than nothing (NaN). *)
Record norm_order (N : Num) (ok : N -> Prop) : Prop := {
  o_irr : forall x, ok x -> nlt x x = false;
  o_trans : forall x y z, ok x -> ok y -> ok z ->
            nlt x y = true -> nlt y z = true -> nlt x z = true;
  o_tri : forall x y, ok x -> ok y -> nlt x y = false -> nlt y x = false -> x = y;
  o_abs : forall x, ok (nabs x) \/ (forall y, nlt y (nabs x) = false);
  o_zero : ok (nofZ 0)
}.

(** [r] is the largest absolute value occurring in [l], and 0 if there is none
    above 0. *)
Definition is_max_abs {N : Num} (l : list N) (r : N) : Prop :=
  (forall x, In x l -> nlt r (nabs x) = false) /\
  (r = nofZ 0 \/ exists x, In x l /\ r = nabs x).

(** Over the real numbers, in plain words. *)
Definition is_max_abs_R (l : list R) (r : R) : Prop :=
  (forall x, In x l -> (Rabs x <= r)%R) /\
  (l = [] -> r = 0%R) /\ (l <> [] -> exists x, In x l /\ r = Rabs x).

(** Doubles that take part in comparisons: neither NaN nor negative zero. *)
Definition f64_ok (x : f64) : Prop := x <> S754_nan /\ x <> S754_zero true.

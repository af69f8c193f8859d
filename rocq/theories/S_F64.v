(** Exact values of doubles, in units of the smallest positive double 2^-1074. *)
From Coq Require Import ZArith.
From Coq Require Import Floats.SpecFloat.
From Verif Require Import M_Num.
Local Open Scope Z_scope.

(** [x] is a finite double in normal form with the value V * 2^-1074. *)
Definition units (x : f64) (V : Z) : Prop :=
  match x with
  | S754_zero _ => V = 0
  | S754_finite s m e => bounded 53 1024 m e = true /\ V = (if s then Zneg m else Zpos m) * 2 ^ (e + 1074)
  | _ => False
  end.

(** V * 2^-1074 is a number that a double can hold. *)
Definition exact_units (V : Z) : Prop := exists a k, Z.abs a < 2 ^ 53 /\ 0 <= k <= 2045 /\ V = a * 2 ^ k.

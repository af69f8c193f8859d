(** Constants of quadrature rules (weights, nodes in units of the step). *)
From Coq Require Import List Reals.
From Verif Require Import S_RK P_Poly.
Import ListNotations.
Local Open Scope R_scope.

(** Sum of the absolute values of the weights. *)
Definition rule_size (w : list R) : R := rsum (map Rabs w).
(** Error constant of a rule that is exact for degree < k. *)
Definition rule_const (w th : list R) (k : nat) : R :=
  / INR (fact (S k)) + qsum (map Rabs w) (map Rabs th) (fun z => z ^ k) / INR (fact k).

(** The bound at distance [a] from the start: [D] the initial error, [S] the errors of the starting steps,
    [E] the rate of the others. *)
Definition lmm_bound (G D S E a : R) : R := exp (G * a) * (D + S + E * a).

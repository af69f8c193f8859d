(** Specification: systems x' = p(t) with polynomial right-hand side, their antiderivatives, and
    repeated steps of bulirsch_stoer_dense_out. *)
From Coq Require Import List Arith Reals.
From Verif Require Import M_Num M_Run M_RK M_CtrlRK M_Midpoint M_BSDense S_Midpoint.
Import ListNotations.

(** Component [i] of the right-hand side is the polynomial [p i] in time, whatever the state. *)
Definition quadrature {I : Type} (p : I -> list R) (f : (I -> R) -> R -> I -> R) : Prop :=
  forall x t i, f x t i = peval (p i) t.
(** [P i] is an antiderivative of [p i]. *)
Definition antideriv {I : Type} (p : I -> list R) (P : I -> R -> R) : Prop :=
  forall i s, derivable_pt_lim (P i) s (peval (p i) s).
(** Every component has degree at most [n]. *)
Definition degree_le {I : Type} (n : nat) (p : I -> list R) : Prop := forall i, length (p i) <= S n.

(** [m] calls of do_step with one system. *)
Section Steps.
Context {N : Num} {I : Type}.
Variable idx : list I.
Variable pw : N -> N -> N.
Variable cfg : err_cfg N.
Variable max_dt : N.
Variable ctrl_interp : bool.
Variable sys : vec N I -> N -> vec N I.
Fixpoint bsd_steps (m : nat) (s : bsd N I) : res (bsd N I) :=
  match m with
  | O => Ok s
  | S m' => rbind (bsd_do_step idx pw cfg max_dt ctrl_interp sys s) (bsd_steps m')
  end.
End Steps.

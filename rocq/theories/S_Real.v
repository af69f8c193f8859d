(** Specification vocabulary over the reals. *)
From Coq Require Import List Reals.
Import ListNotations.
Local Open Scope R_scope.

(** Direction of integration: +1 for a positive step size, -1 otherwise. *)
Definition dir (dt : R) : R := if Rlt_dec 0 dt then 1 else -1.

(** [l] is a list of steps (start, width), adjacent to each other, leading from a to b. *)
Fixpoint chain (a : R) (l : list (R * R)) (b : R) : Prop :=
  match l with
  | [] => a = b
  | (t, d) :: r => t = a /\ chain (a + d) r b
  end.

(** Strictly monotone in direction [sg]. *)
Fixpoint strictly_mono (sg : R) (l : list R) : Prop :=
  match l with
  | [] => True
  | a :: r => match r with [] => True | b :: _ => 0 < sg * (b - a) end /\ strictly_mono sg r
  end.

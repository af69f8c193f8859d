(** Specification vocabulary for observer_collection: members with private logs. *)
From Coq Require Import List Arith.
From Verif Require Import M_Num M_Run.
Import ListNotations.

Section Logs.
Context {N : Num} {X : Type}.
Notation V := (ev X (carrier N)).
Notation logs := (list (list (X * carrier N))).

(** Append a pair to log number i. *)
Definition log_at (i : nat) (l : logs) (p : X * N) : logs :=
  firstn i l ++ match skipn i l with [] => [] | h :: r => (h ++ [p]) :: r end.
(** Member i appends every pair it is shown to log number i and does nothing else. *)
Definition log_members (n : nat) : list (logs -> X -> N -> M V logs) :=
  map (fun i l x t => ([], Ok (log_at i l (x, t)))) (seq 0 n).

End Logs.

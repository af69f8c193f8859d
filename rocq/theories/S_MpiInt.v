(** Specification: a rank's view of a serial run of an integrate function. *)
From Coq Require Import List.
From Verif Require Import M_Num M_Run M_RK S_Mpi.

(** A call of the observer on rank [r] and the call in the serial run: one time, its part. *)
Definition obs_part {N : Num} (sz : nat -> nat) (r : nat) (o : vec N nat * N)
  (e : ev (vec N (nat * nat)) N) : Prop :=
  exists X, e = EObs X (snd o) /\ part_of sz r (fst o) X.

(** The outcomes: the same exception, or the same times and number of steps and the rank's part of
    the final state. *)
Definition out_part {N : Num} {S W : Type} (sz : nat -> nat) (r : nat)
  (o : res (vec N nat * N * N * nat)) (O : res (S * W * vec N (nat * nat) * N * N * nat)) : Prop :=
  match o, O with
  | Ok (x, t, dt, n), Ok (_, _, X, t', dt', n') => part_of sz r x X /\ t = t' /\ dt = dt' /\ n = n'
  | Exc e, Exc e' => e = e'
  | UB, UB => True
  | Fuel, Fuel => True
  | _, _ => False
  end.

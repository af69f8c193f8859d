(** Specification of step checking on event traces. *)
From Coq Require Import List Arith.
From Verif Require Import M_Run.
Import ListNotations.

Section Spec.
Context {X T : Type}.

(** Completed steps: do_step of a plain or dense stepper, successful try_step. *)
Definition is_step (e : ev X T) : bool :=
  match e with EStep _ _ _ | ETry _ _ _ true | EDo _ _ _ => true | _ => false end.
Definition is_obs (e : ev X T) : bool := match e with EObs _ _ => true | _ => false end.

(** Number of completed steps since the last observation (since the start if there is none). *)
Definition steps_since (tr : list (ev X T)) : nat :=
  fold_left (fun c e => if is_obs e then 0 else if is_step e then S c else c) tr 0.

(** At some point of the run more than [m] steps have happened since the last observation. *)
Definition violates (m : nat) (tr : list (ev X T)) : Prop :=
  exists a b, tr = a ++ b /\ m < steps_since a.

Definition map_res {A B} (f : A -> B) (r : res A) : res B :=
  match r with Ok a => Ok (f a) | Exc e => Exc e | UB => UB | Fuel => Fuel end.

(** [ch] is the run [un] under a checker with limit [m]: without violation they agree ([K] adds the
    final counter to the result); otherwise [ch] stops with no_progress_error at the first
    violating step -- before it if [pre]. *)
Definition checked_run {A B} (m : nat) (pre : bool) (K : nat -> A -> B)
  (un : M (ev X T) A) (ch : M (ev X T) B) : Prop :=
  (~ violates m (trace_of un) ->
     ch = (trace_of un, map_res (K (steps_since (trace_of un))) (result_of un))) /\
  (violates m (trace_of un) -> exists a e b,
     trace_of un = a ++ e :: b /\ ~ violates m a /\ steps_since a = m /\ is_step e = true /\
     ch = (if pre then a else a ++ [e], Exc NoProgress)).
End Spec.

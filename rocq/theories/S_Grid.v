(** Specification vocabulary for the integrate functions: grids, schedules of
    calls, projections of event traces.  Nothing here refers to the loops of the model. *)
From Coq Require Import List Arith ZArith.
From Verif Require Import M_Num M_Run.
Import ListNotations.
Local Open Scope num_scope.
Local Open Scope run_scope.

(** Times of the equidistant grid: t0, then t0 + k*dt computed by one multiplication. *)
Definition grid {N : Num} (t0 dt : N) (k : nat) : N :=
  match k with O => t0 | S _ => t0 + nofnat k * dt end.

(** What a driver does to the outside: call the observer, or make a step. *)
Inductive cmd (T : Type) := CObs (t : T) | CStep (t dt : T).
Arguments CObs {T}. Arguments CStep {T}.

(** Observe, step, observe, step, ..., observe on the grid with n steps. *)
Definition grid_schedule {N : Num} (t0 dt : N) (n : nat) : list (cmd N) :=
  flat_map (fun k => [CObs (grid t0 dt k); CStep (grid t0 dt k) dt]) (seq 0 n)
  ++ [CObs (grid t0 dt n)].

(** Carry out a schedule; an exception of the observer or the stepper ends the run. *)
Section Exec.
Context {N : Num} {S W X : Type}.
Notation V := (ev X (carrier N)).
Variable obs     : W -> X -> N -> M V W.
Variable do_step : S -> W -> X -> N -> N -> M V (S * W * X).
Fixpoint exec (cs : list (cmd N)) (s : S) (w : W) (x : X) : M V (S * W * X) :=
  match cs with
  | [] => ret (s, w, x)
  | CObs t :: r => let* w1 := obs w x t in exec r s w1 x
  | CStep t dt :: r => let* (s1, w1, x1) := do_step s w x t dt in exec r s1 w1 x1
  end.
End Exec.

(** Stepper object and state after k steps of a (non-throwing) stepper on the grid. *)
Fixpoint after {N : Num} {S X : Type} (f : S -> X -> N -> N -> S * X) (t0 dt : N)
  (s : S) (x : X) (k : nat) : S * X :=
  match k with
  | O => (s, x)
  | Datatypes.S k' => let (s', x') := after f t0 dt s x k' in f s' x' (grid t0 dt k') dt
  end.

(** Projections of an event trace. *)
Section Proj.
Context {X T : Type}.
Definition obs_of (tr : list (ev X T)) : list (X * T) :=
  flat_map (fun e => match e with EObs x t => [(x, t)] | _ => [] end) tr.
Definition steps_of (tr : list (ev X T)) : list (X * T * T) :=
  flat_map (fun e => match e with EStep x t dt => [(x, t, dt)] | _ => [] end) tr.
(** try_step calls: state, time, attempted step, verdict. *)
Definition tries_of (tr : list (ev X T)) : list (X * T * T * bool) :=
  flat_map (fun e => match e with ETry x t dt ok => [(x, t, dt, ok)] | _ => [] end) tr.
Definition accepted_of (tr : list (ev X T)) : list (X * T * T) :=
  flat_map (fun e => match e with ETry x t dt true => [(x, t, dt)] | _ => [] end) tr.
(** do_step calls of a dense output stepper: current_time before and after. *)
Definition dos_of (tr : list (ev X T)) : list (T * T) :=
  flat_map (fun e => match e with EDo a b _ => [(a, b)] | _ => [] end) tr.
Definition calcs_of (tr : list (ev X T)) : list T :=
  flat_map (fun e => match e with ECalc t _ => [t] | _ => [] end) tr.
End Proj.

(** N is the first index at which a condition fails. *)
Definition first_false (p : nat -> bool) (n : nat) : Prop :=
  (forall k, k < n -> p k = true) /\ p n = false.

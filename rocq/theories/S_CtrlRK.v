(** Specification vocabulary for step size controllers. *)
From Coq Require Import List Reals.
From Verif Require Import S_Real.
Import ListNotations.

(** ** Real power for nonnegative bases (C's pow): 0^y = 0 for y > 0. *)
Local Open Scope R_scope.
Definition rpow (x y : R) : R := if Req_EM_T x 0 then 0 else Rpower x y.

(** Every component of the error estimate [e] is within the tolerance of the user,
    [x] and [dx] being the state and its derivative at the start of the step. *)
Definition within_tol {I : Type} (idx : list I) (ea er ax adx : R) (x dx e : I -> R) (dt : R) : Prop :=
  forall i, In i idx -> Rabs (e i) <= ea + er * (ax * Rabs (x i) + adx * Rabs dt * Rabs (dx i)).

(** Sensible tolerances. *)
Definition good_tol (ea er ax adx : R) : Prop := 0 < ea /\ 0 <= er /\ 0 <= ax /\ 0 <= adx.

(** The step limit is off or has the direction of the step. *)
Definition agrees (dt max_dt : R) : Prop := max_dt = 0 \/ 0 < dir dt * max_dt.

Local Close Scope R_scope.

(** ** Sequences of calls of a controlled stepper by a caller that goes on from
    the current state and time, or starts again elsewhere after reset(). *)
Inductive call (X T : Type) :=
| Attempt (resized : bool) (dt : T)   (* try_step( sys , x , t , dt ) *)
| Restart (x : X) (t : T).            (* reset() and go on from x, t *)
Arguments Attempt {X T}. Arguments Restart {X T}.

Section Drive.
Context {C X T : Type}.
Variable try : bool -> C -> X -> T -> T -> C * X * T * T * bool.
Variable reset : C -> C.
(** What the caller sees: state, time, proposed step, verdict after each attempt. *)
Fixpoint drive (c : C) (x : X) (t : T) (l : list (call X T)) : list (X * T * T * bool) :=
  match l with
  | [] => []
  | Attempt rs dt :: r =>
      let '(c', x', t', dt', ok) := try rs c x t dt in (x', t', dt', ok) :: drive c' x' t' r
  | Restart x1 t1 :: r => drive (reset c) x1 t1 r
  end.
End Drive.

(** The same attempts, each made by the newly constructed stepper [c0]. *)
Definition drive_fresh {C X T : Type} (try : bool -> C -> X -> T -> T -> C * X * T * T * bool)
  (c0 : C) (x : X) (t : T) (l : list (call X T)) : list (X * T * T * bool) :=
  drive (fun rs _ x t dt => let '(_, x', t', dt', ok) := try rs c0 x t dt in (tt, x', t', dt', ok))
        (fun u => u) tt x t l.

(** The root mean square of the scaled errors is at most 1: the sum over the components
    of (error / scale)^2 is at most the number of components. *)
Local Open Scope R_scope.
Definition rms_within {I : Type} (idx : list I) (atol rtol : R) (xold xnew e : I -> R) : Prop :=
  fold_right (fun i s => (e i / (atol + rtol * Rmax (Rabs (xold i)) (Rabs (xnew i)))) ^ 2 + s) 0 idx
  <= INR (length idx).

(** Results and event traces of the modelled functions. *)
From Coq Require Import List.
Import ListNotations.

(** C++ exceptions thrown by the library (util/odeint_error.hpp) or by user code. *)
Inductive exn :=
| NoProgress        (* no_progress_error,     integrate/max_step_checker.hpp:73 *)
| StepAdjustment    (* step_adjustment_error, integrate/max_step_checker.hpp:105 *)
| Overflow          (* std::overflow_error,   iterator/impl/adaptive_iterator_impl.hpp:125 *)
| UserExn (code : nat). (* anything thrown by a system function or observer *)

(** Outcome of a call: normal return, exception, undefined behaviour, or the
    model's loop bound exhausted ([Fuel] is an artefact of the model: it is
    never confused with a normal return). *)
(* No counterpart in /repo: outcomes and event traces of a run. *)
Inductive res (A : Type) :=
| Ok (a : A)
| Exc (e : exn)
| UB
| Fuel.
Arguments Ok {A}. Arguments Exc {A}. Arguments UB {A}. Arguments Fuel {A}.

(** Observable events of a run, in chronological order. *)
(* No counterpart in /repo: outcomes and event traces of a run. *)
Inductive ev (X T : Type) :=
| EObs  (x : X) (t : T)                     (* observer( x , t ) *)
| EStep (x : X) (t dt : T)                  (* stepper.do_step( sys , x , t , dt ) *)
| ETry  (x : X) (t dt : T) (ok : bool)      (* stepper.try_step( sys , x , t , dt ) and its verdict *)
| EInit (x : X) (t dt : T)                  (* dense stepper.initialize( x , t , dt ) *)
| EDo   (t0 t1 : T) (x1 : X)                (* dense stepper.do_step( sys ): current_time before / after, new current_state *)
| ECalc (t : T) (x : X).                    (* dense stepper.calc_state( t , x ) and the state written *)
Arguments EObs {X T}. Arguments EStep {X T}. Arguments ETry {X T}.
Arguments EInit {X T}. Arguments EDo {X T}. Arguments ECalc {X T}.

(** A run: the events emitted and the outcome. *)
(* No counterpart in /repo: outcomes and event traces of a run. *)
Definition M (V A : Type) : Type := (list V * res A)%type.

(* No counterpart in /repo: outcomes and event traces of a run. *)
Definition ret {V A} (a : A) : M V A := ([], Ok a).
(* No counterpart in /repo: outcomes and event traces of a run. *)
Definition fail {V A} (r : res A) : M V A := ([], r).

(* No counterpart in /repo: outcomes and event traces of a run. *)
Definition bind {V A B} (m : M V A) (f : A -> M V B) : M V B :=
  match m with
  | (tr, Ok a)  => let (tr', r) := f a in (tr ++ tr', r)
  | (tr, Exc e) => (tr, Exc e)
  | (tr, UB)    => (tr, UB)
  | (tr, Fuel)  => (tr, Fuel)
  end.

Declare Scope run_scope.
Delimit Scope run_scope with run.
Notation "'let*' x ':=' m 'in' f" := (bind m (fun x => f))
  (at level 200, x pattern, m at level 100, f at level 200, right associativity) : run_scope.

(* No counterpart in /repo: outcomes and event traces of a run. *)
Definition trace_of {V A} (m : M V A) : list V := fst m.
(* No counterpart in /repo: outcomes and event traces of a run. *)
Definition result_of {V A} (m : M V A) : res A := snd m.

(** ** Standard observers and steppers as run-valued functions. *)
Section Std.
Context {T X S W : Type}.

(** null_observer, integrate/null_observer.hpp:27-32: does nothing. *)
Definition null_obs (w : W) (x : X) (t : T) : M (ev X T) W := ([], Ok w).

(** A user observer: the call is an event; the observer may change the world or throw. *)
(* Source: An observer called as obs( x , t ), integrate/detail/integrate_const.hpp:57. *)
Definition user_obs (f : W -> X -> T -> res W) (w : W) (x : X) (t : T) : M (ev X T) W :=
  ([EObs x t], f w x t).

(** A recording observer without side effects on the run. *)
(* Source: An observer called as obs( x , t ), integrate/detail/integrate_const.hpp:57. *)
Definition rec_obs (w : W) (x : X) (t : T) : M (ev X T) W := ([EObs x t], Ok w).

(** A plain stepper that does not throw: [f] maps stepper object and state to their new values. *)
(* Source: A stepper called as in integrate/detail/integrate_const.hpp:58. *)
Definition plain_step (f : S -> X -> T -> T -> S * X) (s : S) (w : W) (x : X) (t dt : T)
  : M (ev X T) (S * W * X) :=
  let (s', x') := f s x t dt in ([EStep x t dt], Ok (s', w, x')).

(** A controlled stepper that does not throw: new stepper object, state, time, step size, verdict. *)
(* Source: A stepper called as in integrate/detail/integrate_adaptive.hpp:103. *)
Definition ctrl_step (f : S -> X -> T -> T -> S * X * T * T * bool) (s : S) (w : W) (x : X) (t dt : T)
  : M (ev X T) (S * W * X * T * T * bool) :=
  let '(s', x', t', dt', ok) := f s x t dt in ([ETry x t dt ok], Ok (s', w, x', t', dt', ok)).
End Std.

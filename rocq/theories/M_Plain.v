(** Integrate functions for plain steppers (stepper_tag).

    [S] is the stepper object (copied when it is passed by value), [W] everything
    reached through references (observer state, step checkers, boost::ref-wrapped
    steppers), [X] the state of the ODE, [N] the number type.  The system function
    is part of [do_step]. *)
From Coq Require Import List Arith ZArith.
From Verif Require Import M_Num M_Sign M_Run.
Import ListNotations.
Local Open Scope num_scope.
Local Open Scope run_scope.

Section Plain.
Context {N : Num} {S W X : Type}.
Notation V := (ev X (carrier N)).
Variable obs     : W -> X -> N -> M V W.                     (* observer call *)
Variable do_step : S -> W -> X -> N -> N -> M V (S * W * X). (* stepper.do_step( sys , x , t , dt ) *)

(** integrate_n_steps(stepper_tag), integrate/detail/integrate_n_steps.hpp:43-65.
    [todo] iterations remain, [step] are done; the time after iteration [step]
    is [start + (step+1)*dt] (line 60). Returns stepper, world, state, time. *)
Fixpoint ins_loop (t0 dt : N) (todo step : nat) (s : S) (w : W) (x : X) (time : N)
  : M V (S * W * X * N) :=
  match todo with
  | O => let* w1 := obs w x time in ret (s, w1, x, time)
  | Datatypes.S todo' =>
      let* w1 := obs w x time in
      let* (s2, w2, x2) := do_step s w1 x time dt in
      ins_loop t0 dt todo' (Datatypes.S step) s2 w2 x2
               (t0 + nofnat (Datatypes.S step) * dt)
  end.

(* Source: integrate/detail/integrate_n_steps.hpp:43-66. *)
Definition integrate_n_steps (s : S) (w : W) (x : X) (t0 dt : N) (n : nat)
  : M V (S * W * X * N) := ins_loop t0 dt n 0 s w x t0.

(** integrate_const(stepper_tag), integrate/detail/integrate_const.hpp:42-68. *)
Fixpoint ic_loop (fuel : nat) (t0 tend dt : N) (step : nat) (s : S) (w : W) (x : X) (time : N)
  : M V (S * W * X * nat) :=
  match fuel with
  | O => fail Fuel
  | Datatypes.S fuel' =>
      if less_eq_with_sign (time + dt) tend dt then
        let* w1 := obs w x time in
        let* (s2, w2, x2) := do_step s w1 x time dt in
        ic_loop fuel' t0 tend dt (Datatypes.S step) s2 w2 x2
                (t0 + nofnat (Datatypes.S step) * dt)
      else
        let* w1 := obs w x time in ret (s, w1, x, step)
  end.

(* Source: integrate/detail/integrate_const.hpp:42-69. *)
Definition integrate_const (fuel : nat) (s : S) (w : W) (x : X) (t0 tend dt : N)
  : M V (S * W * X * nat) := ic_loop fuel t0 tend dt 0 s w x t0.

(** integrate_adaptive(stepper_tag), integrate/detail/integrate_adaptive.hpp:54-74.
    integrate_const receives the stepper by value, so the last step (line 69) is
    made with the stepper object [s] this function was given. *)
Definition integrate_adaptive_plain (fuel : nat) (s : S) (w : W) (x : X) (t0 tend dt : N)
  : M V (S * W * X * nat) :=
  let* (_, w1, x1, steps) := integrate_const fuel s w x t0 tend dt in
  let end_ := t0 + dt * nofnat steps in
  if less_with_sign end_ tend dt then
    let* (s2, w2, x2) := do_step s w1 x1 end_ (tend - end_) in
    let* w3 := obs w2 x2 tend in
    ret (s2, w3, x2, Datatypes.S steps)
  else ret (s, w1, x1, steps).

(** integrate_times(stepper_tag), integrate/detail/integrate_times.hpp:42-73.
    Inner loop, lines 64-70: [cur] is current_time, [cdt] current_dt. *)
Fixpoint it_inner (fuel : nat) (dt target : N) (s : S) (w : W) (x : X) (cur cdt : N) (steps : nat)
  : M V (S * W * X * N * nat) :=
  match fuel with
  | O => fail Fuel
  | Datatypes.S fuel' =>
      if less_with_sign cur target cdt then
        let cdt' := min_abs dt (target - cur) in
        let* (s2, w2, x2) := do_step s w x cur cdt' in
        it_inner fuel' dt target s2 w2 x2 (cur + cdt') cdt' (Datatypes.S steps)
      else ret (s, w, x, cdt, steps)
  end.

(** Outer loop, lines 58-71; dereferencing the end of the range is undefined. *)
Fixpoint it_outer (fuel : nat) (dt : N) (times : list N) (s : S) (w : W) (x : X) (cdt : N) (steps : nat)
  : M V (S * W * X * nat) :=
  match times with
  | [] => fail UB
  | t :: rest =>
      let* w1 := obs w x t in
      match rest with
      | [] => ret (s, w1, x, steps)
      | target :: _ =>
          let* (s2, w2, x2, cdt2, steps2) := it_inner fuel dt target s w1 x t cdt steps in
          it_outer fuel dt rest s2 w2 x2 cdt2 steps2
      end
  end.

(* Source: integrate/detail/integrate_times.hpp:42-73. *)
Definition integrate_times_plain (fuel : nat) (s : S) (w : W) (x : X) (times : list N) (dt : N)
  : M V (S * W * X * nat) := it_outer fuel dt times s w x dt 0.

End Plain.

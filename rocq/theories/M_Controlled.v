(** Integrate functions for controlled steppers (controlled_stepper_tag). *)
From Coq Require Import List Arith ZArith.
From Verif Require Import M_Num M_Sign M_Run M_Checker.
Import ListNotations.
Local Open Scope num_scope.
Local Open Scope run_scope.

Section Controlled.
Context {N : Num} {S W X : Type}.
Notation V := (ev X (carrier N)).

(** try_step( sys , x , t , dt ): new stepper, world, state, time, dt, [true] = success. *)
Variable try_step : S -> W -> X -> N -> N -> M V (S * W * X * N * N * bool).

(** The do-while loop of integrate/detail/integrate_adaptive.hpp:101-106; [cnt] is the
    counter of fail_checker, which is incremented after every attempt (line 104). *)
Fixpoint try_loop (fuel : nat) (cnt : nat) (s : S) (w : W) (x : X) (t dt : N)
  : M V (S * W * X * N * N) :=
  match fuel with
  | O => fail Fuel
  | Datatypes.S fuel' =>
      let* (s1, w1, x1, t1, dt1, ok) := try_step s w x t dt in
      let* cnt1 := fail (fail_check cnt) in
      if (ok : bool) then ret (s1, w1, x1, t1, dt1)
      else try_loop fuel' cnt1 s1 w1 x1 t1 dt1
  end.

Section Adaptive.
Variable obs : W -> X -> N -> M V W.

(** integrate_adaptive(controlled_stepper_tag), integrate/detail/integrate_adaptive.hpp:80-113.
    start_time and dt are references, their final values are returned too. The fail
    counter is 0 at the start of every step (line 107 resets it).  [fuel] bounds the
    number of steps; one step needs at most 501 attempts (fail_checker), so the inner
    loop gets fuel 502. *)
Fixpoint ia_loop (fuel : nat) (tend : N) (s : S) (w : W) (x : X) (t dt : N) (count : nat)
  : M V (S * W * X * N * N * nat) :=
  match fuel with
  | O => fail Fuel
  | Datatypes.S fuel' =>
      if less_with_sign t tend dt then
        let* w1 := obs w x t in
        let dt1 := if less_with_sign tend (t + dt) dt then tend - t else dt in
        let* (s2, w2, x2, t2, dt2) := try_loop (2 + default_max_steps) 0 s w1 x t dt1 in
        ia_loop fuel' tend s2 w2 x2 t2 dt2 (Datatypes.S count)
      else
        let* w1 := obs w x t in ret (s, w1, x, t, dt, count)
  end.

(* Source: integrate/detail/integrate_adaptive.hpp:80-113. *)
Definition integrate_adaptive_ctrl (fuel : nat) (s : S) (w : W) (x : X) (t0 tend dt : N)
  : M V (S * W * X * N * N * nat) := ia_loop fuel tend s w x t0 dt 0.
End Adaptive.

Variable obs : W -> X -> N -> M V W.

(** integrate_const(controlled_stepper_tag), integrate/detail/integrate_const.hpp:72-101.
    The stepper is passed by value to integrate_adaptive (line 90), so the object [s] of
    this function never changes; [dt] is passed by reference (line 91) and changes; the loop
    condition (line 86) uses the changed dt for the direction. *)
Fixpoint icc_loop (fuel : nat) (t0 tend time_step : N) (step real : nat) (s : S) (w : W) (x : X) (time dt : N)
  : M V (W * X * nat) :=
  match fuel with
  | O => fail Fuel
  | Datatypes.S fuel' =>
      if less_eq_with_sign (time + time_step) tend dt then
        let* w1 := obs w x time in
        let* (_, w2, x2, _, dt2, k) :=
           integrate_adaptive_ctrl null_obs fuel' s w1 x time (time + time_step) dt in
        icc_loop fuel' t0 tend time_step (Datatypes.S step) (real + k) s w2 x2
                 (t0 + nofnat (Datatypes.S step) * time_step) dt2
      else
        let* w1 := obs w x time in ret (w1, x, real)
  end.

(* Source: integrate/detail/integrate_const.hpp:72-101. *)
Definition integrate_const_ctrl (fuel : nat) (s : S) (w : W) (x : X) (t0 tend dt : N)
  : M V (W * X * nat) := icc_loop fuel t0 tend dt 0 0 s w x t0 dt.

(** integrate_n_steps(controlled_stepper_tag), integrate/detail/integrate_n_steps.hpp:69-93. *)
Fixpoint insc_loop (fuel : nat) (t0 time_step : N) (todo step : nat) (s : S) (w : W) (x : X) (time dt : N)
  : M V (W * X * N) :=
  match todo with
  | O => let* w1 := obs w x time in ret (w1, x, time)
  | Datatypes.S todo' =>
      let* w1 := obs w x time in
      let* (_, w2, x2, _, dt2, _) :=
         integrate_adaptive_ctrl null_obs fuel s w1 x time (time + time_step) dt in
      insc_loop fuel t0 time_step todo' (Datatypes.S step) s w2 x2
                (t0 + nofnat (Datatypes.S step) * time_step) dt2
  end.

(* Source: integrate/detail/integrate_n_steps.hpp:69-93. *)
Definition integrate_n_steps_ctrl (fuel : nat) (s : S) (w : W) (x : X) (t0 dt : N) (n : nat)
  : M V (W * X * N) := insc_loop fuel t0 dt n 0 s w x t0 dt.

(** integrate_times(controlled_stepper_tag), integrate/detail/integrate_times.hpp:78-117.
    Inner loop, lines 97-114; [cnt] is the counter of fail_checker (called only after a
    failed attempt, line 111; reset after a success, line 105). *)
Fixpoint itc_inner (fuel : nat) (target : N) (cnt : nat) (s : S) (w : W) (x : X) (cur dt : N) (steps : nat)
  : M V (S * W * X * N * nat * nat) :=
  match fuel with
  | O => fail Fuel
  | Datatypes.S fuel' =>
      if less_with_sign cur target dt then
        let cdt := min_abs dt (target - cur) in
        let* (s1, w1, x1, t1, cdt1, ok) := try_step s w x cur cdt in
        if (ok : bool) then
          itc_inner fuel' target 0 s1 w1 x1 t1 (max_abs dt cdt1) (Datatypes.S steps)
        else
          let* cnt1 := fail (fail_check cnt) in
          itc_inner fuel' target cnt1 s1 w1 x1 t1 cdt1 steps
      else ret (s, w, x, dt, cnt, steps)
  end.

(** Outer loop, lines 91-115. *)
Fixpoint itc_outer (fuel : nat) (times : list N) (cnt : nat) (s : S) (w : W) (x : X) (dt : N) (steps : nat)
  : M V (S * W * X * nat) :=
  match times with
  | [] => fail UB
  | t :: rest =>
      let* w1 := obs w x t in
      match rest with
      | [] => ret (s, w1, x, steps)
      | target :: _ =>
          let* (s2, w2, x2, dt2, cnt2, steps2) := itc_inner fuel target cnt s w1 x t dt steps in
          itc_outer fuel rest cnt2 s2 w2 x2 dt2 steps2
      end
  end.

(* Source: integrate/detail/integrate_times.hpp:78-117. *)
Definition integrate_times_ctrl (fuel : nat) (s : S) (w : W) (x : X) (times : list N) (dt : N)
  : M V (S * W * X * nat) := itc_outer fuel times 0 s w x dt 0.

End Controlled.

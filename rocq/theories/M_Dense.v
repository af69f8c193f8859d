(** Integrate functions for dense output steppers (dense_output_stepper_tag). *)
From Coq Require Import List Arith ZArith.
From Verif Require Import M_Num M_Sign M_Run.
Import ListNotations.
Local Open Scope num_scope.
Local Open Scope run_scope.

(** The interface of a dense output stepper used by the integrate functions:
    initialize, do_step, calc_state, current_time, current_state, current_time_step
    (forwarded one to one in integrate/check_adapter.hpp:150-183). *)
Record DenseOps (N : Num) (S W X : Type) := {
  d_init : S -> X -> N -> N -> S;
  d_step : S -> W -> M (ev X (carrier N)) (S * W);
  d_calc : S -> N -> X;
  d_t    : S -> N;
  d_x    : S -> X;
  d_dt   : S -> N
}.
Arguments d_init {N S W X}. Arguments d_step {N S W X}. Arguments d_calc {N S W X}.
Arguments d_t {N S W X}. Arguments d_x {N S W X}. Arguments d_dt {N S W X}.

Section Dense.
Context {N : Num} {S W X : Type}.
Notation V := (ev X (carrier N)).
Variable D : DenseOps N S W X.
Variable obs : W -> X -> N -> M V W.

(** st.initialize( x , t , dt ). *)
(* Source: The calls of initialize, e.g. integrate/detail/integrate_adaptive.hpp:130,142. *)
Definition call_init (s : S) (x : X) (t dt : N) : M V S :=
  ([EInit x t dt], Ok (d_init D s x t dt)).
(** st.calc_state( t , x ): the new value of x. *)
(* Source: The calls of calc_state, e.g. integrate/detail/integrate_const.hpp:127. *)
Definition call_calc (s : S) (t : N) : M V X := ([ECalc t (d_calc D s t)], Ok (d_calc D s t)).

(** The line "st.initialize( st.current_state() , st.current_time() , end_time - st.current_time() )"
    that shortens the step to the end point (integrate_const.hpp:145, integrate_adaptive.hpp:142,
    integrate_n_steps.hpp:134 and 145, integrate_times.hpp:164). *)
Definition reinit_to (s : S) (tend : N) : M V S :=
  call_init s (d_x D s) (d_t D s) (tend - d_t D s).

(** integrate_adaptive(dense_output_stepper_tag), integrate/detail/integrate_adaptive.hpp:121-150.
    Inner loop, lines 133-140. *)
Fixpoint iad_inner (fuel : nat) (tend : N) (s : S) (w : W) (count : nat) : M V (S * W * nat) :=
  match fuel with
  | O => fail Fuel
  | Datatypes.S fuel' =>
      if less_eq_with_sign (d_t D s + d_dt D s) tend (d_dt D s) then
        let* w1 := obs w (d_x D s) (d_t D s) in
        let* (s2, w2) := d_step D s w1 in
        iad_inner fuel' tend s2 w2 (Datatypes.S count)
      else ret (s, w, count)
  end.

(** Outer loop, lines 131-143. *)
Fixpoint iad_outer (fuel : nat) (tend : N) (s : S) (w : W) (count : nat) : M V (S * W * nat) :=
  match fuel with
  | O => fail Fuel
  | Datatypes.S fuel' =>
      if less_with_sign (d_t D s) tend (d_dt D s) then
        let* (s1, w1, c1) := iad_inner fuel' tend s w count in
        let* s2 := reinit_to s1 tend in
        iad_outer fuel' tend s2 w1 c1
      else ret (s, w, count)
  end.

(** Whole function; returns stepper, world, caller's state, count. *)
(* Source: integrate/detail/integrate_adaptive.hpp:121-150. *)
Definition integrate_adaptive_dense (fuel : nat) (s : S) (w : W) (x : X) (t0 tend dt : N)
  : M V (S * W * X * nat) :=
  let* s1 := call_init s x t0 dt in
  let* (s2, w2, count) := iad_outer fuel tend s1 w 0 in
  let* w3 := obs w2 (d_x D s2) (d_t D s2) in
  ret (s2, w3, d_x D s2, count).

(** integrate_const(dense_output_stepper_tag), integrate/detail/integrate_const.hpp:104-162.
    Observation loop, lines 125-133. *)
Fixpoint icd_obs (fuel : nat) (t0 dt : N) (s : S) (w : W) (x : X) (time : N) (k : nat)
  : M V (W * X * N * nat) :=
  match fuel with
  | O => fail Fuel
  | Datatypes.S fuel' =>
      if less_eq_with_sign time (d_t D s) dt then
        let* x1 := call_calc s time in
        let* w1 := obs w x1 time in
        icd_obs fuel' t0 dt s w1 x1 (t0 + nofnat (Datatypes.S k) * dt) (Datatypes.S k)
      else ret (w, x, time, k)
  end.

(** Stepping loop, lines 139-143. *)
Fixpoint icd_steps (fuel : nat) (dt time : N) (s : S) (w : W) (real : nat) : M V (S * W * nat) :=
  match fuel with
  | O => fail Fuel
  | Datatypes.S fuel' =>
      if less_eq_with_sign (d_t D s) time dt then
        let* (s1, w1) := d_step D s w in
        icd_steps fuel' dt time s1 w1 (Datatypes.S real)
      else ret (s, w, real)
  end.

(** Main loop, lines 123-151, and the last observation, lines 154-158. *)
Fixpoint icd_loop (fuel : nat) (t0 tend dt : N) (s : S) (w : W) (x : X) (time : N) (k real : nat)
  : M V (S * W * X * nat) :=
  match fuel with
  | O => fail Fuel
  | Datatypes.S fuel' =>
      if less_eq_with_sign (time + dt) tend dt then
        let* (w1, x1, time1, k1) := icd_obs fuel' t0 dt s w x time k in
        let* (s2, w2, real2) :=
          if less_with_sign (d_t D s + d_dt D s) tend (d_dt D s) then
            icd_steps fuel' dt time1 s w1 real
          else if less_with_sign (d_t D s) tend (d_dt D s) then
            let* s' := reinit_to s tend in
            let* (s'', w'') := d_step D s' w1 in ret (s'', w'', Datatypes.S real)
          else ret (s, w1, real) in
        icd_loop fuel' t0 tend dt s2 w2 x1 time1 k1 real2
      else if less_eq_with_sign time tend dt then
        let* x1 := call_calc s time in
        let* w1 := obs w x1 time in
        ret (s, w1, x1, real)
      else ret (s, w, x, real)
  end.

(* Source: integrate/detail/integrate_const.hpp:104-162. *)
Definition integrate_const_dense (fuel : nat) (s : S) (w : W) (x : X) (t0 tend dt : N)
  : M V (S * W * X * nat) :=
  let* s1 := call_init s x t0 dt in
  let* w1 := obs w x t0 in
  icd_loop fuel t0 tend dt s1 w1 x (t0 + dt) 1 0.

(** integrate_n_steps(dense_output_stepper_tag), integrate/detail/integrate_n_steps.hpp:97-153.
    Observation loop, lines 114-122. *)
Fixpoint insd_obs (fuel : nat) (t0 dt : N) (s : S) (w : W) (x : X) (time : N) (step : nat)
  : M V (W * X * N * nat) :=
  match fuel with
  | O => fail Fuel
  | Datatypes.S fuel' =>
      if less_with_sign time (d_t D s) (d_dt D s) then
        let* x1 := call_calc s time in
        let* w1 := obs w x1 time in
        insd_obs fuel' t0 dt s w1 x1 (t0 + nofnat (Datatypes.S step) * dt) (Datatypes.S step)
      else ret (w, x, time, step)
  end.

(** Main loop, lines 112-137. *)
Fixpoint insd_loop (fuel : nat) (t0 tend dt : N) (n : nat) (s : S) (w : W) (x : X) (time : N) (step : nat)
  : M V (S * W * X * N) :=
  match fuel with
  | O => fail Fuel
  | Datatypes.S fuel' =>
      if Nat.ltb step n then
        let* (w1, x1, time1, step1) := insd_obs fuel' t0 dt s w x time step in
        let* (s2, w2) :=
          if less_with_sign (d_t D s + d_dt D s) tend (d_dt D s) then d_step D s w1
          else if less_with_sign (d_t D s) tend (d_dt D s) then
            let* s' := reinit_to s tend in d_step D s' w1
          else ret (s, w1) in
        insd_loop fuel' t0 tend dt n s2 w2 x1 time1 step1
      else ret (s, w, x, time)
  end.

(** "make sure we really end exactly where we should end", lines 140-147; the
    comparison of line 140 is a plain <. *)
Fixpoint insd_final (fuel : nat) (tend : N) (s : S) (w : W) : M V (S * W) :=
  match fuel with
  | O => fail Fuel
  | Datatypes.S fuel' =>
      if (d_t D s <? tend) then
        let* s1 := if less_with_sign tend (d_t D s + d_dt D s) (d_dt D s)
                   then reinit_to s tend else ret s in
        let* (s2, w2) := d_step D s1 w in
        insd_final fuel' tend s2 w2
      else ret (s, w)
  end.

(** Whole function; the caller's state is whatever calc_state last wrote into it. *)
(* Source: integrate/detail/integrate_n_steps.hpp:97-157. *)
Definition integrate_n_steps_dense (fuel : nat) (s : S) (w : W) (x : X) (t0 dt : N) (n : nat)
  : M V (S * W * X * N) :=
  let tend := t0 + nofnat n * dt in
  let* s1 := call_init s x t0 dt in
  let* (s2, w2, x2, time) := insd_loop fuel t0 tend dt n s1 w x t0 0 in
  let* (s3, w3) := insd_final fuel tend s2 w2 in
  let* w4 := obs w3 (d_x D s3) tend in
  ret (s3, w4, x2, time).

(** integrate_times(dense_output_stepper_tag), integrate/detail/integrate_times.hpp:122-170.
    Observation loop, lines 147-152. *)
Fixpoint itd_obs (times : list N) (s : S) (w : W) (x : X) : M V (list N * W * X) :=
  match times with
  | [] => ret ([], w, x)
  | t :: rest =>
      if less_eq_with_sign t (d_t D s) (d_dt D s) then
        let* x1 := call_calc s t in
        let* w1 := obs w x1 t in
        itd_obs rest s w1 x1
      else ret (times, w, x)
  end.

(** Main loop, lines 145-168. *)
Fixpoint itd_loop (fuel : nat) (last : N) (times : list N) (s : S) (w : W) (x : X) (count : nat)
  : M V (S * W * X * nat) :=
  match fuel with
  | O => fail Fuel
  | Datatypes.S fuel' =>
      match times with
      | [] => ret (s, w, x, count)
      | _ :: _ =>
          let* (times1, w1, x1) := itd_obs times s w x in
          if less_eq_with_sign (d_t D s + d_dt D s) last (d_dt D s) then
            let* (s2, w2) := d_step D s w1 in
            itd_loop fuel' last times1 s2 w2 x1 (Datatypes.S count)
          else
            match times1 with
            | [] => itd_loop fuel' last [] s w1 x1 count
            | _ :: _ =>
                let* s' := reinit_to s last in
                let* (s2, w2) := d_step D s' w1 in
                itd_loop fuel' last times1 s2 w2 x1 (Datatypes.S count)
            end
      end
  end.

Definition integrate_times_dense (fuel : nat) (s : S) (w : W) (x : X) (times : list N) (dt : N)
  : M V (S * W * X * nat) :=
  match times with
  | [] => ret (s, w, x, 0)                       (* lines 133-134 *)
  | t :: rest =>
      let* s1 := call_init s x t dt in
      let* w1 := obs w x t in
      itd_loop fuel (List.last times t) rest s1 w1 x 0
  end.

End Dense.

(** A dense output stepper whose do_step does not throw, from plain functions. *)
(* Source: The interface used by integrate/detail/integrate_const.hpp:104-162: initialize, do_step, calc_state, current_time, current_state, current_time_step. *)
Definition dense_of {N : Num} {S W X : Type} (init : S -> X -> N -> N -> S) (step : S -> S)
  (calc : S -> N -> X) (ct : S -> N) (cx : S -> X) (cdt : S -> N) : DenseOps N S W X :=
  {| d_init := init;
     d_step := fun s w => ([EDo (ct s) (ct (step s)) (cx (step s))], Ok (step s, w));
     d_calc := calc; d_t := ct; d_x := cx; d_dt := cdt |}.

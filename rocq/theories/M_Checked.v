(** Step checkers combined with steppers and observers. Source: integrate/check_adapter.hpp. *)
From Coq Require Import List Arith ZArith.
From Verif Require Import M_Num M_Sign M_Run M_Checker M_Plain M_Controlled M_Dense.
Import ListNotations.
Local Open Scope run_scope.

Section Adapters.
Context {N : Num} {S W X : Type}.
Notation V := (ev X (carrier N)).
Variable m : nat.   (* m_max_steps; an int in the code, negative limits are not modelled *)

(** A stepper held by reference (boost::ref, or the member [stepper_type &m_stepper] of the
    checked steppers, check_adapter.hpp:46): the stepper object lives in the world, copies of the
    handle share it. *)
Definition ref_do (do_step : S -> W -> X -> N -> N -> M V (S * W * X))
  (h : unit) (w : S * W) (x : X) (t dt : N) : M V (unit * (S * W) * X) :=
  let* (s1, w1, x1) := do_step (fst w) (snd w) x t dt in ret (tt, (s1, w1), x1).
(* Source: check_adapter.hpp:46,86: the stepper is held by reference. *)
Definition ref_try (try_step : S -> W -> X -> N -> N -> M V (S * W * X * N * N * bool))
  (h : unit) (w : S * W) (x : X) (t dt : N) : M V (unit * (S * W) * X * N * N * bool) :=
  let* (s1, w1, x1, t1, dt1, ok) := try_step (fst w) (snd w) x t dt in ret (tt, (s1, w1), x1, t1, dt1, ok).
(** Observers do not see the referenced stepper. *)
(* Source: check_adapter.hpp:46,86: the stepper is held by reference. *)
Definition ref_obs (obs : W -> X -> N -> M V W) (w : S * W) (x : X) (t : N) : M V (S * W) :=
  let* w1 := obs (snd w) x t in ret (fst w, w1).

(** checked_stepper<stepper_tag>::do_step, check_adapter.hpp:62-69; the counter of the referenced
    checker is the first component of the world. *)
Definition checked_do (do_step : S -> W -> X -> N -> N -> M V (S * W * X))
  (s : S) (w : nat * W) (x : X) (t dt : N) : M V (S * (nat * W) * X) :=
  let* (s1, w1, x1) := do_step s (snd w) x t dt in
  let* c1 := fail (checker_call NoProgress m (fst w)) in
  ret (s1, (c1, w1), x1).

(** checked_stepper<controlled_stepper_tag>::try_step, check_adapter.hpp:103-117. *)
Definition checked_try (try_step : S -> W -> X -> N -> N -> M V (S * W * X * N * N * bool))
  (s : S) (w : nat * W) (x : X) (t dt : N) : M V (S * (nat * W) * X * N * N * bool) :=
  let* (s1, w1, x1, t1, dt1, ok) := try_step s (snd w) x t dt in
  if (ok : bool) then
    let* c1 := fail (checker_call NoProgress m (fst w)) in
    ret (s1, (c1, w1), x1, t1, dt1, true)
  else ret (s1, (fst w, w1), x1, t1, dt1, false).

(** checked_observer::operator(), check_adapter.hpp:206-213. *)
Definition checked_obs (obs : W -> X -> N -> M V W) (w : nat * W) (x : X) (t : N) : M V (nat * W) :=
  let* w1 := obs (snd w) x t in ret (checker_reset (fst w), w1).

(** checked_stepper<dense_output_stepper_tag>, check_adapter.hpp:150-183: the checker is called
    before do_step.  The integrate functions never copy a dense output stepper, so holding it by
    reference or by value is the same. *)
Definition checked_dense (D : DenseOps N S W X) : DenseOps N S (nat * W) X :=
  {| d_init := d_init D;
     d_step := fun s w =>
       let* c1 := fail (checker_call NoProgress m (fst w)) in
       let* (s1, w1) := d_step D s (snd w) in ret (s1, (c1, w1));
     d_calc := d_calc D; d_t := d_t D; d_x := d_x D; d_dt := d_dt D |}.
End Adapters.

(** integrate_const with a step checker and a plain stepper, integrate/integrate_const.hpp:38-65.
    [null] tells whether the observer type is null_observer; then integrate_adaptive is called
    without any checking. *)
Definition integrate_const_checked {N : Num} {S W X : Type} (m : nat) (null : bool)
  (do_step : S -> W -> X -> N -> N -> M (ev X (carrier N)) (S * W * X))
  (obs : W -> X -> N -> M (ev X (carrier N)) W)
  (fuel : nat) (s : S) (w : W) (x : X) (t0 tend dt : N) : M (ev X (carrier N)) (X * nat) :=
  if null then
    let* (_, _, x1, n) := integrate_adaptive_plain obs do_step fuel s w x t0 tend dt in ret (x1, n)
  else
    let* (_, _, x1, n) := integrate_const (checked_obs (ref_obs obs)) (checked_do m (ref_do do_step))
                            fuel tt (0, (s, w)) x t0 tend dt in ret (x1, n).

(** ODE iterators (iterator/) and observer_collection (integrate/observer_collection.hpp).

    An iterator holds the stepper by value and a pointer to the state of the caller
    (iterator/detail/ode_iterator_base.hpp:52-107); here the state pointed to is a component of
    the iterator.  Two iterators are equal iff their m_at_end flags agree
    (ode_iterator_base.hpp:87-97), so a traversal from begin to end runs until the flag is set. *)
From Coq Require Import List Arith ZArith.
From Verif Require Import M_Num M_Sign M_Run M_Dense.
Import ListNotations.
Local Open Scope num_scope.
Local Open Scope run_scope.

(** The time iterators: dereferencing gives the pair (state, time)
    (ode_iterator_base.hpp:181-190, const_step_time_iterator.hpp). [obs] is what the user does
    with the pair; boost::for_each over the range. The result counts the visited elements
    (obs_caller, iterator/integrate/detail/functors.hpp:36-48). *)
Section ForEach.
Context {V W It X T : Type}.
Variable obs    : W -> X -> T -> M V W.
Variable inc    : It -> W -> M V (It * W).
Variable at_end : It -> bool.
Variable deref  : It -> X * T.
(* Source: std::for_each as used in iterator/integrate/detail/integrate_const.hpp and integrate_adaptive.hpp; external. *)
Fixpoint for_each (fuel : nat) (it : It) (w : W) (calls : nat) : M V (It * W * nat) :=
  match fuel with
  | O => fail Fuel
  | S fuel' =>
      if at_end it then ret (it, w, calls)
      else
        let* w1 := obs w (fst (deref it)) (snd (deref it)) in
        let* (it2, w2) := inc it w1 in
        for_each fuel' it2 w2 (S calls)
  end.
End ForEach.

(** [obs_calls - 1] in size_t, iterator/integrate/detail/integrate_const.hpp:56. *)
Definition size_t_pred (calls : nat) : Z := ((Z.of_nat calls - 1) mod 2 ^ 64)%Z.

Section Plain.
Context {N : Num} {S W X : Type}.
Notation V := (ev X (carrier N)).
Variable do_step : S -> W -> X -> N -> N -> M V (S * W * X).

(** Common data of the iterators: stepper, state, time, step counter, m_at_end. *)
(* Source: iterator/detail/ode_iterator_base.hpp:104-110. *)
Record pit := mkPit { pi_s : S; pi_x : X; pi_t : N; pi_k : nat; pi_end : bool }.
(* Source: iterator/detail/ode_iterator_base.hpp:176-180. *)
Definition pi_deref (it : pit) : X * N := (pi_x it, pi_t it).

(** const_step_iterator_impl, stepper_tag: constructor, impl/const_step_iterator_impl.hpp:66-71. *)
Definition const_begin (s : S) (x : X) (t0 tend dt : N) : pit :=
  mkPit s x t0 0 (less_with_sign tend t0 dt).

(** increment, impl/const_step_iterator_impl.hpp:87-100. *)
Definition const_inc (t0 tend dt : N) (it : pit) (w : W) : M V (pit * W) :=
  if less_eq_with_sign (pi_t it + dt) tend dt then
    let* (s1, w1, x1) := do_step (pi_s it) w (pi_x it) (pi_t it) dt in
    let k := Datatypes.S (pi_k it) in
    ret (mkPit s1 x1 (t0 + nofnat k * dt) k (pi_end it), w1)
  else ret (mkPit (pi_s it) (pi_x it) (pi_t it) (pi_k it) true, w).

(** n_step_iterator_impl, stepper_tag, impl/n_step_iterator_impl.hpp:77-110. *)
Definition n_begin (s : S) (x : X) (t0 : N) : pit := mkPit s x t0 0 false.
(* Source: iterator/impl/n_step_iterator_impl.hpp:97-110. *)
Definition n_inc (t0 dt : N) (n : nat) (it : pit) (w : W) : M V (pit * W) :=
  if (pi_k it <? n)%nat then
    let* (s1, w1, x1) := do_step (pi_s it) w (pi_x it) (pi_t it) dt in
    let k := Datatypes.S (pi_k it) in
    ret (mkPit s1 x1 (t0 + nofnat k * dt) k (pi_end it), w1)
  else ret (mkPit (pi_s it) (pi_x it) (pi_t it) (pi_k it) true, w).

(** times_iterator_impl, stepper_tag: constructor, impl/times_iterator_impl.hpp:84-92. The first
    time is read (line 86) before the range is tested for emptiness (line 89). *)
Record tit := mkTit { ti_s : S; ti_x : X; ti_t : N; ti_rest : list N; ti_end : bool }.
(* Source: iterator/detail/ode_iterator_base.hpp:176-180. *)
Definition ti_deref (it : tit) : X * N := (ti_x it, ti_t it).
Definition times_begin (s : S) (x : X) (times : list N) : M V tit :=
  match times with
  | [] => fail UB
  | t :: rest => ret (mkTit s x t rest false)
  end.
(** increment, impl/times_iterator_impl.hpp:107-122; the loop of lines 112-118. *)
Fixpoint times_loop (fuel : nat) (dt target : N) (s : S) (w : W) (x : X) (t : N) : M V (S * W * X * N) :=
  match fuel with
  | O => fail Fuel
  | Datatypes.S fuel' =>
      if less_with_sign t target dt then
        let cdt := min_abs dt (target - t) in
        let* (s1, w1, x1) := do_step s w x t cdt in
        times_loop fuel' dt target s1 w1 x1 (t + cdt)
      else ret (s, w, x, t)
  end.
(* Source: iterator/impl/times_iterator_impl.hpp:107-122. *)
Definition times_inc (fuel : nat) (dt : N) (it : tit) (w : W) : M V (tit * W) :=
  match ti_rest it with
  | [] => ret (mkTit (ti_s it) (ti_x it) (ti_t it) [] true, w)
  | target :: rest =>
      let* (s1, w1, x1, t1) := times_loop fuel dt target (ti_s it) w (ti_x it) (ti_t it) in
      ret (mkTit s1 x1 t1 rest (ti_end it), w1)
  end.
End Plain.
Arguments pit : clear implicits. Arguments tit : clear implicits.
Arguments mkPit {N S X}. Arguments mkTit {N S X}.

(** max_attempts, impl/adaptive_iterator_impl.hpp:109, impl/times_iterator_impl.hpp:229. *)
Definition max_attempts : nat := 1000.

Section Ctrl.
Context {N : Num} {S W X : Type}.
Notation V := (ev X (carrier N)).
Variable try_step : S -> W -> X -> N -> N -> M V (S * W * X * N * N * bool).

(** do-while loop, impl/adaptive_iterator_impl.hpp:109-126 and impl/times_iterator_impl.hpp:227-242:
    [todo] attempts are left ([trials = max_attempts - todo]); after the loop the number of
    trials alone decides about the exception. *)
Fixpoint attempts (todo : nat) (s : S) (w : W) (x : X) (t dt : N) : M V (S * W * X * N * N) :=
  match todo with
  | O => fail Fuel
  | Datatypes.S todo' =>
      let* (s1, w1, x1, t1, dt1, ok) := try_step s w x t dt in
      match todo' with
      | O => fail (Exc Overflow)
      | _ => if (ok : bool) then ret (s1, w1, x1, t1, dt1) else attempts todo' s1 w1 x1 t1 dt1
      end
  end.

(** adaptive_iterator_impl, controlled_stepper_tag: constructor :82-87, increment :103-130. *)
Record ait := mkAit { ai_s : S; ai_x : X; ai_t : N; ai_dt : N; ai_end : bool }.
(* Source: iterator/detail/ode_iterator_base.hpp:176-180. *)
Definition ai_deref (it : ait) : X * N := (ai_x it, ai_t it).
(* Source: iterator/impl/adaptive_iterator_impl.hpp:82-87. *)
Definition adaptive_begin (s : S) (x : X) (t0 tend dt : N) : ait :=
  mkAit s x t0 dt (less_with_sign tend t0 dt).
(* Source: iterator/impl/adaptive_iterator_impl.hpp:103-130. *)
Definition adaptive_inc (tend : N) (it : ait) (w : W) : M V (ait * W) :=
  if less_with_sign (ai_t it) tend (ai_dt it) then
    let dt1 := if less_with_sign tend (ai_t it + ai_dt it) (ai_dt it) then tend - ai_t it else ai_dt it in
    let* (s1, w1, x1, t1, dt2) := attempts max_attempts (ai_s it) w (ai_x it) (ai_t it) dt1 in
    ret (mkAit s1 x1 t1 dt2 (ai_end it), w1)
  else ret (mkAit (ai_s it) (ai_x it) (ai_t it) (ai_dt it) true, w).
End Ctrl.
Arguments ait : clear implicits. Arguments mkAit {N S X}.

Section Dense.
Context {N : Num} {S W X : Type}.
Notation V := (ev X (carrier N)).
Variable D : DenseOps N S W X.

(** adaptive_iterator_impl, dense_output_stepper_tag: constructor, impl/adaptive_iterator_impl.hpp:189-200,
    increment 213-235; dereferencing gives current_state and m_t. *)
Record dit := mkDit { di_s : S; di_t : N; di_end : bool }.
(* Source: iterator/detail/ode_iterator_base.hpp:176-180. *)
Definition di_deref (it : dit) : X * N := (d_x D (di_s it), di_t it).
(* Source: iterator/impl/adaptive_iterator_impl.hpp:190-198. *)
Definition adaptive_dense_begin (s : S) (x : X) (t0 tend dt : N) : M V dit :=
  if less_eq_with_sign t0 tend dt then
    let* s1 := call_init D s x t0 dt in ret (mkDit s1 t0 false)
  else ret (mkDit s t0 true).
(* Source: iterator/impl/adaptive_iterator_impl.hpp:215-235. *)
Definition adaptive_dense_inc (tend : N) (it : dit) (w : W) : M V (dit * W) :=
  let s := di_s it in
  if less_with_sign (di_t it) tend (d_dt D s) then
    let* s1 := if less_with_sign tend (di_t it + d_dt D s) (d_dt D s)
               then call_init D s (d_x D s) (d_t D s) (tend - di_t it) else ret s in
    let* (s2, w2) := d_step D s1 w in
    ret (mkDit s2 (d_t D s2) (di_end it), w2)
  else ret (mkDit s (di_t it) true, w).

(** const_step_iterator_impl, dense_output_stepper_tag: constructor, impl/const_step_iterator_impl.hpp:160-170,
    increment 187-208. The state of the caller ([di_x]) is written by calc_state. *)
Record cdit := mkCdit { ci_s : S; ci_x : X; ci_t : N; ci_k : nat; ci_end : bool }.
(* Source: iterator/detail/ode_iterator_base.hpp:176-180. *)
Definition ci_deref (it : cdit) : X * N := (ci_x it, ci_t it).
Definition const_dense_begin (s : S) (x : X) (t0 tend dt : N) : M V cdit :=
  if less_eq_with_sign t0 tend dt then
    let* s1 := call_init D s x t0 dt in ret (mkCdit s1 x t0 0 false)
  else ret (mkCdit s x t0 0 true).
(** Stepping loop, impl/const_step_iterator_impl.hpp:195-199 (n_step_iterator_impl.hpp:204-208). *)
Fixpoint reach (fuel : nat) (time : N) (s : S) (w : W) : M V (S * W) :=
  match fuel with
  | O => fail Fuel
  | Datatypes.S fuel' =>
      if less_with_sign (d_t D s) time (d_dt D s) then
        let* (s1, w1) := d_step D s w in reach fuel' time s1 w1
      else ret (s, w)
  end.
(* Source: iterator/impl/const_step_iterator_impl.hpp:194-202, n_step_iterator_impl.hpp:202-211. *)
Definition dense_advance (fuel : nat) (t0 dt : N) (it : cdit) (w : W) : M V (cdit * W) :=
  let k := Datatypes.S (ci_k it) in
  let time := t0 + nofnat k * dt in
  let* (s1, w1) := reach fuel time (ci_s it) w in
  let* x1 := call_calc D s1 time in
  ret (mkCdit s1 x1 time k (ci_end it), w1).
Definition const_dense_inc (fuel : nat) (t0 tend dt : N) (it : cdit) (w : W) : M V (cdit * W) :=
  if less_eq_with_sign (ci_t it + dt) tend dt then dense_advance fuel t0 dt it w
  else ret (mkCdit (ci_s it) (ci_x it) (ci_t it) (ci_k it) true, w).
(** n_step_iterator_impl, dense_output_stepper_tag, impl/n_step_iterator_impl.hpp:173-217. *)
Definition n_dense_begin (s : S) (x : X) (t0 dt : N) : M V cdit :=
  let* s1 := call_init D s x t0 dt in ret (mkCdit s1 x t0 0 false).
(* Source: iterator/impl/n_step_iterator_impl.hpp:200-217. *)
Definition n_dense_inc (fuel : nat) (t0 dt : N) (n : nat) (it : cdit) (w : W) : M V (cdit * W) :=
  if (ci_k it <? n)%nat then dense_advance fuel t0 dt it w
  else ret (mkCdit (ci_s it) (ci_x it) (ci_t it) (ci_k it) true, w).
End Dense.
Arguments dit : clear implicits. Arguments cdit : clear implicits.
Arguments mkDit {N S}. Arguments mkCdit {N S X}.

(** observer_collection::operator(), integrate/observer_collection.hpp:37-41. *)
Section Collection.
Context {V W X T : Type}.
(* Source: integrate/observer_collection.hpp:37-41. *)
Fixpoint collection_obs (members : list (W -> X -> T -> M V W)) (w : W) (x : X) (t : T) : M V W :=
  match members with
  | [] => ret w
  | o :: rest => let* w1 := o w x t in collection_obs rest w1 x t
  end.
End Collection.

(** integrate functions implemented with iterators (iterator/integrate/detail). *)
Section IterIntegrate.
Context {N : Num} {S W X : Type}.
Notation V := (ev X (carrier N)).
Variable obs : W -> X -> N -> M V W.

(** integrate_const(stepper_tag), iterator/integrate/detail/integrate_const.hpp:44-57:
    world, start_state, returned number. *)
Definition iter_integrate_const (do_step : S -> W -> X -> N -> N -> M V (S * W * X))
  (fuel : nat) (s : S) (w : W) (x : X) (t0 tend dt : N) : M V (W * X * Z) :=
  let* (it, w1, calls) := for_each obs (const_inc do_step t0 tend dt) pi_end pi_deref fuel
                                   (const_begin s x t0 tend dt) w 0 in
  ret (w1, pi_x it, size_t_pred calls).

(** integrate_adaptive(controlled_stepper_tag), iterator/integrate/detail/integrate_adaptive.hpp:78-90. *)
Definition iter_integrate_adaptive_ctrl (try_step : S -> W -> X -> N -> N -> M V (S * W * X * N * N * bool))
  (fuel : nat) (s : S) (w : W) (x : X) (t0 tend dt : N) : M V (W * X * Z) :=
  let* (it, w1, calls) := for_each obs (adaptive_inc try_step tend) ai_end ai_deref fuel
                                   (adaptive_begin s x t0 tend dt) w 0 in
  ret (w1, ai_x it, size_t_pred calls).

(** integrate_adaptive(dense_output_stepper_tag), iterator/integrate/detail/integrate_adaptive.hpp:98-111.
    The iterator keeps its own copy of the stepper and never writes to start_state. *)
Definition iter_integrate_adaptive_dense (D : DenseOps N S W X)
  (fuel : nat) (s : S) (w : W) (x : X) (t0 tend dt : N) : M V (W * X * Z) :=
  let* it0 := adaptive_dense_begin D s x t0 tend dt in
  let* (it, w1, calls) := for_each obs (adaptive_dense_inc D tend) di_end (di_deref D) fuel it0 w 0 in
  ret (w1, x, size_t_pred calls).
End IterIntegrate.

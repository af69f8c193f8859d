(** The symplectic Runge-Kutta-Nystroem steppers and velocity_verlet.

    Coordinates and momenta are [vec N I]; the in and out states are buffers that
    may be the same object.  Simplified: resizing of the temporaries (the outcome of
    a resizer is a Boolean input where the code uses it). *)
From Coq Require Import ZArith List Bool Arith.
From Verif Require Import M_Num M_Run M_RK.
Import ListNotations.
Local Open Scope num_scope.

Section Symp.
Context {N : Num} {I : Type}.

(** The buffers of do_step_impl, base/symplectic_rkn_stepper_base.hpp:185-281:
    coor_in, momentum_in, coor_out, momentum_out, m_dqdt, m_dpdt. *)
Record symem := mkSymem { sm_qi : vec N I; sm_pi : vec N I; sm_qo : vec N I; sm_po : vec N I;
                          sm_dq : vec N I; sm_dp : vec N I }.
(** [fst]: coor_out is coor_in; [snd]: momentum_out is momentum_in.  Version 1 and 2 of
    do_step (101-148) pass the same state twice; version 3 (156-161) two states. *)
Definition salias : Type := (bool * bool)%type.

(* Source: Access to the state halves and to m_dqdt, m_dpdt in base/symplectic_rkn_stepper_base.hpp:185-281. *)
Definition rd_qo (al : salias) (m : symem) := if fst al then sm_qi m else sm_qo m.
(* Source: Access to the state halves and to m_dqdt, m_dpdt in base/symplectic_rkn_stepper_base.hpp:185-281. *)
Definition rd_po (al : salias) (m : symem) := if snd al then sm_pi m else sm_po m.
(* Source: Access to the state halves and to m_dqdt, m_dpdt in base/symplectic_rkn_stepper_base.hpp:185-281. *)
Definition wr_qo (al : salias) (m : symem) (v : vec N I) : symem :=
  if fst al then mkSymem v (sm_pi m) (sm_qo m) (sm_po m) (sm_dq m) (sm_dp m)
  else mkSymem (sm_qi m) (sm_pi m) v (sm_po m) (sm_dq m) (sm_dp m).
(* Source: Access to the state halves and to m_dqdt, m_dpdt in base/symplectic_rkn_stepper_base.hpp:185-281. *)
Definition wr_po (al : salias) (m : symem) (v : vec N I) : symem :=
  if snd al then mkSymem (sm_qi m) v (sm_qo m) (sm_po m) (sm_dq m) (sm_dp m)
  else mkSymem (sm_qi m) (sm_pi m) (sm_qo m) v (sm_dq m) (sm_dp m).
(* Source: Access to the state halves and to m_dqdt, m_dpdt in base/symplectic_rkn_stepper_base.hpp:185-281. *)
Definition wr_dq (m : symem) (v : vec N I) : symem :=
  mkSymem (sm_qi m) (sm_pi m) (sm_qo m) (sm_po m) v (sm_dp m).
(* Source: Access to the state halves and to m_dqdt, m_dpdt in base/symplectic_rkn_stepper_base.hpp:185-281. *)
Definition wr_dp (m : symem) (v : vec N I) : symem :=
  mkSymem (sm_qi m) (sm_pi m) (sm_qo m) (sm_po m) (sm_dq m) v.

(** for_each3( o , x , y , scale_sum2( 1.0 , c ) ). *)
(* Source: scale_sum2 as called in base/symplectic_rkn_stepper_base.hpp:185-281. *)
Definition add2 (x y : vec N I) (c : N) : vec N I := fun i => scale_sum [(nofZ 1, x i); (c, y i)].

(** Calls of coor_func and momentum_func. *)
(* Source: The calls of coor_func and momentum_func in base/symplectic_rkn_stepper_base.hpp:185-281. *)
Inductive scall := CCoor (p : vec N I) | CMom (q : vec N I).

Section Pair.
Variables (cf mf : vec N I -> vec N I).

(** One pass of the loop 213-234; [l0] is [l == 0].  [ab] = (m_coef_a[l], m_coef_b[l]). *)
Definition sy_stage (al : salias) (l0 : bool) (dt : N) (ab : N * N) (m : symem) : symem * list scall :=
  let pm := if l0 then sm_pi m else rd_po al m in
  let m1 := wr_dq m (cf pm) in
  let m2 := wr_qo al m1 (add2 (if l0 then sm_qi m1 else rd_qo al m1) (sm_dq m1) (fst ab * dt)) in
  let qm := rd_qo al m2 in
  let m3 := wr_dp m2 (mf qm) in
  let m4 := wr_po al m3 (add2 (if l0 then sm_pi m3 else rd_po al m3) (sm_dp m3) (snd ab * dt)) in
  (m4, [CCoor pm; CMom qm]).
Fixpoint sy_stages (al : salias) (l0 : bool) (dt : N) (abs : list (N * N)) (m : symem) : symem * list scall :=
  match abs with
  | [] => (m, [])
  | ab :: r => let (m1, l1) := sy_stage al l0 dt ab m in
               let (m2, l2) := sy_stages al false dt r m1 in (m2, l1 ++ l2)
  end.
(** do_step_impl for a pair of functions, 185-235. *)
Definition sy_step_pair (al : salias) (abs : list (N * N)) (dt : N) (m : symem) : symem * list scall :=
  sy_stages al true dt abs m.
End Pair.

Section Single.
Variable mf : vec N I -> vec N I.

(** do_step_impl for dq/dt = p, 240-281: step 0 (266-271) and the loop (273-280).
    The coefficient arrays are never empty. *)
Definition sy_stage1 (al : salias) (l0 : bool) (dt : N) (ab : N * N) (m : symem) : symem * list scall :=
  let m1 := wr_qo al m (add2 (if l0 then sm_qi m else rd_qo al m) (if l0 then sm_pi m else rd_po al m) (fst ab * dt)) in
  let qm := rd_qo al m1 in
  let m2 := wr_dp m1 (mf qm) in
  let m3 := wr_po al m2 (add2 (if l0 then sm_pi m2 else rd_po al m2) (sm_dp m2) (snd ab * dt)) in
  (m3, [CMom qm]).
(* Source: base/symplectic_rkn_stepper_base.hpp:239-281 (momentum function alone). *)
Fixpoint sy_stages1 (al : salias) (l0 : bool) (dt : N) (abs : list (N * N)) (m : symem) : symem * list scall :=
  match abs with
  | [] => (m, [])
  | ab :: r => let (m1, l1) := sy_stage1 al l0 dt ab m in
               let (m2, l2) := sy_stages1 al false dt r m1 in (m2, l1 ++ l2)
  end.
(* Source: base/symplectic_rkn_stepper_base.hpp:239-281 (momentum function alone). *)
Definition sy_step_single (al : salias) (abs : list (N * N)) (dt : N) (m : symem) : symem * list scall :=
  sy_stages1 al true dt abs m.
End Single.

(** The user's view: system = a pair or the momentum function alone. *)
(* Source: base/symplectic_rkn_stepper_base.hpp:108-164: do_step dispatches on the type of the system. *)
Inductive sysys := SPair (cf mf : vec N I -> vec N I) | SMom (mf : vec N I -> vec N I).
(* Source: base/symplectic_rkn_stepper_base.hpp:108-164: do_step dispatches on the type of the system. *)
Definition sy_step (sys : sysys) (al : salias) (abs : list (N * N)) (dt : N) (m : symem) : symem * list scall :=
  match sys with SPair cf mf => sy_step_pair cf mf al abs dt m | SMom mf => sy_step_single mf al abs dt m end.

(** do_step( sys , x , t , dt ), 101-120: in place, [t] is not used.  [dq dp]: previous
    contents of m_dqdt and m_dpdt. *)
Definition sy_do_step (sys : sysys) (abs : list (N * N)) (dq dp : vec N I) (x : vec N I * vec N I) (t dt : N)
  : (vec N I * vec N I) * list scall :=
  let (m, l) := sy_step sys (true, true) abs dt (mkSymem (fst x) (snd x) (fst x) (snd x) dq dp) in
  ((sm_qi m, sm_pi m), l).
(** do_step( sys , in , t , out , dt ), 156-161: [out] holds [o] before. *)
Definition sy_do_step_out (sys : sysys) (abs : list (N * N)) (dq dp : vec N I) (x o : vec N I * vec N I) (t dt : N)
  : (vec N I * vec N I) * list scall :=
  let (m, l) := sy_step sys (false, false) abs dt (mkSymem (fst x) (snd x) (fst o) (snd o) dq dp) in
  ((sm_qo m, sm_po m), l).

(** ** Coefficients. *)

(** symplectic_euler.hpp:39-56. *)
Definition symplectic_euler : list (N * N) := [(nofZ 1, nofZ 1)].

(** symplectic_rkn_sb3a_mclachlan.hpp:50-77; the decimal constants as quotients. *)
Definition sb3a_mclachlan : list (N * N) :=
  let a0 := nfrac 40518861839525227722 100000000000000000000 in
  let a1 := nopp (nfrac 28714404081652408900 100000000000000000000) in
  let a2 := nofZ 1 / nofZ 2 - (a0 + a1) in
  let b0 := nofZ (-3) / nofZ 73 in
  let b1 := nofZ 17 / nofZ 59 in
  let b2 := nofZ 1 - nofZ 2 * (b0 + b1) in
  [(a0, b0); (a1, b1); (a2, b2); (a2, b1); (a1, b0); (a0, nofZ 0)].

(** symplectic_rkn_sb3a_m4_mclachlan.hpp:46-73; [sq] stands for sqrt(7/8). *)
Definition sb3a_m4_mclachlan (sq : N) : list (N * N) :=
  let z := sq / nofZ 3 in
  let a0 := nofZ 1 / nofZ 2 - z in
  let a1 := nofZ (-1) / nofZ 3 + z in
  let b1 := nofZ (-1) / nofZ 2 in
  [(a0, nofZ 1); (a1, b1); (nofZ 2 / nofZ 3, b1); (a1, nofZ 1); (a0, nofZ 0)].

(** ** velocity_verlet *)

Section Verlet.
(** sys( q , p , a , t ). *)
Variable sys : vec N I -> vec N I -> N -> vec N I.

(** The nine argument do_step, velocity_verlet.hpp:105-126, called with separate
    objects: (qout, pout, aout) and the call of the system. *)
Definition vv_qout (q p a : vec N I) (dt : N) : vec N I :=
  fun i => scale_sum [(nofZ 1, q i); (nofZ 1 * dt, p i); (nofZ 1 / nofZ 2 * dt * dt, a i)].
(* Source: velocity_verlet.hpp:109-126. *)
Definition vv_pout (p a a' : vec N I) (dt : N) : vec N I :=
  fun i => scale_sum [(nofZ 1, p i); (nofZ 1 / nofZ 2 * dt, a i); (nofZ 1 / nofZ 2 * dt, a' i)].
(** Buffers q, p (in), qo, po (out), a (ain), ao (aout); [al] as above, aout is always
    different from ain. *)
(* Source: velocity_verlet.hpp:109-126. *)
Definition vv_core (al : salias) (q p a qo po : vec N I) (t dt : N)
  : (vec N I * vec N I * vec N I * vec N I * vec N I) * list (vec N I * vec N I * N) :=
  let qn := vv_qout q p a dt in
  let ao := sys qn p (t + dt) in
  let pn := vv_pout p a ao dt in
  (if fst al then qn else q, if snd al then pn else p, if fst al then qo else qn, if snd al then po else pn, ao,
   [(qn, p, t + dt)]).

(** m_a1, m_a2, m_current_a1, m_first_call; velocity_verlet.hpp:266-270. *)
Record vv := mkVv { vv_a1 : vec N I; vv_a2 : vec N I; vv_cur1 : bool; vv_first : bool }.
(** The constructor, 90-92 (fresh accelerations are value-initialised; kept arbitrary). *)
Definition vv_new (a1 a2 : vec N I) : vv := mkVv a1 a2 true true.
(** get_current_acc, get_old_acc, 238-261. *)
Definition vv_cur (s : vv) := if vv_cur1 s then vv_a1 s else vv_a2 s.
(* Source: velocity_verlet.hpp:238-266. *)
Definition vv_old (s : vv) := if vv_cur1 s then vv_a2 s else vv_a1 s.
(* Source: velocity_verlet.hpp:238-266. *)
Definition vv_set_cur (s : vv) (a : vec N I) (first : bool) : vv :=
  if vv_cur1 s then mkVv a (vv_a2 s) true first else mkVv (vv_a1 s) a false first.
(* Source: velocity_verlet.hpp:238-266. *)
Definition vv_set_old (s : vv) (a : vec N I) : vv :=
  if vv_cur1 s then mkVv (vv_a1 s) a true (vv_first s) else mkVv a (vv_a2 s) false (vv_first s).
(* Source: velocity_verlet.hpp:238-266. *)
Definition vv_toggle (s : vv) : vv := mkVv (vv_a1 s) (vv_a2 s) (negb (vv_cur1 s)) (vv_first s).

(** initialize_acc, 193-199. *)
Definition vv_init_acc (s : vv) (q p : vec N I) (t : N) : vv * list (vec N I * vec N I * N) :=
  (vv_set_cur s (sys q p t) false, [(q, p, t)]).
(** do_step_v1, 201-226.  [rs]: m_resizer.adjust_size returned true; [b]: the accelerations after
    resizing (their content is arbitrary). *)
Definition vv_do_step (s : vv) (rs : option (vec N I * vec N I)) (x : vec N I * vec N I) (t dt : N)
  : (vv * (vec N I * vec N I)) * list (vec N I * vec N I * N) :=
  let s0 := match rs with Some (b1, b2) => mkVv b1 b2 (vv_cur1 s) (vv_first s) | None => s end in
  let (s1, l1) := (if (match rs with Some _ => true | None => false end) || vv_first s0
                   then vv_init_acc s0 (fst x) (snd x) t else (s0, [])) in
  let '(q', p', _, _, ao, l2) := vv_core (true, true) (fst x) (snd x) (vv_cur s1) (fst x) (snd x) t dt in
  (vv_toggle (vv_set_old s1 ao), (q', p'), l1 ++ l2).

(** initialize( ain ), 153-162 and initialize( system , qin , pin , t ), 165-172. *)
Definition vv_initialize_acc (s : vv) (rs : option (vec N I * vec N I)) (a : vec N I) : vv :=
  let s0 := match rs with Some (b1, b2) => mkVv b1 b2 (vv_cur1 s) (vv_first s) | None => s end in
  vv_set_cur s0 a false.
Definition vv_initialize (s : vv) (rs : option (vec N I * vec N I)) (q p : vec N I) (t : N)
  : vv * list (vec N I * vec N I * N) :=
  let s0 := match rs with Some (b1, b2) => mkVv b1 b2 (vv_cur1 s) (vv_first s) | None => s end in
  vv_init_acc s0 q p t.
(** reset, 139-142; adjust_size, 130-136. *)
Definition vv_reset (s : vv) : vv := mkVv (vv_a1 s) (vv_a2 s) (vv_cur1 s) true.
(* Source: velocity_verlet.hpp:130-136. *)
Definition vv_adjust (s : vv) (rs : option (vec N I * vec N I)) : vv :=
  match rs with Some (b1, b2) => mkVv b1 b2 (vv_cur1 s) true | None => s end.
End Verlet.
End Symp.
Arguments symem N I : clear implicits.
Arguments scall N I : clear implicits.
Arguments sysys N I : clear implicits.
Arguments vv N I : clear implicits.

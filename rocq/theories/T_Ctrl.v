(** Property theorems C04, C05, C06, C12, C14 (controlled), C15: integrate functions with
    controlled steppers. *)
From Coq Require Import List Arith ZArith QArith Reals Lra Lia.
From Verif Require Import M_Num M_Sign M_Run M_Checker M_Controlled S_Grid S_Real S_Times S_Ctrl X_Inst
  P_Run P_Ctrl P_CtrlR.
Import ListNotations.

(** C04: observations of every run (also one that ends in an exception or is cut off), and the
    relation of observations, accepted steps and result when the call returns. *)
Theorem C04_adaptive_controlled :
  forall eps : R, (0 <= eps)%R ->
  forall (S W X : Type) (f : S -> X -> R -> R -> S * X * R * R * bool), try_contract f ->
  forall fuel (s : S) (w : W) (x : X) (t0 tend dt : R) tr r,
  dt <> 0%R -> (0 <= dir dt * (tend - t0))%R ->
  @integrate_adaptive_ctrl (RNum eps) S W X (ctrl_step f) rec_obs (Datatypes.S fuel) s w x t0 tend dt = (tr, r) ->
  (exists rest, obs_of tr = (x, t0) :: rest) /\
  strictly_mono (dir dt) (map snd (obs_of tr)) /\
  Forall (fun T => (dir dt * (T - tend) <= eps)%R) (map snd (obs_of tr)) /\
  (forall s' w' x' t' dt' n, r = Ok (s', w', x', t', dt', n) ->
     obs_of tr = map fst (accepted_of tr) ++ [(x', t')] /\
     n = length (accepted_of tr) /\
     chain t0 (map td (accepted_of tr)) t' /\
     (Rabs (tend - t') <= eps)%R).
Proof. exact (@adaptive_ctrl_R). Qed.
Print Assumptions C04_adaptive_controlled.

(** A concrete run: rejections, clipping of the last step, two accepted sizes. *)
Example C04_example :
  let r := integrate_adaptive_ctrl (N := Q0) (W := unit) (ctrl_step ctrl_quarter) rec_obs 20 0%nat tt 0%nat 0 (3#5) (1#2) in
  obs_of (trace_of r) = [(0%nat, 0); (1%nat, 1#4); (2%nat, 1#2); (3%nat, 3#5)] /\
  map snd (tries_of (trace_of r)) = [false; true; true; true] /\
  result_of r = Ok (5 - 1, tt, 3, 3#5, 1#10, 3)%nat.
Proof. vm_compute. auto. Qed.
Example C04_contract_met : try_contract ctrl_quarter_R.
Proof. exact ctrl_quarter_contract. Qed.

(** C05, any number type, any controlled stepper: whenever the call returns, observations are
    exactly on the grid of the user's dt, with only step attempts in between; the result is the
    number of accepted steps. *)
Theorem C05_const_controlled_grid :
  forall (N : Num) (S W X : Type) (f : S -> X -> N -> N -> S * X * N * N * bool)
         fuel (s : S) (w : W) (x : X) (t0 tend dt : N) tr w' x' r,
  integrate_const_ctrl (ctrl_step f) rec_obs fuel s w x t0 tend dt = (tr, Ok (w', x', r)) ->
  exists segs,
    tr = grid_trace (grid t0 dt) 0 segs x' /\
    hd x (map fst segs ++ [x']) = x /\
    Forall (fun p => only_tries (snd p)) segs /\
    r = seg_accepted segs /\
    map snd (obs_of tr) = map (grid t0 dt) (seq 0 (Datatypes.S (length segs))).
Proof.
  exact (fun N S W X f fuel s w x t0 tend dt tr w' x' r H =>
    match icc_loop_trace f t0 tend dt fuel 0 0 s w x t0 dt tr w' x' r eq_refl H with
    | ex_intro _ segs (conj H1 (conj H2 (conj H3 H4))) =>
        ex_intro _ segs (conj H1 (conj H2 (conj H3 (conj H4
          (eq_trans (f_equal (fun z => map snd (obs_of z)) H1) (grid_trace_obs (grid t0 dt) segs 0 x' H3))))))
    end).
Qed.
Print Assumptions C05_const_controlled_grid.

(** C05, exact arithmetic and a stepper obeying the contract: the number of intervals is that of
    the plain-stepper function, and the accepted steps of the k-th interval cover it. *)
Theorem C05_const_controlled_cover :
  forall eps : R, (0 <= eps)%R ->
  forall (S W X : Type) (f : S -> X -> R -> R -> S * X * R * R * bool), try_contract f ->
  forall t0 tend dt : R, dt <> 0%R ->
  forall fuel (s : S) (w : W) (x : X) tr w' x' r,
  @integrate_const_ctrl (RNum eps) S W X (ctrl_step f) rec_obs fuel s w x t0 tend dt = (tr, Ok (w', x', r)) ->
  exists segs,
    tr = grid_trace (@grid (RNum eps) t0 dt) 0 segs x' /\
    segs_cover eps t0 dt 0 segs /\
    first_false (fun k => @less_eq_with_sign (RNum eps) (@grid (RNum eps) t0 dt k + dt)%R tend dt) (length segs).
Proof. exact (@const_ctrl_cover). Qed.
Print Assumptions C05_const_controlled_cover.

Example C05_example :
  let r := integrate_const_ctrl (N := Q0) (W := unit) (ctrl_step ctrl_quarter) rec_obs 20 0%nat tt 0%nat 0 (5#2) 1 in
  obs_of (trace_of r) = [(0%nat, 0); (4%nat, 1); (8%nat, 2)] /\
  map snd (tries_of (trace_of r)) = [false; false; true; true; true; true; true; true; true; true] /\
  result_of r = Ok (tt, 8, 8)%nat.
Proof. vm_compute. auto. Qed.

(** C06, any number type, any controlled stepper. *)
Theorem C06_n_steps_controlled :
  forall (N : Num) (S W X : Type) (f : S -> X -> N -> N -> S * X * N * N * bool)
         fuel (s : S) (w : W) (x : X) (t0 dt : N) (n : nat) tr w' x' tm,
  integrate_n_steps_ctrl (ctrl_step f) rec_obs fuel s w x t0 dt n = (tr, Ok (w', x', tm)) ->
  tm = grid t0 dt n /\
  map snd (obs_of tr) = map (grid t0 dt) (seq 0 (Datatypes.S n)) /\
  exists segs,
    tr = grid_trace (grid t0 dt) 0 segs x' /\
    hd x (map fst segs ++ [x']) = x /\
    length segs = n /\
    Forall (fun p => only_tries (snd p)) segs.
Proof. exact (@n_steps_ctrl_all). Qed.
Print Assumptions C06_n_steps_controlled.

(** C06, exact arithmetic: each grid interval is covered by accepted steps. *)
Theorem C06_n_steps_controlled_cover :
  forall eps : R, (0 <= eps)%R ->
  forall (S W X : Type) (f : S -> X -> R -> R -> S * X * R * R * bool), try_contract f ->
  forall fuel (t0 dt : R), dt <> 0%R ->
  forall (n : nat) (s : S) (w : W) (x : X) tr w' x' tm,
  @integrate_n_steps_ctrl (RNum eps) S W X (ctrl_step f) rec_obs fuel s w x t0 dt n = (tr, Ok (w', x', tm)) ->
  exists segs,
    tr = grid_trace (@grid (RNum eps) t0 dt) 0 segs x' /\ length segs = n /\ segs_cover eps t0 dt 0 segs.
Proof. exact (@n_steps_ctrl_cover). Qed.
Print Assumptions C06_n_steps_controlled_cover.

Example C06_example :
  let r := integrate_n_steps_ctrl (N := Q0) (W := unit) (ctrl_step ctrl_quarter) rec_obs 20 0%nat tt 0%nat 0 (-1#3) 2 in
  obs_of (trace_of r) = [(0%nat, 0); (2%nat, -1#3); (4%nat, -2#3)] /\
  result_of r = Ok (tt, 4%nat, -2#3).
Proof. vm_compute. auto. Qed.

(** C12: every given time is observed once, in order; attempts never cross the next time; a step
    shortened for an observation does not reduce the nominal size ([times_run], [approach]). *)
Theorem C12_times_controlled :
  forall eps : R, (0 <= eps)%R ->
  forall (S W X : Type) (f : S -> X -> R -> R -> S * X * R * R * bool), try_contract f ->
  forall fuel (times : list R) (s : S) (w : W) (x : X) (dt : R) tr s' w' x' n,
  dt <> 0%R -> monotone (dir dt) times ->
  @integrate_times_ctrl (RNum eps) S W X (ctrl_step f) rec_obs fuel s w x times dt = (tr, Ok (s', w', x', n)) ->
  times_run eps (dir dt) times dt tr x' /\
  map snd (obs_of tr) = times /\
  fst (last (obs_of tr) (x', 0%R)) = x' /\
  n = length (accepted_of tr).
Proof. exact (@times_ctrl_all). Qed.
Print Assumptions C12_times_controlled.

Example C12_example :
  let r := integrate_times_ctrl (N := Q0) (W := unit) (ctrl_step ctrl_quarter) rec_obs 20 0%nat tt 0%nat
             [0; 1#10; 1] (1#2) in
  obs_of (trace_of r) = [(0%nat, 0); (1%nat, 1#10); (5%nat, 1)] /\
  map (fun e => (snd (fst e), snd e)) (tries_of (trace_of r)) =
   [(1#10, true); (1#2, false); (1#4, true); (1#4, true); (1#4, true); (3#20, true)] /\
  result_of r = Ok (6, tt, 5, 5)%nat.
Proof. vm_compute. auto. Qed.

(** C14, controlled steppers. *)
Theorem C14_times_controlled_refuted :
  exists (N : Num) (f : nat -> nat -> N -> N -> nat * nat * N * N * bool) (dt : N),
  forall fuel, result_of (integrate_times_ctrl (W := unit) (ctrl_step f) rec_obs fuel 0%nat tt 1%nat [] dt) = UB.
Proof. exact (ex_intro _ Q0 (ex_intro _ ctrl_quarter (ex_intro _ (1:Q) (fun fuel => eq_refl)))). Qed.
Print Assumptions C14_times_controlled_refuted.

(** C15: at no point of any run are there more than 501 consecutive rejected attempts. *)
Theorem C15_rejections_bounded :
  forall (N : Num) (S W X : Type) (f : S -> X -> N -> N -> S * X * N * N * bool)
         fuel (s : S) (w : W) (x : X) (t0 tend dt : N) (n : nat) (times : list N) (a b : list (ev X (carrier N))),
  (trace_of (integrate_adaptive_ctrl (ctrl_step f) rec_obs fuel s w x t0 tend dt) = a ++ b \/
   trace_of (integrate_const_ctrl (ctrl_step f) rec_obs fuel s w x t0 tend dt) = a ++ b \/
   trace_of (integrate_n_steps_ctrl (ctrl_step f) rec_obs fuel s w x t0 dt n) = a ++ b \/
   trace_of (integrate_times_ctrl (ctrl_step f) rec_obs fuel s w x times dt) = a ++ b) ->
  (reject_run a <= 501)%nat.
Proof. exact (@all_rr). Qed.
Print Assumptions C15_rejections_bounded.

(** C15: the search for one step always ends: with 500 rejections in a row (the 501st attempt is
    the last) the call ends in step_adjustment_error ... *)
Theorem C15_persistent_rejection_throws :
  forall (N : Num) (S W X : Type) (f : S -> X -> N -> N -> S * X * N * N * bool)
         fuel (s : S) (w : W) (x : X) (t0 tend dt : N),
  let dt1 := if less_with_sign tend (t0 + dt)%num dt then (tend - t0)%num else dt in
  less_with_sign t0 tend dt = true ->
  (forall k, (k < 500)%nat -> snd (attempt f k s x t0 dt1) = false) ->
  exists tr, length tr = 501%nat /\ only_tries tr /\
   integrate_adaptive_ctrl (ctrl_step f) rec_obs (Datatypes.S fuel) s w x t0 tend dt =
   (EObs x t0 :: tr, Exc StepAdjustment).
Proof. exact (@adaptive_persistent_reject). Qed.
Print Assumptions C15_persistent_rejection_throws.

(** ... and the exception is raised only after 500 consecutive rejections (501 in integrate_times). *)
Theorem C15_exception_only_after_rejections :
  forall (N : Num) (S W X : Type) (f : S -> X -> N -> N -> S * X * N * N * bool)
         fuel (s : S) (w : W) (x : X) (t0 tend dt : N) (n : nat) (times : list N) tr e,
  (integrate_adaptive_ctrl (ctrl_step f) rec_obs fuel s w x t0 tend dt = (tr, Exc e) \/
   integrate_const_ctrl (ctrl_step f) rec_obs fuel s w x t0 tend dt = (tr, Exc e) \/
   integrate_n_steps_ctrl (ctrl_step f) rec_obs fuel s w x t0 dt n = (tr, Exc e) ->
   e = StepAdjustment /\
   exists a y t d ok, tr = a ++ [ETry y t d ok] /\ reject_run a = 500%nat) /\
  (integrate_times_ctrl (ctrl_step f) rec_obs fuel s w x times dt = (tr, Exc e) ->
   e = StepAdjustment /\ reject_run tr = 501%nat).
Proof. exact (@all_exc). Qed.
Print Assumptions C15_exception_only_after_rejections.

(** A stepper that always rejects: the hypotheses of C15_persistent_rejection_throws hold. *)
Definition always_reject (s x : nat) (t dt : Q) : nat * nat * Q * Q * bool := (s, x, t, dt, false).
Example C15_example :
  let r := integrate_adaptive_ctrl (N := Q0) (W := unit) (ctrl_step always_reject) rec_obs 5 0%nat tt 0%nat 0 1 (1#2) in
  length (tries_of (trace_of r)) = 501%nat /\ result_of r = Exc StepAdjustment /\
  @less_with_sign Q0 0 1 (1#2) = true /\
  forall k s x t dt, snd (attempt always_reject k s x t dt) = false.
Proof. split; [vm_compute; reflexivity|]. split; [vm_compute; reflexivity|]. split; [reflexivity|].
  induction k as [|k IH]; intros; [reflexivity|]. exact (IH s x t dt). Qed.

(** Property theorems C07, C08, C09, C10, C13, C14 (dense), C63: integrate functions with
    dense output steppers. *)
From Coq Require Import List Arith ZArith QArith Reals Lra Lia.
From Verif Require Import M_Num M_Sign M_Run M_Dense S_Grid S_Real S_Dense X_Inst P_Run P_R P_Dense.
Import ListNotations.

Lemma dir_pm dt : (dir dt = 1 \/ dir dt = -1)%R.
Proof. destruct (dir_cases dt) as [[_ H]|[_ H]]; auto. Qed.
Lemma lin_forward_Q frac grow : (0 < frac)%Q -> (frac <= 1)%Q -> (0 < grow)%Q ->
  forward_contract_Q lin_init (lin_step frac grow) lin_t lin_x lin_dt.
Proof. intros H1 H2 H3. split; [repeat split|now apply lin_contract_Q]. Qed.

Lemma reached_dos_length {X T} (tr : list (ev X T)) : length (reached_of tr) = length (dos_of tr).
Proof.
  induction tr as [|[] tr IH]; auto.
  change (Datatypes.S (length (reached_of tr)) = Datatypes.S (length (dos_of tr))). now rewrite IH.
Qed.
Ltac lin_witness frac grow :=
  exists (Q * Q * Q)%type, Q, lin_init, (lin_step frac grow), lin_calc, lin_t, lin_x, lin_dt, (0,0,0)%Q, 0%Q;
  split; [apply lin_forward_Q; reflexivity || discriminate|].
Lemma const_dense_no_step :
  exists S X init step calc ct cx cdt (s : S) (x : X),
  forward_contract_Q init step ct cx cdt /\
  let r := integrate_const_dense (@dense_of Q0 S unit X init step calc ct cx cdt) rec_obs 20 s tt x 0 (3#2) 1 in
  calcs_of (trace_of r) = [1] /\ dos_of (trace_of r) = [] /\
  exists s' x', result_of r = Ok (s', tt, x', 0%nat).
Proof. lin_witness 1%Q 1%Q. vm_compute. eauto. Qed.
Lemma const_dense_past_end :
  exists S X init step calc ct cx cdt (s : S) (x : X),
  forward_contract_Q init step ct cx cdt /\
  let r := integrate_const_dense (@dense_of Q0 S unit X init step calc ct cx cdt) rec_obs 20 s tt x 0 (5#2) 1 in
  map snd (obs_of (trace_of r)) = [0; 1; 2; 3; 4; 5] /\
  exists a, result_of r = Ok a.
Proof. lin_witness (9#10)%Q 5%Q. vm_compute. eauto. Qed.
Lemma const_dense_extrapolates :
  exists S X init step calc ct cx cdt (s : S) (x : X),
  forward_contract_Q init step ct cx cdt /\
  let r := integrate_const_dense (@dense_of Q0 S unit X init step calc ct cx cdt) rec_obs 20 s tt x 0 (11#5) 1 in
  last (calcs_of (trace_of r)) 0 = 2 /\ last (dos_of (trace_of r)) (0, 0) = (4#3, 73#45) /\
  exists a, result_of r = Ok a.
Proof. lin_witness (1#3)%Q 1%Q. vm_compute. eauto. Qed.
Lemma n_steps_dense_state :
  exists S X init step calc ct cx cdt (s : S) (x : X),
  forward_contract_Q init step ct cx cdt /\
  let r := integrate_n_steps_dense (@dense_of Q0 S unit X init step calc ct cx cdt) rec_obs 20 s tt x 0 1 3 in
  exists s' x' xf, result_of r = Ok (s', tt, x', 3) /\ last (obs_of (trace_of r)) (x, 0) = (xf, 3) /\
    In (x', 2) (obs_of (trace_of r)) /\ xf <> x'.
Proof.
  lin_witness 1%Q 2%Q. vm_compute. do 3 eexists. split; [reflexivity|]. split; [reflexivity|].
  split; [auto 10|discriminate].
Qed.
Lemma n_steps_dense_backward :
  let r := integrate_n_steps_dense (lin_dense (3#10) 1) rec_obs 20 (0,0,0) tt 0 0 (-1) 1 in
  exists a, result_of r = Ok a /\
  last (obs_of (trace_of r)) (0,0) = (-(51#100), -1) /\ last (dos_of (trace_of r)) (0,0) = (-(3#10), -(51#100)).
Proof. vm_compute. eexists. split; [reflexivity|]. auto. Qed.

(** C08. The first conclusions hold for every run, the rest when the call returns. *)
Theorem C08_adaptive_dense :
  forall eps : R, (0 <= eps)%R ->
  forall (S W X : Type) init step calc ct cx cdt,
  @dense_contract S X init step ct cx cdt ->
  forall fuel (s : S) (w : W) (x : X) (t0 tend dt : R) tr r,
  dt <> 0%R -> (0 <= dir dt * (tend - t0))%R ->
  @integrate_adaptive_dense (RNum eps) S W X (@dense_of (RNum eps) S W X init step calc ct cx cdt)
     rec_obs fuel s w x t0 tend dt = (tr, r) ->
  hd (x, t0) (obs_of tr) = (x, t0) /\
  strictly_mono (dir dt) (map snd (obs_of tr)) /\
  Forall (fun T => (dir dt * (T - tend) <= eps)%R) (map snd (obs_of tr)) /\
  (forall s' w' x' n, r = Ok (s', w', x', n) ->
     obs_of tr = (x, t0) :: reached_of tr /\
     n = length (dos_of tr) /\
     exists t', last (obs_of tr) (x, t0) = (x', t') /\ (Rabs (tend - t') <= eps)%R).
Proof.
  exact (fun eps He S W X init step calc ct cx cdt HD fuel s w x t0 tend dt tr r Hdt =>
    adaptive_dense_R eps He init step calc ct cx cdt HD (dir dt) (dir_pm dt) fuel s w x t0 tend dt tr r Hdt eq_refl).
Qed.
Print Assumptions C08_adaptive_dense.


(** The returned count is also the number of observations minus one. *)
Theorem C08_adaptive_dense_count :
  forall (X T : Type) (tr : list (ev X T)) (x : X) (t0 : T),
  obs_of tr = (x, t0) :: reached_of tr -> length (obs_of tr) = Datatypes.S (length (dos_of tr)).
Proof. exact (fun X T tr x t0 H => eq_trans (f_equal (@length _) H) (f_equal Datatypes.S (reached_dos_length tr))). Qed.
Print Assumptions C08_adaptive_dense_count.

Example C08_example :
  let r := integrate_adaptive_dense (lin_dense 1 2) rec_obs 20 (0,0,0) tt 0 0 (5#2) 1 in
  obs_of (trace_of r) = [(0,0); (1,1); (5#2,5#2)] /\
  result_of r = Ok ((5#2,5#2,0), tt, 5#2, 2%nat).
Proof. vm_compute. auto. Qed.
Example C08_contract_met : dense_contract lin_init (lin_step_R (3/4) 2) lin_t lin_x lin_dt.
Proof. apply lin_contract_R; lra. Qed.

(** C07 is false: three different ways. (1) With t0+dt <= end < t0+2dt the interpolant is
    evaluated and shown to the observer although do_step was never called. *)
Theorem C07_const_dense_no_step_refuted :
  exists S X init step calc ct cx cdt (s : S) (x : X),
  forward_contract_Q init step ct cx cdt /\
  let r := integrate_const_dense (@dense_of Q0 S unit X init step calc ct cx cdt) rec_obs 20 s tt x 0 (3#2) 1 in
  calcs_of (trace_of r) = [1] /\ dos_of (trace_of r) = [] /\
  exists s' x', result_of r = Ok (s', tt, x', 0%nat).
Proof. exact const_dense_no_step. Qed.
Print Assumptions C07_const_dense_no_step_refuted.

(** (2) Observations past the end time: the stepper's step size grows and the stepping loop of
    lines 139-143 does not look at the end time. *)
Theorem C07_const_dense_past_end_refuted :
  exists S X init step calc ct cx cdt (s : S) (x : X),
  forward_contract_Q init step ct cx cdt /\
  let r := integrate_const_dense (@dense_of Q0 S unit X init step calc ct cx cdt) rec_obs 20 s tt x 0 (5#2) 1 in
  map snd (obs_of (trace_of r)) = [0; 1; 2; 3; 4; 5] /\
  exists a, result_of r = Ok a.
Proof. exact const_dense_past_end. Qed.
Print Assumptions C07_const_dense_past_end_refuted.

(** (3) Extrapolation: the final observation is evaluated beyond current_time. *)
Theorem C07_const_dense_extrapolates_refuted :
  exists S X init step calc ct cx cdt (s : S) (x : X),
  forward_contract_Q init step ct cx cdt /\
  let r := integrate_const_dense (@dense_of Q0 S unit X init step calc ct cx cdt) rec_obs 20 s tt x 0 (11#5) 1 in
  last (calcs_of (trace_of r)) 0 = 2 /\ last (dos_of (trace_of r)) (0, 0) = (4#3, 73#45) /\
  exists a, result_of r = Ok a.
Proof. exact const_dense_extrapolates. Qed.
Print Assumptions C07_const_dense_extrapolates_refuted.

(** C07, what does hold (missing: validity of the last calc_state, and the end bound): all
    observations lie on the grid t0 + k dt and show what calc_state wrote; every calc_state except
    possibly the one of lines 154-158 is inside the last step interval (within epsilon); every grid
    point up to the end is observed; the result is the number of do_step calls. *)
Theorem C07_const_dense_partial :
  forall eps : R, (0 <= eps)%R ->
  forall (S W X : Type) init step calc ct cx cdt,
  @dense_contract S X init step ct cx cdt ->
  forall t0 dt : R, dt <> 0%R -> (eps < Rabs dt)%R ->
  forall fuel (s : S) (w : W) (x : X) (tend : R) tr r,
  @integrate_const_dense (RNum eps) S W X (@dense_of (RNum eps) S W X init step calc ct cx cdt)
     rec_obs fuel s w x t0 tend dt = (tr, r) ->
  exists m tr1 tr2, tr = EInit x t0 dt :: EObs x t0 :: tr1 ++ tr2 /\
    map snd (obs_of tr) = map (fun k => t0 + INR k * dt)%R (seq 0 m) /\
    valid_calcs (dir dt) eps None tr1 /\ paired (tr1 ++ tr2) /\
    (tr2 = [] \/ exists k y, tr2 = [ECalc (t0 + INR k * dt)%R y; EObs y (t0 + INR k * dt)%R]) /\
    (exists b, adjacent (dir dt) t0 (dos_of tr) b) /\
    (forall s' w' x' n, r = Ok (s', w', x', n) ->
      n = length (dos_of tr) /\ last (map fst (obs_of tr)) x = x' /\
      (forall j, (dir dt * (t0 + INR j * dt - tend) <= eps)%R -> (j < Nat.max 1 m)%nat)).
Proof.
  exact (fun eps He S W X init step calc ct cx cdt HD t0 dt Hdt =>
    const_dense_R eps He init step calc ct cx cdt HD (dir dt) t0 dt Hdt eq_refl).
Qed.
Print Assumptions C07_const_dense_partial.

Example C07_example :
  let r := integrate_const_dense (lin_dense 1 1) rec_obs 20 (0,0,0) tt 0 0 (7#2) 1 in
  obs_of (trace_of r) = [(0,0); (1,1); (2,2); (3,3)] /\
  dos_of (trace_of r) = [(0,1); (1,2); (2,3); (3,4)] /\ result_of r = Ok ((4,4,1), tt, 3, 4%nat).
Proof. vm_compute. auto. Qed.

(** C09: n+1 observations at the grid points, the first n interpolated inside the last step
    interval (within epsilon), the last one carries the stepper's current state. *)
Theorem C09_n_steps_dense :
  forall eps : R, (0 <= eps)%R ->
  forall (S W X : Type) init step calc ct cx cdt,
  @dense_contract S X init step ct cx cdt ->
  forall t0 dt : R, dt <> 0%R ->
  forall (n fuel : nat) (s : S) (w : W) (x : X) tr r,
  @integrate_n_steps_dense (RNum eps) S W X (@dense_of (RNum eps) S W X init step calc ct cx cdt)
     rec_obs fuel s w x t0 dt n = (tr, r) ->
  let tk := fun k => (t0 + INR k * dt)%R in
  valid_calcs (dir dt) eps None tr /\
  Forall (fun p => (dir dt * (snd p - tk n) <= eps)%R) (dos_of tr) /\
  (exists b, adjacent (dir dt) t0 (dos_of tr) b) /\
  (exists rest, map tk (seq 0 (Datatypes.S n)) = map snd (obs_of tr) ++ rest) /\
  (forall s' w' x' tm, r = Ok (s', w', x', tm) ->
     tm = tk n /\
     map snd (obs_of tr) = map tk (seq 0 (Datatypes.S n)) /\
     exists tr1 xf tf, tr = EInit x t0 dt :: tr1 ++ [EObs xf (tk n)] /\ paired tr1 /\
       last (map fst (obs_of tr1)) x = x' /\
       last (reached_of tr) (x, t0) = (xf, tf) /\
       (0 < dt -> tk n <= tf <= tk n + eps)%R).
Proof.
  exact (fun eps He S W X init step calc ct cx cdt HD t0 dt Hdt n =>
    n_steps_dense_R eps He init step calc ct cx cdt HD (dir dt) t0 dt Hdt eq_refl n).
Qed.
Print Assumptions C09_n_steps_dense.

Example C09_example :
  let r := integrate_n_steps_dense (lin_dense 1 2) rec_obs 20 (0,0,0) tt 0 0 1 3 in
  obs_of (trace_of r) = [(0,0); (1,1); (2,2); (3,3)] /\ result_of r = Ok ((3,3,4), tt, 2, 3) /\
  dos_of (trace_of r) = [(0,1); (1,3)].
Proof. vm_compute. auto. Qed.

(** C10 is false for dense output steppers: the caller's variable is left at the last interpolated
    state, one grid point before the returned time. *)
Theorem C10_n_steps_dense_state_refuted :
  exists S X init step calc ct cx cdt (s : S) (x : X),
  forward_contract_Q init step ct cx cdt /\
  let r := integrate_n_steps_dense (@dense_of Q0 S unit X init step calc ct cx cdt) rec_obs 20 s tt x 0 1 3 in
  exists s' x' xf, result_of r = Ok (s', tt, x', 3) /\ last (obs_of (trace_of r)) (x, 0) = (xf, 3) /\
    In (x', 2) (obs_of (trace_of r)) /\ xf <> x'.
Proof. exact n_steps_dense_state. Qed.
Print Assumptions C10_n_steps_dense_state_refuted.

(** C63 is false for backward integration (line 140 of integrate_n_steps.hpp compares with a plain
    <): the final observation is labelled t0 + n dt although the stepper stands elsewhere.  The
    forward case is the last conjunct of [C09_n_steps_dense]. *)
Theorem C63_n_steps_dense_backward_refuted :
  let r := integrate_n_steps_dense (lin_dense (3#10) 1) rec_obs 20 (0,0,0) tt 0 0 (-1) 1 in
  exists a, result_of r = Ok a /\
  last (obs_of (trace_of r)) (0,0) = (-(51#100), -1) /\ last (dos_of (trace_of r)) (0,0) = (-(3#10), -(51#100)).
Proof. exact n_steps_dense_backward. Qed.
Print Assumptions C63_n_steps_dense_backward_refuted.

(** C13. Times more than epsilon apart. *)
Theorem C13_times_dense :
  forall eps : R, (0 <= eps)%R ->
  forall (S W X : Type) init step calc ct cx cdt,
  @dense_contract S X init step ct cx cdt ->
  forall fuel (s : S) (w : W) (x : X) (t0 : R) (times : list R) (dt : R) tr r,
  dt <> 0%R -> spaced (dir dt) eps (t0 :: times) ->
  @integrate_times_dense (RNum eps) S W X (@dense_of (RNum eps) S W X init step calc ct cx cdt)
     rec_obs fuel s w x (t0 :: times) dt = (tr, r) ->
  (exists tr1, tr = EInit x t0 dt :: EObs x t0 :: tr1 /\ paired tr1) /\
  (exists rest, t0 :: times = map snd (obs_of tr) ++ rest) /\
  valid_calcs (dir dt) eps None tr /\
  Forall (fun p => (dir dt * (snd p - last times t0) <= eps)%R) (dos_of tr) /\
  (exists b, adjacent (dir dt) t0 (dos_of tr) b) /\
  (forall s' w' x' n, r = Ok (s', w', x', n) ->
     map snd (obs_of tr) = t0 :: times /\
     n = length (dos_of tr) /\
     last (map fst (obs_of tr)) x = x').
Proof.
  exact (fun eps He S W X init step calc ct cx cdt HD fuel s w x t0 times dt tr r Hdt =>
    times_dense_R eps He init step calc ct cx cdt HD (dir dt) (dir_pm dt) fuel s w x t0 times dt tr r Hdt eq_refl).
Qed.
Print Assumptions C13_times_dense.

Example C13_example :
  let r := integrate_times_dense (lin_dense 1 2) rec_obs 20 (0,0,0) tt 0 [0;1#2;2;5] 1 in
  obs_of (trace_of r) = [(0,0); (1#2,1#2); (2,2); (5,5)] /\ result_of r = Ok ((5,5,4), tt, 5, 3%nat) /\
  dos_of (trace_of r) = [(0,1); (1,3); (3,5)].
Proof. vm_compute. auto. Qed.
Example C13_spacing_met : spaced (dir 1) 0 [0; 1; 3]%R.
Proof. unfold dir. destruct (Rlt_dec 0 1); simpl; repeat split; lra. Qed.

(** C14, dense output steppers: an empty range is harmless (any number type, stepper, observer). *)
Theorem C14_times_dense_empty :
  forall (N : Num) (S W X : Type) (D : DenseOps N S W X) obs fuel (s : S) (w : W) (x : X) (dt : N),
  integrate_times_dense D obs fuel s w x [] dt = ([], Ok (s, w, x, 0%nat)).
Proof. exact (fun N S W X D obs fuel s w x dt => eq_refl). Qed.
Print Assumptions C14_times_dense_empty.

(** Property theorems C18: backward integration is the mirror image of forward integration. *)
From Coq Require Import List Arith ZArith QArith Reals Lra.
From Verif Require Import M_Num M_Sign M_Run M_Plain M_Controlled M_Dense S_Check S_Mirror S_Real S_Grid S_Dense
  X_Inst P_Run P_R P_Mirror.
Import ListNotations.
Local Open Scope R_scope.

(** Plain steppers (any, also throwing, stepper and observer). *)
Theorem C18_plain :
  forall eps : R, 0 <= eps ->
  forall (S W X : Type) (obs : W -> X -> R -> M (ev X R) W)
         (do_step : S -> W -> X -> R -> R -> M (ev X R) (S * W * X))
         fuel (s : S) (w : W) (x : X) (t0 tend dt : R) (times : list R), dt <> 0 ->
  integrate_const (N := RNum eps) (mirror_obs obs) (mirror_do do_step) fuel s w x (- t0) (- tend) (- dt) =
    mirror (fun p => p) (integrate_const (N := RNum eps) obs do_step fuel s w x t0 tend dt) /\
  integrate_adaptive_plain (N := RNum eps) (mirror_obs obs) (mirror_do do_step) fuel s w x (- t0) (- tend) (- dt) =
    mirror (fun p => p) (integrate_adaptive_plain (N := RNum eps) obs do_step fuel s w x t0 tend dt) /\
  integrate_times_plain (N := RNum eps) (mirror_obs obs) (mirror_do do_step) fuel s w x (map Ropp times) (- dt) =
    mirror (fun p => p) (integrate_times_plain (N := RNum eps) obs do_step fuel s w x times dt).
Proof.
  exact (fun eps He S W X obs do_step fuel s w x t0 tend dt times Hdt =>
    conj (integrate_const_m eps obs do_step fuel s w x t0 tend dt Hdt)
   (conj (integrate_adaptive_m eps He obs do_step fuel s w x t0 tend dt Hdt)
         (integrate_times_m eps He obs do_step fuel s w x times dt Hdt))).
Qed.
Print Assumptions C18_plain.

(** Controlled steppers that never propose a zero step. *)
Theorem C18_controlled :
  forall eps : R, 0 <= eps ->
  forall (S W X : Type) (obs : W -> X -> R -> M (ev X R) W)
         (try_step : S -> W -> X -> R -> R -> M (ev X R) (S * W * X * R * R * bool)),
  (forall s w x t dt tr s' w' x' t' dt' ok, dt <> 0 ->
     try_step s w x t dt = (tr, Ok (s', w', x', t', dt', ok)) -> dt' <> 0) ->
  forall fuel (s : S) (w : W) (x : X) (t0 tend dt : R) (times : list R), dt <> 0 ->
  integrate_const_ctrl (N := RNum eps) (mirror_try try_step) (mirror_obs obs) fuel s w x (- t0) (- tend) (- dt) =
    mirror (fun p => p) (integrate_const_ctrl (N := RNum eps) try_step obs fuel s w x t0 tend dt) /\
  integrate_adaptive_ctrl (N := RNum eps) (mirror_try try_step) (mirror_obs obs) fuel s w x (- t0) (- tend) (- dt) =
    mirror (fun p => let '(s, w, x, t, dt, n) := p in (s, w, x, - t, - dt, n))
      (integrate_adaptive_ctrl (N := RNum eps) try_step obs fuel s w x t0 tend dt) /\
  integrate_times_ctrl (N := RNum eps) (mirror_try try_step) (mirror_obs obs) fuel s w x (map Ropp times) (- dt) =
    mirror (fun p => p) (integrate_times_ctrl (N := RNum eps) try_step obs fuel s w x times dt).
Proof.
  exact (fun eps He S W X obs try_step Hnz fuel s w x t0 tend dt times Hdt =>
    conj (integrate_const_ctrl_m eps He obs try_step Hnz fuel s w x t0 tend dt Hdt)
   (conj (integrate_adaptive_ctrl_m eps He obs try_step Hnz fuel s w x t0 tend dt Hdt)
         (integrate_times_ctrl_m eps He obs try_step Hnz fuel s w x times dt Hdt))).
Qed.
Print Assumptions C18_controlled.

(** Dense output steppers that keep the direction of their step. *)
Theorem C18_dense :
  forall eps : R, 0 <= eps ->
  forall (S W X : Type) (obs : W -> X -> R -> M (ev X R) W) (D : DenseOps (RNum eps) S W X),
  (forall s x t dt, d_t D (d_init D s x t dt) = t) ->
  (forall s x t dt, d_dt D (d_init D s x t dt) = dt) ->
  (forall s w tr s' w', d_dt D s <> 0 -> d_step D s w = (tr, Ok (s', w')) -> 0 < dir (d_dt D s) * d_dt D s') ->
  forall fuel (s : S) (w : W) (x : X) (t0 tend dt : R) (times : list R), dt <> 0 ->
  Forall (fun t => 0 <= dir dt * (List.last times 0 - t)) times ->
  integrate_const_dense (mirror_dense eps D) (mirror_obs obs) fuel s w x (- t0) (- tend) (- dt) =
    mirror (fun p => p) (integrate_const_dense D obs fuel s w x t0 tend dt) /\
  integrate_adaptive_dense (mirror_dense eps D) (mirror_obs obs) fuel s w x (- t0) (- tend) (- dt) =
    mirror (fun p => p) (integrate_adaptive_dense D obs fuel s w x t0 tend dt) /\
  integrate_times_dense (mirror_dense eps D) (mirror_obs obs) fuel s w x (map Ropp times) (- dt) =
    mirror (fun p => p) (integrate_times_dense D obs fuel s w x times dt).
Proof.
  exact (fun eps He S W X obs D H1 H2 H3 fuel s w x t0 tend dt times Hdt Hl =>
    conj (integrate_const_dense_m eps He obs D H2 H3 fuel s w x t0 tend dt Hdt)
   (conj (integrate_adaptive_dense_m eps He obs D H1 H2 H3 fuel s w x t0 tend dt Hdt)
         (integrate_times_dense_m eps He obs D H2 H3 fuel s w x times dt Hdt Hl))).
Qed.
Print Assumptions C18_dense.

(** The hypotheses are met by the controlled stepper [ctrl_quarter_R] and the dense stepper
    [lin_step_R], which have non-trivial runs (examples of C04, C13 and below). *)
Example C18_controlled_example :
  forall s (w : unit) x t dt tr s' w' x' t' dt' ok, dt <> 0 ->
  ctrl_step (T := R) ctrl_quarter_R s w x t dt = (tr, Ok (s', w', x', t', dt', ok)) -> dt' <> 0.
Proof.
  intros s w x t dt tr s' w' x' t' dt' ok Hdt. unfold ctrl_step, ctrl_quarter_R.
  destruct (Rle_dec (Rabs dt) (1/4)); intros H; injection H as _ _ _ _ _ <- _; lra.
Qed.
Example C18_dense_example :
  let D := dense_of (N := RNum 0) (W := unit) lin_init (lin_step_R 1 2) (fun s t => lin_x s) lin_t lin_x lin_dt in
  (forall s x t dt, d_t D (d_init D s x t dt) = t) /\
  (forall s x t dt, d_dt D (d_init D s x t dt) = dt) /\
  (forall s w tr s' w', d_dt D s <> 0 -> d_step D s w = (tr, Ok (s', w')) -> 0 < dir (d_dt D s) * d_dt D s') /\
  Forall (fun t => 0 <= dir (-1) * (List.last [0; -1; -3] 0 - t)) [0; -1; -3].
Proof.
  split; [reflexivity|]. split; [reflexivity|]. split.
  - intros s w tr s' w' Hd H. injection H as _ <- _.
    apply (dc_dir _ _ _ _ _ (lin_contract_R 1 2 ltac:(lra) ltac:(lra))); auto.
  - cbn. destruct (dir_cases (-1)) as [[H _]|[_ ->]]; [lra|]. repeat constructor; lra.
Qed.
(** A backward run and its forward mirror image. *)
Example C18_example :
  let f s x (t dt : Q) := ctrl_quarter s x (Qred (- t)) (Qred (- dt)) in
  let fm s x t dt := let '(s', x', t', dt', ok) := f s x t dt in (s', x', Qred (- t'), Qred (- dt'), ok) in
  let r  := integrate_times_ctrl (N := Q0) (W := unit) (ctrl_step ctrl_quarter) rec_obs 20 0%nat tt 0%nat [0; 1#10; 1]%Q (1#2)%Q in
  let rm := integrate_times_ctrl (N := Q0) (W := unit) (ctrl_step fm) rec_obs 20 0%nat tt 0%nat [0; -1#10; -1]%Q (-1#2)%Q in
  obs_of (trace_of r) = map (fun p => (fst p, Qred (- snd p))) (obs_of (trace_of rm)) /\ result_of r = result_of rm.
Proof. vm_compute. auto. Qed.

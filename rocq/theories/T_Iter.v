(** Theorems about the ODE iterators and observer_collection. *)
From Coq Require Import List Arith ZArith QArith Reals Lra Lia.
From Verif Require Import M_Num M_Sign M_Run M_Plain M_Controlled M_Dense M_Iter
  S_Grid S_Real S_Dense S_Iter P_Run P_R P_Iter P_IterD X_Inst.
Import ListNotations.
Local Open Scope run_scope.

(** C19, const-step time iterator of a plain stepper: a traversal with any loop body [obs] makes
    exactly the run (events, exceptions, final stepper, world, state) of integrate_const with the
    observer [obs], and visits one element more than integrate_const returns. *)
Theorem C19_const :
  forall (N : Num) (S W X : Type) (obs : W -> X -> N -> M (ev X (carrier N)) W)
         (do_step : S -> W -> X -> N -> N -> M (ev X (carrier N)) (S * W * X))
         (fuel : nat) (s : S) (w : W) (x : X) (t0 tend dt : N),
  less_with_sign tend t0 dt = false ->
  snd (integrate_const obs do_step fuel s w x t0 tend dt) <> Fuel ->
  for_each obs (const_inc do_step t0 tend dt) pi_end pi_deref (Datatypes.S fuel)
           (const_begin s x t0 tend dt) w 0 =
  (let* (s1, w1, x1, n) := integrate_const obs do_step fuel s w x t0 tend dt in
   ret (mkPit s1 x1 (grid t0 dt n) n true, w1, Datatypes.S n)).
Proof. exact (@const_iter_eq). Qed.
Print Assumptions C19_const.

Example C19_const_example :
  less_with_sign (N := Q0) 2 0 (1#2) = false /\
  snd (integrate_const (N := Q0) (W := unit) rec_obs (plain_step euler_exp) 10 0%nat tt 1 0 2 (1#2)) <> Fuel /\
  obs_of (fst (for_each rec_obs (const_inc (N := Q0) (W := unit) (plain_step euler_exp) 0 2 (1#2)) pi_end pi_deref 11
                        (const_begin (N := Q0) 0%nat 1 0 2 (1#2)) tt 0))
  = [(1, 0); (3#2, 1#2); (9#4, 1); (27#8, 3#2); (81#16, 2)]%Q.
Proof. repeat split; try reflexivity. vm_compute. discriminate. Qed.

(** C19, n-step time iterator of a plain stepper. *)
Theorem C19_n_steps :
  forall (N : Num) (S W X : Type) (obs : W -> X -> N -> M (ev X (carrier N)) W)
         (do_step : S -> W -> X -> N -> N -> M (ev X (carrier N)) (S * W * X))
         (fuel : nat) (s : S) (w : W) (x : X) (t0 dt : N) (n : nat),
  (n < fuel)%nat ->
  for_each obs (n_inc do_step t0 dt n) pi_end pi_deref (Datatypes.S fuel) (n_begin s x t0) w 0 =
  (let* (s1, w1, x1, t1) := integrate_n_steps obs do_step s w x t0 dt n in
   ret (mkPit s1 x1 t1 n true, w1, Datatypes.S n)).
Proof. exact (@n_iter_eq). Qed.
Print Assumptions C19_n_steps.

Example C19_n_steps_example :
  obs_of (fst (for_each rec_obs (n_inc (N := Q0) (W := unit) (plain_step euler_exp) 0 (1#2) 2) pi_end pi_deref 4
                        (n_begin (N := Q0) 0%nat 1 0) tt 0))
  = [(1, 0); (3#2, 1#2); (9#4, 1)]%Q.
Proof. reflexivity. Qed.

(** C19, adaptive time iterator of a controlled stepper; the only difference is that
    integrate_adaptive gives up earlier (500 instead of 1000 attempts). *)
Theorem C19_adaptive :
  forall (N : Num) (S W X : Type)
         (try_step : S -> W -> X -> N -> N -> M (ev X (carrier N)) (S * W * X * N * N * bool))
         (obs : W -> X -> N -> M (ev X (carrier N)) W)
         (fuel : nat) (s : S) (w : W) (x : X) (t0 tend dt : N),
  less_with_sign tend t0 dt = false ->
  snd (integrate_adaptive_ctrl try_step obs fuel s w x t0 tend dt) <> Fuel ->
  snd (integrate_adaptive_ctrl try_step obs fuel s w x t0 tend dt) <> Exc StepAdjustment ->
  for_each obs (adaptive_inc try_step tend) ai_end ai_deref (Datatypes.S fuel)
           (adaptive_begin s x t0 tend dt) w 0 =
  (let* (s1, w1, x1, t1, dt1, n) := integrate_adaptive_ctrl try_step obs fuel s w x t0 tend dt in
   ret (mkAit s1 x1 t1 dt1 true, w1, Datatypes.S n)).
Proof. exact (@adaptive_iter_eq). Qed.
Print Assumptions C19_adaptive.

Example C19_adaptive_example :
  obs_of (fst (for_each rec_obs (adaptive_inc (N := Q0) (W := unit) (ctrl_step ctrl_quarter) (3#4)) ai_end ai_deref 9
                        (adaptive_begin (N := Q0) 0%nat 0%nat 0 (3#4) 1) tt 0))
  = [(0%nat, 0); (1%nat, 3#16); (2%nat, 3#8); (3%nat, 9#16); (4%nat, 3#4)]%Q /\
  snd (integrate_adaptive_ctrl (N := Q0) (W := unit) (ctrl_step ctrl_quarter) rec_obs 9 0%nat tt 0%nat 0 (3#4) 1)
  = Ok (6%nat, tt, 4%nat, 3#4, 3#16, 4%nat)%Q.
Proof. split; vm_compute; reflexivity. Qed.

(** C19, adaptive time iterator of a dense output stepper whose step sizes stay above two
    epsilons: whenever integrate_adaptive returns, the traversal ends and visits exactly the
    observed pairs. *)
Theorem C19_adaptive_dense :
  forall eps : R, (0 <= eps)%R ->
  forall (S W X : Type) init step calc ct cx cdt,
  @dense_contract S X init step ct cx cdt ->
  forall sg : R, sg = 1%R \/ sg = (-1)%R ->
  (forall s, cdt s <> 0%R -> (2 * eps < Rabs (cdt (step s)))%R) ->
  let D := @dense_of (RNum eps) S W X init step calc ct cx cdt in
  forall (tend : R) (fuel : nat) (s : S) (w : W) (x : X) (t0 dt : R) tr s' w' x' n,
  dir dt = sg -> (2 * eps < Rabs dt)%R -> (sg * (t0 - tend) <= eps)%R ->
  integrate_adaptive_dense D rec_obs fuel s w x t0 tend dt = (tr, Ok (s', w', x', n)) ->
  exists fuel2 tr2 it,
    (let* it0 := adaptive_dense_begin D s x t0 tend dt in
     for_each rec_obs (adaptive_dense_inc D tend) di_end (di_deref D) fuel2 it0 w 0)
    = (tr2, Ok (it, w, length (obs_of tr))) /\ obs_of tr2 = obs_of tr.
Proof. exact (@adaptive_dense_iter). Qed.
Print Assumptions C19_adaptive_dense.

(** The hypotheses hold for a stepper that always proposes steps of length 1 (epsilon 1/100). *)
Definition unit_step_R (s : R * R * R) : R * R * R :=
  (lin_x s + lin_dt s, lin_t s + lin_dt s, dir (lin_dt s))%R.
Example C19_adaptive_dense_example :
  dense_contract lin_init unit_step_R lin_t lin_x lin_dt /\
  (forall s, lin_dt s <> 0%R -> (2 * (1/100) < Rabs (lin_dt (unit_step_R s)))%R).
Proof.
  split.
  - constructor; try reflexivity.
    + intros [[x t] dt] H. unfold unit_step_R, lin_t, lin_dt in *. cbn [fst snd] in *.
      replace (dir dt * (t + dt - t))%R with (dir dt * dt)%R by ring. rewrite dir_abs.
      split; [now apply Rabs_pos_lt | apply Rle_refl].
    + intros [[x t] dt] H. unfold unit_step_R, lin_t, lin_dt in *. cbn [fst snd] in *.
      rewrite dir_sq. lra.
  - intros [[x t] dt] H. unfold unit_step_R, lin_dt in *. cbn [fst snd] in *.
    destruct (dir_cases dt) as [[_ ->]|[_ ->]]; unfold Rabs; destruct (Rcase_abs _); lra.
Qed.

(** C65, dense output stepper and const-step iterator: false.  The stepper solves x' = 2 t exactly,
    doubles its step size and interpolates linearly between the end points of a step (so the
    interpolant agrees with the solution at both ends).  integrate_const shortens the last step,
    the iterator does not, so they show different states at the end point. *)
Definition qd_init (s : Q * Q * Q * Q * Q) (x t dt : Q) : Q * Q * Q * Q * Q := (x, t, x, t, dt).
Definition qd_x (s : Q * Q * Q * Q * Q) : Q := snd (fst (fst s)).
Definition qd_t (s : Q * Q * Q * Q * Q) : Q := snd (fst s).
Definition qd_dt (s : Q * Q * Q * Q * Q) : Q := snd s.
Definition qd_step (s : Q * Q * Q * Q * Q) : Q * Q * Q * Q * Q :=
  let t' := Qred (qd_t s + qd_dt s) in
  (qd_x s, qd_t s, Qred (qd_x s + t' * t' - qd_t s * qd_t s), t', Qred (2 * qd_dt s)).
Definition qd_calc (s : Q * Q * Q * Q * Q) (t : Q) : Q :=
  let '(x0, t0, x1, t1, _) := s in Qred (x0 + (x1 - x0) * ((t - t0) / (t1 - t0))).
Definition qd_dense : DenseOps Q0 (Q * Q * Q * Q * Q) unit Q :=
  @dense_of Q0 _ _ _ qd_init qd_step qd_calc qd_t qd_x qd_dt.
Lemma qd_contract : forward_contract_Q qd_init qd_step qd_t qd_x qd_dt.
Proof.
  split; [now intros|]. intros [[[[a b] x] t] dt] H. unfold qd_step, qd_t, qd_dt in *. cbn [fst snd] in *.
  rewrite !Qred_correct. repeat split.
  - rewrite <- Qplus_0_r at 1. now apply Qplus_lt_r.
  - apply Qle_refl.
  - apply Qmult_lt_0_compat; [reflexivity | exact H].
Qed.

Theorem C65_dense_refuted :
  exists (S : Type) init step calc ct cx cdt (s : S) (t0 tend dt : Q),
  forward_contract_Q init step ct cx cdt /\ (0 < dt)%Q /\ (t0 < tend)%Q /\
  let D := @dense_of Q0 S unit Q init step calc ct cx cdt in
  exists o1 o2 r1 r2,
    integrate_const_dense D rec_obs 30 s tt 0%Q t0 tend dt = (o1, Ok r1) /\
    (let* it0 := const_dense_begin D s 0%Q t0 tend dt in
     for_each rec_obs (const_dense_inc D 30 t0 tend dt) ci_end ci_deref 30 it0 tt 0) = (o2, Ok r2) /\
    obs_of o1 = [(0, 0); (1, 1); (5, 2); (9, 3); (16, 4)]%Q /\
    obs_of o2 = [(0, 0); (1, 1); (5, 2); (9, 3); (19, 4)]%Q.
Proof.
  exists _, qd_init, qd_step, qd_calc, qd_t, qd_x, qd_dt, (0,0,0,0,0)%Q, 0%Q, 4%Q, 1%Q.
  split; [exact qd_contract|]. split; [reflexivity|]. split; [reflexivity|].
  eexists _, _, _, _. split; [vm_compute; reflexivity|]. split; [vm_compute; reflexivity|].
  split; reflexivity.
Qed.
Print Assumptions C65_dense_refuted.

(** C20: false.  A stepper that rejects 999 attempts and then succeeds: the increment throws
    although the last permitted attempt was successful. *)
Definition late_step (s : nat) (x : nat) (t dt : Q) : nat * nat * Q * Q * bool :=
  if (s =? 999)%nat then (S s, S x, Qred (t + dt), dt, true) else (S s, x, t, dt, false).

Theorem C20_last_attempt_refuted :
  exists (f : nat -> nat -> Q -> Q -> nat * nat * Q * Q * bool) (it : ait Q0 nat nat) (tr : list (ev nat Q)),
    adaptive_inc (N := Q0) (W := unit) (ctrl_step f) 1%Q it tt = (tr, Exc Overflow) /\
    length (tries_of tr) = max_attempts /\
    snd (last (tries_of tr) (0%nat, 0%Q, 0%Q, false)) = true.
Proof.
  exists late_step, (@mkAit Q0 nat nat 0%nat 0%nat 0%Q (1#2)%Q false).
  eexists. split; [vm_compute; reflexivity|]. split; vm_compute; reflexivity.
Qed.
Print Assumptions C20_last_attempt_refuted.

(** What does hold: the exception means that all attempts but possibly the last were rejected,
    and without an exception the last attempt made was the successful one. *)
Theorem C20_exception_partial :
  forall (N : Num) (S W X : Type) (f : S -> X -> N -> N -> S * X * N * N * bool)
         (todo : nat) (s : S) (w : W) (x : X) (t dt : N) tr,
  attempts (ctrl_step f) todo s w x t dt = (tr, Exc Overflow) ->
  exists x1 t1 dt1 ok pre,
    tries_of tr = pre ++ [(x1, t1, dt1, ok)] /\
    length pre = pred todo /\ Forall (fun a => snd a = false) pre.
Proof. exact (@attempts_overflow). Qed.
Print Assumptions C20_exception_partial.

Theorem C20_success_partial :
  forall (N : Num) (S W X : Type) (f : S -> X -> N -> N -> S * X * N * N * bool)
         (todo : nat) (s : S) (w : W) (x : X) (t dt : N) tr r,
  attempts (ctrl_step f) todo s w x t dt = (tr, Ok r) ->
  exists x1 t1 dt1 pre,
    tries_of tr = pre ++ [(x1, t1, dt1, true)] /\
    (length pre < pred todo)%nat /\ Forall (fun a => snd a = false) pre.
Proof. exact (@attempts_ok). Qed.
Print Assumptions C20_success_partial.

Example C20_example :
  (exists tr, attempts (N := Q0) (W := unit) (ctrl_step late_step) max_attempts 5%nat tt 0%nat 0%Q 1%Q
     = (tr, Ok (1000%nat, tt, 1%nat, 1%Q, 1%Q))) /\
  (exists tr, attempts (N := Q0) (W := unit) (ctrl_step late_step) 3 5%nat tt 0%nat 0%Q 1%Q = (tr, Exc Overflow)).
Proof. split; eexists; vm_compute; reflexivity. Qed.

(** C21: one call of an observer_collection with members [ids] (each reports its name and its
    arguments and may change the world). *)
Theorem C21_call :
  forall (X T W : Type) (upd : nat -> W -> X -> T -> W) (ids : list nat) (w : W) (x : X) (t : T),
  collection_obs (map (fun i w x t => ([(i, x, t)], Ok (upd i w x t))) ids) w x t =
  (map (fun i => (i, x, t)) ids, Ok (fold_left (fun w i => upd i w x t) ids w)).
Proof. exact (@collection_calls). Qed.
Print Assumptions C21_call.

(** C21, whole run of integrate_n_steps / integrate_const: k members, each keeping its own log;
    afterwards every log has been extended by exactly the observations of a run with one observer. *)
Theorem C21_n_steps :
  forall (N : Num) (S X : Type) (f : S -> X -> N -> N -> S * X) (k : nat)
         (s : S) (logs : list (list (X * carrier N))) (x : X) (t0 dt : N) (n : nat),
  length logs = k ->
  exists tr1 tr2 s1 x1 t1,
    integrate_n_steps rec_obs (plain_step f) s tt x t0 dt n = (tr1, Ok (s1, tt, x1, t1)) /\
    integrate_n_steps (collection_obs (log_members k)) (plain_step f) s logs x t0 dt n
      = (tr2, Ok (s1, map (fun h => h ++ obs_of tr1) logs, x1, t1)).
Proof. exact (@n_steps_logs). Qed.
Print Assumptions C21_n_steps.

Theorem C21_const :
  forall (N : Num) (S X : Type) (f : S -> X -> N -> N -> S * X) (k fuel : nat)
         (s : S) (logs : list (list (X * carrier N))) (x : X) (t0 tend dt : N) tr1 s1 x1 n,
  length logs = k ->
  integrate_const rec_obs (plain_step f) fuel s tt x t0 tend dt = (tr1, Ok (s1, tt, x1, n)) ->
  exists tr2,
    integrate_const (collection_obs (log_members k)) (plain_step f) fuel s logs x t0 tend dt
      = (tr2, Ok (s1, map (fun h => h ++ obs_of tr1) logs, x1, n)).
Proof. exact (@const_logs). Qed.
Print Assumptions C21_const.

Example C21_example :
  snd (integrate_n_steps (N := Q0) (collection_obs (log_members 2)) (plain_step euler_exp) 0%nat
         [[]; [(7, 7)]]%Q 1 0 (1#2) 2)
  = Ok (2%nat, [[(1, 0); (3#2, 1#2); (9#4, 1)]; [(7, 7); (1, 0); (3#2, 1#2); (9#4, 1)]], 9#4, 1)%Q.
Proof. vm_compute. reflexivity. Qed.

(** C66: the integrate functions implemented with iterators agree with the others for plain and
    controlled steppers on a non-empty interval. *)
Theorem C66_const_partial :
  forall (N : Num) (S W X : Type) (obs : W -> X -> N -> M (ev X (carrier N)) W)
         (do_step : S -> W -> X -> N -> N -> M (ev X (carrier N)) (S * W * X))
         (fuel : nat) (s : S) (w : W) (x : X) (t0 tend dt : N),
  (Z.of_nat fuel < 2 ^ 64)%Z ->
  less_with_sign tend t0 dt = false ->
  snd (integrate_const obs do_step fuel s w x t0 tend dt) <> Fuel ->
  iter_integrate_const obs do_step (Datatypes.S fuel) s w x t0 tend dt =
  (let* (_, w1, x1, n) := integrate_const obs do_step fuel s w x t0 tend dt in ret (w1, x1, Z.of_nat n)).
Proof. exact (@iter_const_eq). Qed.
Print Assumptions C66_const_partial.

Theorem C66_adaptive_partial :
  forall (N : Num) (S W X : Type)
         (try_step : S -> W -> X -> N -> N -> M (ev X (carrier N)) (S * W * X * N * N * bool))
         (obs : W -> X -> N -> M (ev X (carrier N)) W)
         (fuel : nat) (s : S) (w : W) (x : X) (t0 tend dt : N),
  (Z.of_nat fuel < 2 ^ 64)%Z ->
  less_with_sign tend t0 dt = false ->
  snd (integrate_adaptive_ctrl try_step obs fuel s w x t0 tend dt) <> Fuel ->
  snd (integrate_adaptive_ctrl try_step obs fuel s w x t0 tend dt) <> Exc StepAdjustment ->
  iter_integrate_adaptive_ctrl obs try_step (Datatypes.S fuel) s w x t0 tend dt =
  (let* (_, w1, x1, _, _, n) := integrate_adaptive_ctrl try_step obs fuel s w x t0 tend dt in
   ret (w1, x1, Z.of_nat n)).
Proof. exact (fun N S W X ts obs => @iter_adaptive_eq N S W X obs ts). Qed.
Print Assumptions C66_adaptive_partial.

Example C66_example :
  snd (iter_integrate_const (N := Q0) (W := unit) rec_obs (plain_step euler_exp) 11 0%nat tt 1%Q 0%Q 2%Q (1#2)%Q)
  = Ok (tt, 81#16, 4%Z)%Q.
Proof. vm_compute. reflexivity. Qed.

(** C66 is false in general: with the end before the start the iterator version shows nothing to the
    observer and returns 2^64 - 1 steps (the other version makes one observation and returns 0) ... *)
Theorem C66_empty_refuted :
  exists (f : nat -> Q -> Q -> Q -> nat * Q) (t0 tend dt : Q) o1 r1,
    integrate_const (N := Q0) (W := unit) rec_obs (plain_step f) 5 0%nat tt 1%Q t0 tend dt = (o1, Ok (r1, 0%nat)) /\
    length (obs_of o1) = 1%nat /\
    iter_integrate_const (N := Q0) (W := unit) rec_obs (plain_step f) 5 0%nat tt 1%Q t0 tend dt
    = ([], Ok (tt, 1%Q, (2 ^ 64 - 1)%Z)).
Proof.
  exists euler_exp, 1%Q, 0%Q, (1#2)%Q. eexists _, _. repeat split; vm_compute; reflexivity.
Qed.
Print Assumptions C66_empty_refuted.

(** ... and for dense output steppers integrate_adaptive never writes the result to the state that
    was passed by reference: it keeps the initial value, although the last observed state differs. *)
Theorem C66_dense_state_refuted :
  exists (frac grow t0 tend dt x : Q) o1 r1 o2 n,
    forward_contract_Q lin_init (lin_step frac grow) lin_t lin_x lin_dt /\
    integrate_adaptive_dense (lin_dense frac grow) rec_obs 9 (0,0,0)%Q tt x t0 tend dt = (o1, Ok (r1, tt, (4:Q), 2%nat)) /\
    iter_integrate_adaptive_dense rec_obs (lin_dense frac grow) 9 (0,0,0)%Q tt x t0 tend dt = (o2, Ok (tt, x, n)) /\
    x = 2%Q /\ last (obs_of o2) (0,0)%Q = (4, 2)%Q.
Proof.
  exists 1%Q, 1%Q, 0%Q, 2%Q, 1%Q, 2%Q. eexists _, _, _, _. split; [|split; [|split]].
  - split; [now intros|]. intros s H. apply lin_contract_Q; auto; reflexivity || (vm_compute; discriminate).
  - vm_compute. reflexivity.
  - vm_compute. reflexivity.
  - split; reflexivity.
Qed.
Print Assumptions C66_dense_state_refuted.

(** C67: a times iterator shows the requested times.  In exact arithmetic (epsilon 0) and for
    strictly monotone times a traversal is exactly the run of integrate_times. *)
Theorem C67_times_partial :
  forall (S W X : Type) (obs : W -> X -> R -> M (ev X R) W)
         (do_step : S -> W -> X -> R -> R -> M (ev X R) (S * W * X))
         (fuel : nat) (s : S) (w : W) (x : X) (times : list R) (dt : R) (fuel2 : nat),
  times <> [] -> dt <> 0%R -> strictly_mono (dir dt) times -> (length times < fuel2)%nat ->
  (let* it0 := times_begin (N := RNum 0) s x times in
   let* (it, w1, calls) := for_each obs (times_inc (N := RNum 0) do_step fuel dt) ti_end ti_deref fuel2 it0 w 0 in
   ret (ti_s it, w1, ti_x it)) =
  (let* (s1, w1, x1, n) := @integrate_times_plain (RNum 0) S W X obs do_step fuel s w x times dt in ret (s1, w1, x1)).
Proof. exact (@times_iter_eq). Qed.
Print Assumptions C67_times_partial.

Example C67_example :
  strictly_mono (dir (1/2)) [0; 1; 3]%R /\ (1/2 <> 0)%R /\
  obs_of (fst (let* it0 := times_begin (N := Q0) 0%nat 1%Q [0; 1; 3]%Q in
     for_each (W := unit) rec_obs (times_inc (N := Q0) (plain_step euler_exp) 9 (3#4)%Q) ti_end ti_deref 5 it0 tt 0))
  = [(1, 0); (35#16, 1); (5145#512, 3)]%Q.
Proof.
  unfold dir. destruct (Rlt_dec 0 (1/2)); [|lra]. cbn [strictly_mono]. repeat split; try lra.
  all: try (vm_compute; reflexivity).
Qed.

(** In binary64 it is false: requested times 0.2 and 0.9, the iterator shows a time one ulp below
    0.9 (integrate_times shows 0.9). *)
Theorem C67_binary64_refuted :
  exists (times : list F64) (dt : F64),
    let run1 := integrate_times_plain (N := F64) (W := unit) rec_obs
                  (plain_step (fun (_ : unit) (x : nat) _ _ => (tt, S x))) 9 tt tt 0%nat times dt in
    let run2 := (let* it0 := times_begin (N := F64) tt 0%nat times in
                 for_each (W := unit) rec_obs (times_inc (N := F64) (plain_step (fun _ x _ _ => (tt, S x))) 9 dt)
                          ti_end ti_deref 5 it0 tt 0) in
    match snd run1 with Ok _ => True | _ => False end /\
    match snd run2 with Ok _ => True | _ => False end /\
    map snd (obs_of (fst run1)) = times /\ map snd (obs_of (fst run2)) <> times.
Proof.
  exists [ndiv (nofZ 2) (nofZ 10); ndiv (nofZ 9) (nofZ 10)]%num, (nofZ 1). cbv zeta.
  split; [vm_compute; exact I|]. split; [vm_compute; exact I|].
  split; [vm_compute; reflexivity | vm_compute; discriminate].
Qed.
Print Assumptions C67_binary64_refuted.

(** C68: constructing a times iterator for an empty range is undefined behaviour. *)
Theorem C68_empty_times_refuted :
  exists (s x : nat) (times : list Q), times = [] /\
  times_begin (N := Q0) s x times = fail UB.
Proof. exists 0%nat, 0%nat, []. split; reflexivity. Qed.
Print Assumptions C68_empty_times_refuted.

(** Property theorems C01, C02, C03, C11, C14 (plain): integrate functions with plain steppers. *)
From Coq Require Import List Arith ZArith QArith Reals Lra Lia.
From Verif Require Import M_Num M_Sign M_Run M_Plain S_Grid S_Real S_Times X_Inst
  P_Plain P_PlainR P_PlainA.
Import ListNotations.
Local Open Scope run_scope.

(** C01, any number type, any observer and stepper, also throwing ones: the call is exactly the
    schedule observe(t0), step(t0,dt), observe(t0+1*dt), ..., observe(t0+n*dt). *)
Theorem C01_n_steps_run :
  forall (N : Num) (S W X : Type) (obs : W -> X -> N -> M (ev X (carrier N)) W)
         (do_step : S -> W -> X -> N -> N -> M (ev X (carrier N)) (S * W * X))
         (s : S) (w : W) (x : X) (t0 dt : N) (n : nat),
  integrate_n_steps obs do_step s w x t0 dt n =
  (let* (s1, w1, x1) := exec obs do_step (grid_schedule t0 dt n) s w x in
   ret (s1, w1, x1, grid t0 dt n)).
Proof. exact (@integrate_n_steps_exec). Qed.
Print Assumptions C01_n_steps_run.

(** C01, non-throwing stepper: observations, steps, returned time and final state. *)
Theorem C01_n_steps :
  forall (N : Num) (S W X : Type) (f : S -> X -> N -> N -> S * X)
         (s : S) (w : W) (x : X) (t0 dt : N) (n : nat),
  exists tr,
    integrate_n_steps rec_obs (plain_step f) s w x t0 dt n
      = (tr, Ok (fst (after f t0 dt s x n), w, snd (after f t0 dt s x n), grid t0 dt n)) /\
    obs_of tr = map (fun k => (snd (after f t0 dt s x k), grid t0 dt k)) (seq 0 (Datatypes.S n)) /\
    steps_of tr = map (fun k => (snd (after f t0 dt s x k), grid t0 dt k, dt)) (seq 0 n).
Proof. exact (@n_steps_pure). Qed.
Print Assumptions C01_n_steps.

Example C01_example :
  integrate_n_steps (N := Q0) (W := unit) rec_obs (plain_step euler_exp) 0%nat tt 1 0 (1#2) 2
  = ([EObs 1 0; EStep 1 0 (1#2); EObs (3#2) (1#2); EStep (3#2) (1#2) (1#2); EObs (9#4) 1],
     Ok (2%nat, tt, 9#4, 1)).
Proof. vm_compute. reflexivity. Qed.

(** C02, any number type: if n is the first grid index whose next point lies beyond the end,
    the call is the schedule with n steps and returns n ... *)
Theorem C02_const_run :
  forall (N : Num) (S W X : Type) (obs : W -> X -> N -> M (ev X (carrier N)) W)
         (do_step : S -> W -> X -> N -> N -> M (ev X (carrier N)) (S * W * X))
         (fuel : nat) (s : S) (w : W) (x : X) (t0 tend dt : N) (n : nat),
  first_false (fun k => less_eq_with_sign (grid t0 dt k + dt)%num tend dt) n ->
  (n < fuel)%nat ->
  integrate_const obs do_step fuel s w x t0 tend dt =
  (let* (s1, w1, x1) := exec obs do_step (grid_schedule t0 dt n) s w x in
   ret (s1, w1, x1, n)).
Proof. exact (@integrate_const_exec). Qed.
Print Assumptions C02_const_run.

(** ... and conversely whenever the call returns m, m is that index. *)
Theorem C02_const_returns :
  forall (N : Num) (S W X : Type) (obs : W -> X -> N -> M (ev X (carrier N)) W)
         (do_step : S -> W -> X -> N -> N -> M (ev X (carrier N)) (S * W * X))
         (fuel : nat) (s : S) (w : W) (x : X) (t0 tend dt : N) tr r m,
  integrate_const obs do_step fuel s w x t0 tend dt = (tr, Ok (r, m)) ->
  first_false (fun k => less_eq_with_sign (grid t0 dt k + dt)%num tend dt) m /\ (m < fuel)%nat.
Proof. exact (@integrate_const_ok_inv). Qed.
Print Assumptions C02_const_returns.

(** C02 for a non-throwing stepper: what is observed. *)
Theorem C02_const_observations :
  forall (N : Num) (S W X : Type) (f : S -> X -> N -> N -> S * X) (fuel : nat)
         (s : S) (w : W) (x : X) (t0 tend dt : N) (n : nat),
  first_false (fun k => less_eq_with_sign (grid t0 dt k + dt)%num tend dt) n -> (n < fuel)%nat ->
  exists tr,
    integrate_const rec_obs (plain_step f) fuel s w x t0 tend dt
      = (tr, Ok (fst (after f t0 dt s x n), w, snd (after f t0 dt s x n), n)) /\
    obs_of tr = map (fun k => (snd (after f t0 dt s x k), grid t0 dt k)) (seq 0 (Datatypes.S n)) /\
    steps_of tr = map (fun k => (snd (after f t0 dt s x k), grid t0 dt k, dt)) (seq 0 n).
Proof. exact (@const_pure). Qed.
Print Assumptions C02_const_observations.

(** C02, exact arithmetic: for dt <> 0 such an index exists (termination), no observation after
    the first lies beyond the end by more than eps, the last one is less than one step away. *)
Theorem C02_const_interval :
  forall eps t0 tend dt : R, dt <> 0%R ->
  exists n,
    first_false (fun k => @less_eq_with_sign (RNum eps) (@grid (RNum eps) t0 dt k + dt)%R tend dt) n /\
    (forall k, (1 <= k <= n)%nat -> (dir dt * (t0 + INR k * dt - tend) <= eps)%R) /\
    (dir dt * (tend - (t0 + INR n * dt)) < Rabs dt - eps)%R.
Proof.
  exact (fun eps t0 tend dt H =>
    match const_count eps t0 tend dt H with
    | ex_intro _ n Hn => ex_intro _ n (conj Hn (conj
        (fun k Hk => const_count_before eps t0 tend dt n k Hn Hk) (const_count_last eps t0 tend dt n Hn)))
    end).
Qed.
Print Assumptions C02_const_interval.

Example C02_example :
  integrate_const (N := Q0) (W := unit) rec_obs (plain_step euler_exp) 10 0%nat tt 1 0 (-7#5) (-1#2)
  = ([EObs 1 0; EStep 1 0 (-1#2); EObs (1#2) (-1#2); EStep (1#2) (-1#2) (-1#2); EObs (1#4) (-1)],
     Ok (2%nat, tt, 1#4, 2%nat)) /\
  first_false (fun k => @less_eq_with_sign Q0 (@grid Q0 0 (-1#2) k + (-1#2))%Q (-7#5) (-1#2)) 2.
Proof. split; [vm_compute; reflexivity|]. split; [|reflexivity].
  intros [|[|k]] H; try reflexivity; lia. Qed.

(** C03, any number type: integrate_const's schedule, then one shorter step onto the end time
    (made with the stepper object the function was given) and an observation at the end time. *)
Theorem C03_adaptive_run :
  forall (N : Num) (S W X : Type) (obs : W -> X -> N -> M (ev X (carrier N)) W)
         (do_step : S -> W -> X -> N -> N -> M (ev X (carrier N)) (S * W * X))
         (fuel : nat) (s : S) (w : W) (x : X) (t0 tend dt : N) (n : nat),
  first_false (fun k => less_eq_with_sign (grid t0 dt k + dt)%num tend dt) n ->
  (n < fuel)%nat ->
  integrate_adaptive_plain obs do_step fuel s w x t0 tend dt =
  (let* (_, w1, x1) := exec obs do_step (grid_schedule t0 dt n) s w x in
   let e := (t0 + dt * nofnat n)%num in
   if less_with_sign e tend dt then
     let* (s2, w2, x2) := exec obs do_step [CStep e (tend - e)%num; CObs tend] s w1 x1 in
     ret (s2, w2, x2, Datatypes.S n)
   else ret (s, w1, x1, n)).
Proof. exact (@integrate_adaptive_plain_exec). Qed.
Print Assumptions C03_adaptive_run.

(** C03, exact arithmetic: the steps are adjacent, lead from t0 to within eps of tend, have the
    direction of dt and at most its length; observations are at t0 and after every step. *)
Theorem C03_adaptive_covers :
  forall eps : R, (0 <= eps)%R ->
  forall (S W X : Type) (f : S -> X -> R -> R -> S * X) (s : S) (w : W) (x : X) (t0 tend dt : R),
  dt <> 0%R -> (0 <= dir dt * (tend - t0))%R ->
  exists F, forall fuel, (F <= fuel)%nat -> exists tr s' x' n,
    @integrate_adaptive_plain (RNum eps) S W X rec_obs (plain_step f) fuel s w x t0 tend dt
      = (tr, Ok (s', w, x', n)) /\
    let steps := map (fun e => (snd (fst e), snd e)) (steps_of tr) in
    n = length steps /\
    good_widths dt steps /\
    map snd (obs_of tr) = t0 :: map (fun td => fst td + snd td)%R steps /\
    (exists b, chain t0 steps b /\ (Rabs (tend - b) <= eps)%R) /\
    exists tl, last (obs_of tr) (x, t0) = (x', tl) /\ (Rabs (tend - tl) <= eps)%R.
Proof. exact (fun eps H S W X f => @adaptive_plain_R eps H S W X f). Qed.
Print Assumptions C03_adaptive_covers.

Example C03_example :
  integrate_adaptive_plain (N := Q0) (W := unit) rec_obs (plain_step euler_exp) 10 0%nat tt 1 0 (3#4) (1#2)
  = ([EObs 1 0; EStep 1 0 (1#2); EObs (3#2) (1#2); EStep (3#2) (1#2) (1#4); EObs (15#8) (3#4)],
     Ok (1%nat, tt, 15#8, 2%nat)).
Proof. vm_compute. reflexivity. Qed.

Example C03_hyps : (-1 <> 0 /\ 0 <= dir (-1) * (-5/2 - 0))%R.
Proof. unfold dir. destruct (Rlt_dec 0 (-1)); lra. Qed.

(** C11, exact arithmetic, any observer and stepper (also throwing): for a non-empty monotone
    list of times the call is a schedule with the stated properties; it returns the step count. *)
Theorem C11_times_run :
  forall eps : R, (0 <= eps)%R ->
  forall (S W X : Type) (obs : W -> X -> R -> M (ev X R) W)
         (do_step : S -> W -> X -> R -> R -> M (ev X R) (S * W * X)) (dt : R) (times : list R),
  dt <> 0%R -> times <> [] -> monotone (dir dt) times ->
  exists F, forall fuel, (F <= fuel)%nat ->
  exists cs, times_schedule eps dt times cs /\
    forall s w x,
    @integrate_times_plain (RNum eps) S W X obs do_step fuel s w x times dt =
    (let* (s1, w1, x1) := @exec (RNum eps) S W X obs do_step cs s w x in
     ret (s1, w1, x1, count_steps cs)).
Proof.
  exact (fun eps H S W X obs do_step dt times H1 H2 H3 =>
    match it_outer_R eps H obs do_step dt H1 times H2 H3 with
    | ex_intro _ F HF => ex_intro _ F (fun fuel Hf =>
        match HF fuel dt Hf eq_refl with
        | ex_intro _ cs (conj Hc Hr) => ex_intro _ cs (conj Hc (fun s w x => Hr s w x O))
        end)
    end).
Qed.
Print Assumptions C11_times_run.

Example C11_example :
  integrate_times_plain (N := Q0) (W := unit) rec_obs (plain_step euler_exp) 10 0%nat tt 1 [0; 3#4; 1] (1#2)
  = ([EObs 1 0; EStep 1 0 (1#2); EStep (3#2) (1#2) (1#4); EObs (15#8) (3#4);
      EStep (15#8) (3#4) (1#4); EObs (75#32) 1],
     Ok (3%nat, tt, 75#32, 3%nat)).
Proof. vm_compute. reflexivity. Qed.

Example C11_hyps : monotone (dir (-2)) [0; -1; -1; -7]%R.
Proof. unfold dir. destruct (Rlt_dec 0 (-2)); simpl; lra. Qed.

(** C14, plain steppers: an empty time range dereferences the end iterator. *)
Theorem C14_times_plain_refuted :
  exists (N : Num) (obs : unit -> Q -> N -> M (ev Q (carrier N)) unit)
         (do_step : nat -> unit -> Q -> N -> N -> M (ev Q (carrier N)) (nat * unit * Q)) (dt : N),
  forall fuel, result_of (integrate_times_plain obs do_step fuel 0%nat tt 1 [] dt) = UB.
Proof. exact (ex_intro _ Q0 (ex_intro _ rec_obs (ex_intro _ (plain_step euler_exp)
        (ex_intro _ (1:Q) (fun fuel => eq_refl))))). Qed.
Print Assumptions C14_times_plain_refuted.

(** C64 is false: with a stepper passed by value, integrate_const works on its own copy, so the
    last, shortened step is made by the original stepper object.  The stepper below counts its
    steps and writes the count into the state: the third step sees count 0, not 2. *)
Theorem C64_last_step_stepper_refuted :
  exists f : nat -> list nat -> Q -> Q -> nat * list nat,
  (forall s x t dt, f s x t dt = (S s, x ++ [s])) /\
  result_of (integrate_adaptive_plain (N := Q0) (W := unit) rec_obs (plain_step f) 10 0%nat tt [] 0 (5#2) 1)
  = Ok (1, tt, [0; 1; 0], 3)%nat.
Proof. exact (ex_intro _ (fun s x _ _ => (S s, x ++ [s])) (conj (fun _ _ _ _ => eq_refl) eq_refl)). Qed.
Print Assumptions C64_last_step_stepper_refuted.

(** The user-level adaptive integration: integrate() and make_controlled() (C112, C113). *)
From Coq Require Import List Arith ZArith Reals Lia Lra.
From Verif Require Import M_Num M_Run M_Checker M_Controlled S_Grid M_RK S_RK M_CtrlRK S_Real S_CtrlRK M_Integrate S_Integrate
  P_R P_CtrlTermRK P_Integrate.
Import ListNotations.
Local Open Scope R_scope.

(** ** C112: whatever the system, the observer (it may throw), the tolerances and the step limit: the
    observer of integrate_adaptive with make_controlled( abs , rel , max_dt , stepper ) sees first the
    start point; every two consecutive observations are linked by one step of the method whose error
    estimate is within abs + rel * (|x| + |h| |x'|), in the direction of integration, not past the end
    time and not longer than the limit.  On a normal return the number of observations is the returned
    number of steps plus one, the last one is the returned state, and the end time is reached.  The only
    other outcomes are step_adjustment_error and whatever the observer throws. *)
Theorem C112_explicit : forall eps, 0 <= eps -> forall I W (idx : list I) (sys : (I -> R) -> R -> (I -> R)) abs rel max_dt,
  0 < abs -> 0 <= rel ->
  forall n (g : W -> (I -> R) -> R -> res W) fuel c w x t0 tend dt tr r,
  (0 < rk_error_order n)%nat -> dt <> 0 -> agrees dt max_dt ->
  integrate_adaptive_ctrl (N := RNum eps) (ctrl_step (made_explicit (N := RNum eps) idx rpow sys n abs rel max_dt))
    (user_obs g) (Datatypes.S fuel) c w x t0 tend dt = (tr, r) ->
  (exists l, obs_of tr = (x, t0) :: l)
  /\ linked (good_step eps (tab_of n) idx sys abs rel max_dt (dir dt) tend) (obs_of tr)
  /\ (forall c' w' x' t' dt' k, r = Ok (c', w', x', t', dt', k) ->
       length (obs_of tr) = Datatypes.S k /\ last (obs_of tr) (x, t0) = (x', t')
       /\ (0 <= dir dt * (tend - t0) -> Rabs (tend - t') <= eps))
  /\ (forall e, r = Exc e -> e = StepAdjustment \/ exists w0 x0 t1, g w0 x0 t1 = Exc e)
  /\ (r = UB -> exists w0 x0 t1, g w0 x0 t1 = UB).
Proof.
  intros eps He I W idx sys abs rel max_dt H1 H2.
  exact (adaptive_explicit eps He idx sys abs rel max_dt H1 H2).
Qed.
Print Assumptions C112_explicit.

(** The same with runge_kutta_dopri5, for a controller that was not used before or was reset. *)
Theorem C112_dopri5 : forall eps, 0 <= eps -> forall I W (idx : list I) (sys : (I -> R) -> R -> (I -> R)) abs rel max_dt,
  0 < abs -> 0 <= rel ->
  forall rs (g : W -> (I -> R) -> R -> res W) fuel c w x t0 tend dt tr r,
  cf_first c = true -> dt <> 0 -> agrees dt max_dt ->
  integrate_adaptive_ctrl (N := RNum eps) (ctrl_step (made_dopri5 (N := RNum eps) idx rpow sys abs rel max_dt rs))
    (user_obs g) (Datatypes.S fuel) c w x t0 tend dt = (tr, r) ->
  (exists l, obs_of tr = (x, t0) :: l)
  /\ linked (good_step eps (tab_of rk_dopri5) idx sys abs rel max_dt (dir dt) tend) (obs_of tr)
  /\ (forall c' w' x' t' dt' k, r = Ok (c', w', x', t', dt', k) ->
       length (obs_of tr) = Datatypes.S k /\ last (obs_of tr) (x, t0) = (x', t')
       /\ (0 <= dir dt * (tend - t0) -> Rabs (tend - t') <= eps))
  /\ (forall e, r = Exc e -> e = StepAdjustment \/ exists w0 x0 t1, g w0 x0 t1 = Exc e)
  /\ (r = UB -> exists w0 x0 t1, g w0 x0 t1 = UB).
Proof.
  intros eps He I W idx sys abs rel max_dt H1 H2.
  exact (adaptive_dopri5 eps He idx sys abs rel max_dt H1 H2).
Qed.
Print Assumptions C112_dopri5.

Lemma default_eps_R eps : @default_eps (RNum eps) = / 10 ^ 6.
Proof. unfold default_eps, nfrac. rnum. field. Qed.

(** integrate(): the documented tolerances of 1e-6, no limit of the step. *)
Theorem C112_integrate : forall eps, 0 <= eps -> forall I W (idx : list I) (sys : (I -> R) -> R -> (I -> R))
  rs (g : W -> (I -> R) -> R -> res W) fuel c w x t0 tend dt tr r, dt <> 0 ->
  integrate (N := RNum eps) idx rpow sys (user_obs g) rs (Datatypes.S fuel) c w x t0 tend dt = (tr, r) ->
  (exists l, obs_of tr = (x, t0) :: l)
  /\ linked (good_step eps dopri5_tab7 idx sys (/ 10 ^ 6) (/ 10 ^ 6) 0 (dir dt) tend) (obs_of tr)
  /\ (forall c' w' x' t' dt' k, r = Ok (c', w', x', t', dt', k) ->
       length (obs_of tr) = Datatypes.S k /\ last (obs_of tr) (x, t0) = (x', t')
       /\ (0 <= dir dt * (tend - t0) -> Rabs (tend - t') <= eps))
  /\ (forall e, r = Exc e -> e = StepAdjustment \/ exists w0 x0 t1, g w0 x0 t1 = Exc e)
  /\ (r = UB -> exists w0 x0 t1, g w0 x0 t1 = UB).
Proof.
  intros eps He I W idx sys rs g fuel c w x t0 tend dt tr r Hd H. unfold integrate in H. rewrite default_eps_R in H.
  assert (P : 0 < / 10 ^ 6) by (apply Rinv_0_lt_compat; lra).
  refine (adaptive_dopri5 eps He idx sys _ _ 0 P (Rlt_le _ _ P) rs g fuel _ w x t0 tend dt tr r _ Hd (or_introl eq_refl) H).
  reflexivity.
Qed.
Print Assumptions C112_integrate.

(** integrate() returns: for every system bounded between start and end. *)
Theorem C112_total : forall eps, 0 <= eps -> forall I W (idx : list I) (sys : (I -> R) -> R -> (I -> R)) B t0 tend sg,
  (forall x t i, 0 <= sg * (t - t0) /\ sg * (t - tend) <= eps -> Rabs (sys x t i) <= B) -> 0 < B ->
  forall (obs : W -> (I -> R) -> R -> M (ev (I -> R) R) W), (forall w x t, exists tr w', obs w x t = (tr, Ok w')) ->
  let h := / 10 ^ 6 / (B * rsum (map Rabs (tab_b2 (dopri5_tab7 (N := RNum eps))))) in
  forall rs c w x dt, dt <> 0 -> dir dt = sg -> 0 <= dir dt * (tend - t0) ->
  (9 / 10) ^ 499 * (Rabs (tend - t0) + eps) <= h ->
  forall k fuel, Rabs (tend - t0) <= INR k * Rmin (Rabs dt) (1 / 5 * h) + eps -> (k < fuel)%nat ->
  exists tr c' w' x' t' dt' steps,
   integrate (N := RNum eps) idx rpow sys obs rs fuel c w x t0 tend dt = (tr, Ok (c', w', x', t', dt', steps))
   /\ Rabs (tend - t') <= eps /\ (steps <= k)%nat.
Proof.
  intros eps He I W idx sys B t0 tend sg HB HB0 obs Ho h rs c w x dt Hd Hsg Hs HL k fuel Hk Hf.
  assert (P : 0 < / 10 ^ 6) by (apply Rinv_0_lt_compat; lra).
  unfold integrate. rewrite default_eps_R.
  exact (fsal_terminates eps He idx (made_cfg (N := RNum eps) (/ 10 ^ 6) (/ 10 ^ 6))
    (made_tol eps (/ 10 ^ 6) (/ 10 ^ 6) P (Rlt_le _ _ P)) sys B t0 tend sg HB HB0 obs Ho rs (new_dopri5 (N := RNum eps) c) w x dt
    eq_refl Hd Hsg Hs HL k fuel Hk Hf).
Qed.
Print Assumptions C112_total.

Lemma last_in {A} (z : A) l d : In (last (z :: l) d) (z :: l).
Proof. revert z. induction l as [|a l IH]; intro z; [now left|]. right. exact (IH a). Qed.

(** ** C113: integrate() solves quadratures of polynomials exactly: x_i' = q_i(t) with deg q_i <= 4, i.e. the
    solution is a polynomial with at most 6 coefficients; every observed state and the returned one lie
    on the exact solution, whatever step widths the controller has chosen. *)
Theorem C113_integrate : forall eps, 0 <= eps -> forall I W (idx : list I) (P : I -> list R)
  rs (g : W -> (I -> R) -> R -> res W) fuel c w x t0 tend dt tr r, dt <> 0 ->
  (forall i, (length (P i) <= 6)%nat) -> (forall i, x i = peval (P i) t0) ->
  integrate (N := RNum eps) idx rpow (fun _ s i => peval (pder (P i)) s) (user_obs g) rs (Datatypes.S fuel) c w x t0 tend dt
    = (tr, r) ->
  (forall y s, In (y, s) (obs_of tr) -> forall i, y i = peval (P i) s)
  /\ (forall c' w' x' t' dt' k, r = Ok (c', w', x', t', dt', k) -> forall i, x' i = peval (P i) t').
Proof.
  intros eps He I W idx P rs g fuel c w x t0 tend dt tr r Hd HP Hx H.
  destruct (C112_integrate eps He I W idx _ rs g fuel c w x t0 tend dt tr r Hd H) as ((l & El) & HL & HO & _).
  rewrite El in *.
  pose proof (linked_polynomial eps P rk_dopri5 idx (/ 10 ^ 6) (/ 10 ^ 6) 0 (dir dt) tend HP l x t0 Hx HL) as F.
  rewrite Forall_forall in F.
  assert (G : forall y s, In (y, s) ((x, t0) :: l) -> forall i, y i = peval (P i) s)
    by (intros y s Hin i; exact (F (y, s) Hin i)).
  split; [exact G|]. intros c' w' x' t' dt' k Hr i.
  destruct (HO _ _ _ _ _ _ Hr) as (_ & E & _). apply G.
  exact (eq_ind _ (fun z : (I -> R) * R => In z ((x, t0) :: l)) (last_in (x, t0) l (x, t0)) _ E).
Qed.
Print Assumptions C113_integrate.

(** The same for make_controlled with any error stepper, up to its order. *)
Theorem C113_explicit : forall eps, 0 <= eps -> forall I W (idx : list I) (P : I -> list R) abs rel max_dt,
  0 < abs -> 0 <= rel ->
  forall n (g : W -> (I -> R) -> R -> res W) fuel c w x t0 tend dt tr r,
  (0 < rk_error_order n)%nat -> dt <> 0 -> agrees dt max_dt ->
  (forall i, (length (P i) <= Datatypes.S (rk_order n))%nat) -> (forall i, x i = peval (P i) t0) ->
  integrate_adaptive_ctrl (N := RNum eps) (ctrl_step (made_explicit (N := RNum eps) idx rpow
     (fun _ s i => peval (pder (P i)) s) n abs rel max_dt)) (user_obs g) (Datatypes.S fuel) c w x t0 tend dt = (tr, r) ->
  forall y s, In (y, s) (obs_of tr) -> forall i, y i = peval (P i) s.
Proof.
  intros eps He I W idx P abs rel max_dt Ha Hr n g fuel c w x t0 tend dt tr r Hn Hd Hg HP Hx H.
  destruct (C112_explicit eps He I W idx _ abs rel max_dt Ha Hr n g fuel c w x t0 tend dt tr r Hn Hd Hg H) as ((l & El) & HL & _).
  rewrite El in *. intros y s Hin i.
  pose proof (linked_polynomial eps P n idx abs rel max_dt (dir dt) tend HP l x t0 Hx HL) as F.
  rewrite Forall_forall in F. exact (F (y, s) Hin i).
Qed.
Print Assumptions C113_explicit.

(** x' = 5 t^4 + 1, x(0) = 2 on [0,1] with dt = 1/2: P = 2 + t + t^5.  The right-hand side is bounded by 6, so
    integrate() returns (C112_total) and, with an observer that never throws, x(1) = 4 exactly. *)
Example C113_example : forall c : ckf (RNum 0) unit (rkmem (RNum 0) unit),
  let P := fun _ : unit => [2; 1; 0; 0; 0; 1] in
  exists fuel tr c' w' (x' : unit -> R) (t' dt' : R) steps,
  integrate (N := RNum 0) [tt] rpow (fun _ s i => peval (pder (P i)) s) (user_obs (fun w _ _ => Ok w)) false (Datatypes.S fuel)
    c tt (fun _ => 2)%R 0%R 1%R (1 / 2)%R = (tr, Ok (c', w', x', t', dt', steps))
  /\ t' = 1 /\ x' tt = 4.
Proof.
  intros c P.
  assert (Ed : dir (1 / 2) = 1) by (destruct (dir_cases (1 / 2)) as [[_ E]|[E _]]; [exact E|lra]).
  set (S0 := rsum (map Rabs (tab_b2 (dopri5_tab7 (N := RNum 0))))).
  assert (HS : 0 < S0 <= 1).
  { subst S0. cbn [tab_b2 dopri5_tab7 map rsum fold_right]. unfold nfrac. rnum.
    repeat match goal with |- context [Rabs ?x] =>
      first [rewrite (Rabs_right x) by lra | rewrite (Rabs_left x) by lra] end. lra. }
  set (h := / 10 ^ 6 / (6 * S0)).
  assert (Hh : / 10 ^ 7 <= h).
  { unfold h. apply Rmult_le_reg_r with (6 * S0); [lra|].
    replace (/ 10 ^ 6 / (6 * S0) * (6 * S0)) with (/ 10 ^ 6) by (field; lra). lra. }
  set (m := Rmin (Rabs (1 / 2)) (1 / 5 * h)).
  assert (Pm : 0 < m) by (unfold m; apply Rmin_glb_lt; [rewrite Rabs_right; lra|lra]).
  destruct (archimed_cor1 m Pm) as (k & Hk & Hk0).
  destruct (C112_total 0 ltac:(lra) unit unit [tt] (fun _ s i => peval (pder (P i)) s) 6 0 1 1) with
    (obs := user_obs (X := unit -> R) (T := R) (fun (w : unit) (_ : unit -> R) (_ : R) => Ok w)) (rs := false) (c := c) (w := tt)
    (x := fun _ : unit => 2) (dt := 1 / 2) (k := k) (fuel := Datatypes.S k)
    as (tr & c' & w' & x' & t' & dt' & steps & E & Ht & _).
  - intros x t i [H1 H2]. unfold P. cbn [pder pder_from peval]. cbn [INR].
    assert (A : 0 <= t <= 1) by lra.
    assert (A2 : 0 <= t * t <= 1) by (split; nra). assert (A3 : 0 <= t * (t * t) <= 1) by (split; nra).
    assert (A4 : 0 <= t * (t * (t * t)) <= 1) by (split; nra).
    apply Rabs_le. lra.
  - lra.
  - intros w x t. eexists _, w. reflexivity.
  - lra.
  - exact Ed.
  - rewrite Ed. lra.
  - fold S0. fold h. rewrite Rminus_0_r, Rplus_0_r, Rabs_R1, Rmult_1_r.
    apply Rle_trans with (/ 10 ^ 7); [|exact Hh].
    assert (G : (9 / 10) ^ 499 <= (1 / 2) ^ 71).
    { replace 499%nat with (2 + 7 * 71)%nat by reflexivity. rewrite pow_add, pow_mult.
      assert (0 <= ((9 / 10) ^ 7) ^ 71 <= (1 / 2) ^ 71).
      { split; [apply pow_le; simpl; lra|]. apply pow_incr. simpl. lra. }
      simpl (_ ^ 2). nra. }
    assert (Q : (1 / 2) ^ 71 <= / 10 ^ 7).
    { replace 71%nat with (25 + 46)%nat by reflexivity. rewrite pow_add.
      assert (0 <= (1 / 2) ^ 46 <= 1) by (split; [apply pow_le; lra|rewrite <- (pow1 46); apply pow_incr; lra]).
      assert ((1 / 2) ^ 25 <= / 10 ^ 7) by (simpl; lra).
      assert (0 <= (1 / 2) ^ 25) by (apply pow_le; lra). nra. }
    lra.
  - fold S0. fold h. fold m. rewrite Rminus_0_r, Rabs_R1, Rplus_0_r.
    assert (Hk1 : 0 < INR k) by now apply lt_0_INR.
    apply Rmult_lt_compat_l with (r := INR k) in Hk; [|exact Hk1]. rewrite Rinv_r in Hk by lra. lra.
  - lia.
  - exists k, tr, c', w', x', t', dt', steps. split; [exact E|].
    assert (Et : t' = 1) by (pose proof (Rabs_pos (1 - t')); assert (Z : Rabs (1 - t') = 0) by lra;
      destruct (Req_dec (1 - t') 0) as [D|D]; [lra|apply Rabs_no_R0 in D; lra]).
    split; [exact Et|].
    destruct (C113_integrate 0 ltac:(lra) unit unit [tt] P false _ k c tt (fun _ => 2) 0 1 (1 / 2) tr _ ltac:(lra)
      (fun _ => le_n 6) (fun _ => ltac:(unfold P; cbn [peval]; lra)) E) as [_ G].
    rewrite (G _ _ _ _ _ _ eq_refl tt), Et. unfold P. cbn [peval]. lra.
Qed.

(** Total correctness of integrate_adaptive with the library's controllers (C73). *)
From Coq Require Import List Arith ZArith Reals Lia Lra.
From Verif Require Import M_Num M_Sign M_Run M_Checker M_Controlled S_Grid M_RK S_RK M_CtrlRK S_Real S_Ctrl S_CtrlRK
  P_R P_CtrlTerm P_CtrlTermRK.
Import ListNotations.
Local Open Scope R_scope.

(** For every system that is bounded by [B] between the start and the end time, integrate_adaptive with controlled_runge_kutta over any error
    stepper returns normally at the end time, after at most [k] steps as soon as
    k * min(|dt|, h/5) reaches the length of the interval, where
    h = eps_abs / (B * sum of |error weights|) is a step width that is always accepted.  The
    only proviso is that 499 rejections suffice to get from the whole interval down to h. *)
Theorem C73_explicit : forall eps, 0 <= eps -> forall I W (idx : list I) (cfg : err_cfg (RNum eps)),
  good_tol (eps_abs cfg) (eps_rel cfg) (a_x cfg) (a_dxdt cfg) ->
  forall (sys : (I -> R) -> R -> (I -> R)) B t0 tend sg,
  (forall x t i, 0 <= sg * (t - t0) /\ sg * (t - tend) <= eps -> Rabs (sys x t i) <= B) -> 0 < B ->
  forall (obs : W -> (I -> R) -> R -> M (ev (I -> R) R) W), (forall w x t, exists tr w', obs w x t = (tr, Ok w')) ->
  forall n, (0 < rk_error_order n)%nat ->
  let h := eps_abs cfg / (B * rsum (map Rabs (tab_b2 (tab_of (N := RNum eps) n)))) in
  forall c w x dt, dt <> 0 -> dir dt = sg -> 0 <= dir dt * (tend - t0) ->
  (9 / 10) ^ 499 * (Rabs (tend - t0) + eps) <= h ->
  forall k fuel, Rabs (tend - t0) <= INR k * Rmin (Rabs dt) (1 / 5 * h) + eps -> (k < fuel)%nat ->
  exists tr c' w' x' t' dt' steps,
   integrate_adaptive_ctrl (N := RNum eps) (ctrl_step (ck_try (N := RNum eps) idx rpow sys (rk_estep (N := RNum eps) sys n)
     (Z.of_nat (rk_error_order n)) (Z.of_nat (rk_order n)) cfg 0%R)) obs fuel c w x t0 tend dt
   = (tr, Ok (c', w', x', t', dt', steps)) /\ Rabs (tend - t') <= eps /\ (steps <= k)%nat.
Proof.
  intros eps He I W idx cfg Ht sys B t0 tend sg HB HB0 obs Ho n Hn.
  exact (explicit_terminates eps He idx cfg Ht sys B t0 tend sg HB HB0 obs Ho n Hn).
Qed.
Print Assumptions C73_explicit.

(** The same for controlled_runge_kutta< runge_kutta_dopri5 > (newly constructed or reset). *)
Theorem C73_fsal : forall eps, 0 <= eps -> forall I W (idx : list I) (cfg : err_cfg (RNum eps)),
  good_tol (eps_abs cfg) (eps_rel cfg) (a_x cfg) (a_dxdt cfg) ->
  forall (sys : (I -> R) -> R -> (I -> R)) B t0 tend sg,
  (forall x t i, 0 <= sg * (t - t0) /\ sg * (t - tend) <= eps -> Rabs (sys x t i) <= B) -> 0 < B ->
  forall (obs : W -> (I -> R) -> R -> M (ev (I -> R) R) W), (forall w x t, exists tr w', obs w x t = (tr, Ok w')) ->
  let h := eps_abs cfg / (B * rsum (map Rabs (tab_b2 (tab_of (N := RNum eps) rk_dopri5)))) in
  forall rs (c : ckf (RNum eps) I (rkmem (RNum eps) I)) w x dt,
  cf_first c = true -> dt <> 0 -> dir dt = sg -> 0 <= dir dt * (tend - t0) ->
  (9 / 10) ^ 499 * (Rabs (tend - t0) + eps) <= h ->
  forall k fuel, Rabs (tend - t0) <= INR k * Rmin (Rabs dt) (1 / 5 * h) + eps -> (k < fuel)%nat ->
  exists tr c' w' x' t' dt' steps,
   integrate_adaptive_ctrl (N := RNum eps) (ctrl_step (ckf_try (N := RNum eps) idx rpow sys
     (dopri5_fstep (N := RNum eps) sys (mkAlias false false))
     (Z.of_nat (rk_error_order rk_dopri5)) (Z.of_nat (rk_order rk_dopri5)) cfg 0%R rs)) obs fuel c w x t0 tend dt
   = (tr, Ok (c', w', x', t', dt', steps)) /\ Rabs (tend - t') <= eps /\ (steps <= k)%nat.
Proof.
  intros eps He I W idx cfg Ht sys B t0 tend sg HB HB0 obs Ho.
  exact (fsal_terminates eps He idx cfg Ht sys B t0 tend sg HB HB0 obs Ho).
Qed.
Print Assumptions C73_fsal.

(** x' = cos(x + t) on [0,10], tolerance 1/1000, Cash-Karp: the hypotheses hold with B = 1; the
    width h is at least 1/1000, so at most 5*10^4 steps of at least 1/5000 are needed. *)
Example C73_example :
  let cfg := mkErrCfg (N := RNum 0) (1 / 1000)%R 0%R 1%R 1%R in
  let h := eps_abs cfg / (1 * rsum (map Rabs (tab_b2 (tab_of (N := RNum 0) rk_ck54)))) in
  (forall (x : unit -> R) t (i : unit), Rabs (cos (x i + t)) <= 1)
  /\ (9 / 10) ^ 499 * (Rabs (10 - 0) + 0) <= h /\ 1 / 1000 <= h
  /\ exists k, Rabs (10 - 0) <= INR k * Rmin (Rabs 1) (1 / 5 * h) + 0.
Proof.
  cbv zeta. cbn [eps_abs].
  set (s := rsum (map Rabs (tab_b2 (tab_of (N := RNum 0) rk_ck54)))).
  assert (Hs : 0 < s <= 1).
  { subst s. cbn [tab_of tab_b2 ck54_tab map rsum fold_right]. unfold nfrac. rnum.
    repeat match goal with |- context [Rabs ?x] =>
      first [rewrite (Rabs_right x) by lra | rewrite (Rabs_left x) by lra] end. lra. }
  clearbody s.
  assert (Hh : 1 / 1000 <= 1 / 1000 / (1 * s)).
  { apply Rmult_le_reg_r with s; [lra|]. replace (1 / 1000 / (1 * s) * s) with (1 / 1000) by (field; lra). lra. }
  split; [intros; apply Rabs_le; pose proof (COS_bound (x i + t)); lra|].
  split.
  - rewrite Rminus_0_r, Rplus_0_r, (Rabs_right 10) by lra.
    assert (P : (9 / 10) ^ 499 <= (1 / 2) ^ 71).
    { replace 499%nat with (2 + 7 * 71)%nat by reflexivity. rewrite pow_add, pow_mult.
      assert (0 <= ((9 / 10) ^ 7) ^ 71 <= (1 / 2) ^ 71).
      { split; [apply pow_le; simpl; lra|]. apply pow_incr. simpl. lra. }
      simpl (_ ^ 2). nra. }
    assert (Q : (1 / 2) ^ 71 <= 1 / 10000).
    { replace 71%nat with (15 + 56)%nat by reflexivity. rewrite pow_add.
      assert (0 <= (1 / 2) ^ 56 <= 1) by (split; [apply pow_le; lra|rewrite <- (pow1 56); apply pow_incr; lra]).
      assert ((1 / 2) ^ 15 <= 1 / 10000) by (simpl; lra).
      assert (0 <= (1 / 2) ^ 15) by (apply pow_le; lra). nra. }
    lra.
  - split; [exact Hh|].
    set (m := Rmin (Rabs 1) (1 / 5 * (1 / 1000 / (1 * s)))).
    assert (Pm : 0 < m) by (apply Rmin_glb_lt; [rewrite Rabs_R1; lra|lra]).
    destruct (archimed_cor1 (m / 11)) as (k & Hk & Hk0); [lra|]. exists k.
    rewrite Rminus_0_r, Rplus_0_r, (Rabs_right 10) by lra.
    assert (0 < INR k) by now apply lt_0_INR.
    apply (Rmult_lt_compat_r (INR k)) in Hk; [|assumption]. rewrite Rinv_l in Hk by lra. lra.
Qed.

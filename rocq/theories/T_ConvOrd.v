(** Convergence with the order of the method (C116). *)
From Coq Require Import List Arith ZArith Reals Lia Lra.
From Verif Require Import M_Num M_Sign M_Run M_Plain M_Controlled S_Grid M_RK S_RK M_CtrlRK S_Real S_CtrlRK M_Integrate S_Integrate S_Conv
  P_R P_Plain P_PlainR P_PlainA P_Integrate P_Conv P_ConvRun P_ConvOrd T_Integrate T_Conv.
Import ListNotations.
Local Open Scope R_scope.

(** ** C116: consistency of order p carries over to whole runs.  If one step of width h from a point of the solution [y]
    misses the solution by at most E |h|^(p+1), every observation of a run with steps of width at most h is within
    exp( growth |t'-t0| ) ( D + E h^p |t'-t0| ) of the solution. *)
Theorem C116_consistent : forall eps, 0 <= eps -> forall I W (n : rk_name) (f : (I -> R) -> R -> (I -> R)) t0 tend dt L H E p y D,
  dt <> 0 -> 0 <= dir dt * (tend - t0) -> 0 <= L -> 0 <= E -> Rabs dt <= H -> 0 <= D ->
  lipschitz (span eps t0 tend (dir dt)) L f -> consistent (tab_of (N := RNum eps) n) f y (span eps t0 tend (dir dt)) H E p ->
  forall fuel s (w : W) x tr, (forall j, Rabs (x j - y t0 j) <= D) ->
  (exists r, integrate_const (N := RNum eps) rec_obs (plain_step (rk_do_step (N := RNum eps) f n)) fuel s w x t0 tend dt = (tr, Ok r))
  \/ (exists r, integrate_adaptive_plain (N := RNum eps) rec_obs (plain_step (rk_do_step (N := RNum eps) f n)) fuel s w x t0 tend dt = (tr, Ok r)) ->
  forall x' t', In (x', t') (obs_of tr) -> forall i,
  Rabs (x' i - y t' i) <= exp (growth (tab_of (N := RNum eps) n) L H * Rabs (t' - t0)) * (D + E * Rabs dt ^ p * Rabs (t' - t0)).
Proof.
  intros eps He I W n f t0 tend dt L H E p y D Hd Hdir HL0 HE0 HH HD HL Hc fuel s w x tr Hx Hrun.
  assert (Hl : exists l, obs_of tr = (x, t0) :: l
     /\ linked (one_step eps n (dir dt) (span eps t0 tend (dir dt)) f (Rabs dt)) ((x, t0) :: l)).
  { destruct Hrun as [[r R1]|[r R1]].
    - exact (const_linked eps He n f t0 tend dt Hd Hdir x fuel s w tr r R1).
    - exact (adaptive_linked eps He n f t0 tend dt Hd Hdir x fuel s w tr r R1). }
  destruct Hl as (l & El & Hl). rewrite El. intros x' t' Hin.
  pose proof (Rabs_pos dt) as Pd.
  exact (proj2 (global_ord eps n (dir dt) (dir_pm' dt) (span eps t0 tend (dir dt)) (span_conv eps t0 tend (dir dt)) f L H E p HL0 ltac:(lra) HE0
    HL y Hc (Rabs dt) (conj Pd HH) l x t0 D HD (T_start eps He t0 tend dt Hdir) Hx Hl x' t' Hin)).
Qed.
Print Assumptions C116_consistent.

Theorem C116_consistent_controlled : forall eps, 0 <= eps -> forall I W (idx : list I) (n : rk_name) (f : (I -> R) -> R -> (I -> R))
  abs rel max_dt t0 tend dt L H E p y D,
  0 < abs -> 0 <= rel -> (0 < rk_error_order n)%nat -> agrees dt max_dt -> max_dt <> 0 -> Rabs max_dt + eps <= H ->
  dt <> 0 -> 0 <= dir dt * (tend - t0) -> 0 <= L -> 0 <= E -> 0 <= D ->
  lipschitz (span eps t0 tend (dir dt)) L f -> consistent (tab_of (N := RNum eps) n) f y (span eps t0 tend (dir dt)) H E p ->
  forall (g : W -> (I -> R) -> R -> res W) fuel c w x tr r, (forall j, Rabs (x j - y t0 j) <= D) ->
  integrate_adaptive_ctrl (N := RNum eps) (ctrl_step (made_explicit (N := RNum eps) idx rpow f n abs rel max_dt))
    (user_obs g) (Datatypes.S fuel) c w x t0 tend dt = (tr, r) ->
  forall x' t', In (x', t') (obs_of tr) -> forall i,
  Rabs (x' i - y t' i) <= exp (growth (tab_of (N := RNum eps) n) L H * Rabs (t' - t0))
    * (D + E * (Rabs max_dt + eps) ^ p * Rabs (t' - t0)).
Proof.
  intros eps He I W idx n f abs rel max_dt t0 tend dt L H E p y D Ha Hr Ho Hag Hm HmH Hd Hdir HL0 HE0 HD HL Hc g fuel c w x tr r Hx R1.
  destruct (C112_explicit eps He I W idx f abs rel max_dt Ha Hr n g fuel c w x t0 tend dt tr r Ho Hd Hag R1) as ((l & El) & Hl & _).
  rewrite El in *. intros x' t' Hin. pose proof (Rabs_pos max_dt) as Pd.
  pose proof (good_one_step eps n f t0 tend dt idx abs rel max_dt Hm l x t0 (T_start eps He t0 tend dt Hdir) Hl) as Hl2.
  exact (proj2 (global_ord eps n (dir dt) (dir_pm' dt) (span eps t0 tend (dir dt)) (span_conv eps t0 tend (dir dt)) f L H E p HL0 ltac:(lra) HE0
    HL y Hc (Rabs max_dt + eps) ltac:(lra) l x t0 D HD (T_start eps He t0 tend dt Hdir) Hx Hl2 x' t' Hin)).
Qed.
Print Assumptions C116_consistent_controlled.

(** On linear systems x' = A x every explicit Runge-Kutta stepper converges with its order(): the constant depends only on the
    method, on the size of A and on an upper bound of the step width. *)
Theorem C116_linear : forall eps, 0 <= eps -> forall n, exists C : R -> R -> R,
  (forall L H, 0 <= L -> 0 <= H -> 0 <= C L H) /\
  forall I W (A : (I -> R) -> (I -> R)) L M H t0 tend dt y D, linear_map A -> bounded_map L A -> 0 <= L -> 0 <= M -> 0 <= D ->
  dt <> 0 -> 0 <= dir dt * (tend - t0) -> Rabs dt <= H ->
  solution (span eps t0 tend (dir dt)) (fun u _ => A u) y ->
  (forall t j, span eps t0 tend (dir dt) t -> Rabs (y t j) <= M) ->
  forall fuel s (w : W) x tr, (forall j, Rabs (x j - y t0 j) <= D) ->
  (exists r, integrate_const (N := RNum eps) rec_obs (plain_step (rk_do_step (N := RNum eps) (fun u _ => A u) n)) fuel s w x t0 tend dt = (tr, Ok r))
  \/ (exists r, integrate_adaptive_plain (N := RNum eps) rec_obs (plain_step (rk_do_step (N := RNum eps) (fun u _ => A u) n)) fuel s w x t0 tend dt = (tr, Ok r)) ->
  forall x' t', In (x', t') (obs_of tr) -> forall i,
  Rabs (x' i - y t' i) <= exp (growth (tab_of (N := RNum eps) n) L H * Rabs (t' - t0))
    * (D + C L H * M * Rabs dt ^ rk_order n * Rabs (t' - t0)).
Proof.
  intros eps He n. destruct (linear_consistent eps n) as (s0 & r0 & HC).
  exists (fun L H => L ^ Datatypes.S (rk_order n) / INR (fact (Datatypes.S (rk_order n)))
      + sumn s0 (fun k => Rabs (r0 k) * H ^ k * L ^ (Datatypes.S (rk_order n) + k))).
  assert (PC : forall L H, 0 <= L -> 0 <= H -> 0 <= L ^ Datatypes.S (rk_order n) / INR (fact (Datatypes.S (rk_order n)))
      + sumn s0 (fun k => Rabs (r0 k) * H ^ k * L ^ (Datatypes.S (rk_order n) + k))).
  { intros L H HL HH. apply Rplus_le_le_0_compat.
    - apply Rmult_le_pos; [now apply pow_le|]. left. apply Rinv_0_lt_compat. apply INR_fact_lt_0.
    - rewrite <- (P_RKOrder.sumn_zero s0 (fun _ => 0) (fun _ _ => eq_refl)). apply sumn_le. intros k _.
      apply Rmult_le_pos; [apply Rmult_le_pos; [apply Rabs_pos|now apply pow_le]|now apply pow_le]. }
  split; [exact PC|].
  intros I W A L M H t0 tend dt y D HA HLA HL0 HM0 HD Hd Hdir HH Hsol HM fuel s w x tr Hx Hrun.
  pose proof (Rabs_pos dt) as Pd.
  apply (C116_consistent eps He I W n (fun u _ => A u) t0 tend dt L H _ (rk_order n) y D Hd Hdir HL0
    ltac:(apply Rmult_le_pos; [apply (PC L H); lra|exact HM0]) HH HD (bounded_lipschitz A L HA HLA _)
    (HC I A L M H _ y HA HL0 HM0 ltac:(lra) HLA (span_conv eps t0 tend (dir dt)) Hsol HM) fuel s w x tr Hx Hrun).
Qed.
Print Assumptions C116_linear.

(** x' = x with runge_kutta4, any step width up to 1: the error is at most a constant times dt^4. *)
Example C116_example : exists C, 0 <= C /\ forall dt, 0 < dt <= 1 -> forall s, exists fuel tr r,
  integrate_const (N := RNum 0) rec_obs (plain_step (rk_do_step (N := RNum 0) (fun (x : unit -> R) (_ : R) => x) rk_rk4))
     fuel s tt (fun _ => exp 0) 0%R 1%R dt = (tr, Ok r)
  /\ forall x' t', In (x', t') (obs_of tr) -> Rabs (x' tt - exp t') <= C * dt ^ 4.
Proof.
  destruct (C116_linear 0 (Rle_refl 0) rk_rk4) as (C & PC & HC).
  set (tb := tab_of (N := RNum 0) rk_rk4). assert (Pg : 0 <= growth tb 1 1) by (apply (growth_nonneg 0 rk_rk4); lra).
  pose proof (PC 1 1 ltac:(lra) ltac:(lra)) as P1.
  exists (exp (growth tb 1 1) * (C 1 1 * 3)). split.
  { apply Rmult_le_pos; [left; apply exp_pos|lra]. }
  intros dt Hdt s. destruct (const_count 0 0 1 dt ltac:(lra)) as [m Hm].
  destruct (const_pure (N := RNum 0) (rk_do_step (N := RNum 0) (fun (x : unit -> R) (_ : R) => x) rk_rk4) (Datatypes.S m) s tt
     (fun _ => exp 0) 0 1 dt m Hm (Nat.lt_succ_diag_r m)) as (tr & E & _).
  exists (Datatypes.S m), tr, (fst (after (rk_do_step (N := RNum 0) (fun (x : unit -> R) (_ : R) => x) rk_rk4) 0%R dt s (fun _ => exp 0) m), tt,
    snd (after (rk_do_step (N := RNum 0) (fun (x : unit -> R) (_ : R) => x) rk_rk4) 0%R dt s (fun _ => exp 0) m), m).
  split; [exact E|]. intros x' t' Hin.
  assert (Ed : dir dt = 1) by (destruct (dir_cases dt) as [[_ E0]|[E0 _]]; [exact E0|lra]).
  destruct exp_problem as (H1 & H2 & H3).
  assert (Ht : 0 <= t' <= 1).
  { assert (HT : span 0 0 1 (dir dt) t').
    { refine (proj1 (const_error 0 (Rle_refl 0) rk_rk4 (fun (x : unit -> R) (_ : R) => x) 0 1 dt ltac:(lra) ltac:(rewrite Ed; lra) (fun _ => exp 0)
        1 1 3 ltac:(lra) ltac:(lra) _ (fun t _ => exp t) _ _ 0 (Rle_refl 0) _ _ (Datatypes.S m) s tt tr _ E x' t' Hin)).
      - rewrite Ed. exact H1.
      - rewrite Ed. exact H2.
      - rewrite Ed. exact H3.
      - intro j. rewrite Rminus_diag_eq, Rabs_R0 by reflexivity. lra.
      - rewrite Rabs_pos_eq; lra. }
    rewrite Ed in HT. destruct HT. lra. }
  assert (B := HC unit unit (fun x => x) 1 3 1 0 1 dt (fun t _ => exp t) 0
    ltac:(intros a b u v j; reflexivity) ltac:(intros u D0 Hu i; rewrite Rmult_1_l; apply Hu) ltac:(lra) ltac:(lra) (Rle_refl 0) ltac:(lra)
    ltac:(rewrite Ed; lra) ltac:(rewrite Rabs_pos_eq; lra) ltac:(rewrite Ed; exact H2)).
  specialize (B ltac:(intros t j Hsp; rewrite Ed in Hsp; destruct Hsp; rewrite Rabs_pos_eq by (left; apply exp_pos);
    eapply Rle_trans; [|apply exp_le_3]; destruct (Rle_lt_or_eq_dec t 1) as [Q|Q]; [lra|left; now apply exp_increasing|rewrite Q; apply Rle_refl])).
  specialize (B (Datatypes.S m) s tt (fun _ => exp 0) tr ltac:(intro j; rewrite Rminus_diag_eq, Rabs_R0 by reflexivity; lra)
    (or_introl (ex_intro _ _ E)) x' t' Hin tt).
  eapply Rle_trans; [exact B|]. fold tb. rewrite Rplus_0_l, Rminus_0_r, (Rabs_pos_eq t'), (Rabs_pos_eq dt) by lra.
  replace (exp (growth tb 1 1) * (C 1 1 * 3) * dt ^ 4) with (exp (growth tb 1 1) * (C 1 1 * 3 * dt ^ 4)) by ring.
  assert (P4 : 0 <= dt ^ 4) by (apply pow_le; lra). cbn [rk_order].
  assert (P5 : 0 <= C 1 1 * 3 * dt ^ 4) by (apply Rmult_le_pos; lra).
  apply Rmult_le_compat; [left; apply exp_pos|apply Rmult_le_pos; lra| |].
  - destruct (Rle_lt_or_eq_dec (growth tb 1 1 * t') (growth tb 1 1 * 1)) as [Q|Q].
    + apply Rmult_le_compat_l; lra.
    + rewrite Rmult_1_r in Q. left. now apply exp_increasing.
    + rewrite Q, Rmult_1_r. apply Rle_refl.
  - change (dt ^ rk_order rk_rk4) with (dt ^ 4) || idtac. rewrite <- (Rmult_1_r (C 1 1 * 3 * dt ^ 4)) at 2. apply Rmult_le_compat_l; lra.
Qed.

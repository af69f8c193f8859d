(** * pid_step_adjuster: C61, C95, C96, C97, C98, C99 *)
From Coq Require Import ZArith List Bool Arith Lia Reals Lra.
From Coq Require Import Floats.SpecFloat.
From Verif Require Import M_Num M_Run M_RK M_CtrlRK M_Midpoint M_Adams M_Pid S_Adams S_Pid P_R P_BS P_Adams P_AABM P_CtrlRKR P_CtrlRKW P_RosR P_Pid.
Import ListNotations.
Local Open Scope R_scope.

Notation adj eps pw idx := (adjust_stepsize (N := RNum eps) pw atan idx).

(** ** C61: direction and growth.  Any [pow], coefficients, tolerances, history and state. *)
Definition sized {eps I} (p : pid (RNum eps) I) : Prop := rb_wf 3 (p_err p) /\ rb_wf 3 (p_dt p).

Lemma norm_pos eps I (idx : list I) (v : I -> R) i : In i idx -> v i <> 0 -> 0 < norm_inf (N := RNum eps) idx v.
Proof.
  intros Hi Hv. destruct (Rle_lt_or_eq_dec _ _ (norm_inf_nonneg eps idx v)) as [H|H]; [exact H|exfalso].
  assert (G : norm_inf (N := RNum eps) idx v <= 0) by (rewrite <- H; apply Rle_refl).
  rewrite (norm_inf_le eps idx v 0 (Rle_refl 0)) in G. specialize (G i Hi). pose proof (Rabs_pos_lt _ Hv). lra.
Qed.

Lemma adjust_total eps I (pw : R -> R -> R) (idx : list I) (cf : pid_cfg (RNum eps)) p steps (dt : R) err x dxdt : sized p ->
  exists p' e', adj eps pw idx cf p steps dt err x dxdt
    = Ok (p', e', dt * pid_limit (N := RNum eps) (pc_dtmax cf) dt (pid_growth (N := RNum eps) atan (norm_inf (N := RNum eps) idx e'))) /\ sized p'.
Proof.
  intros [H1 H2]. destruct (adjust_ok eps pw atan idx cf p steps dt err x dxdt H1 H2) as (e1 & e2 & d1 & d2 & p' & _ & _ & _ & _ & E & W1 & W2 & _).
  eexists _, _. split; [exact E|]. split; assumption.
Qed.

Lemma forward eps I (pw : R -> R -> R) (idx : list I) (cf : pid_cfg (RNum eps)) p steps (dt : R) err x dxdt : sized p -> 0 < dt -> 0 < pc_dtmax cf ->
  exists p' e' (dt' : R), adj eps pw idx cf p steps dt err x dxdt = Ok (p', e', dt') /\ sized p'
  /\ (0 < norm_inf (N := RNum eps) idx e' ->
      0 < dt' < (1 + PI/2) * dt /\ dt' <= pc_dtmax cf
      /\ (dt' < pc_dtmax cf -> (1 - PI/4) * dt < dt')
      /\ (norm_inf (N := RNum eps) idx e' <= 1 -> dt' < pc_dtmax cf -> dt <= dt')
      /\ (1 < norm_inf (N := RNum eps) idx e' -> dt' < dt)).
Proof.
  intros Hs Hdt Hm. destruct (adjust_total eps I pw idx cf p steps dt err x dxdt Hs) as (p' & e' & E & Hs').
  exists p', e'. eexists. split; [exact E|]. split; [exact Hs'|]. intro Hn.
  set (n := norm_inf (N := RNum eps) idx e') in *. pose proof (growth_bounds eps n Hn) as [B1 B2].
  pose proof (growth_ge1 eps n Hn) as B3. pose proof (growth_lt1 eps n) as B4. pose proof pi4 as P4.
  set (r := pid_growth (N := RNum eps) atan n) in *. change (carrier (RNum eps)) with R in *.
  assert (M : dt * (pc_dtmax cf / dt) = pc_dtmax cf) by (field; lra).
  destruct (limit_cases eps (pc_dtmax cf) dt r) as [(L1 & ->)|(L1 & ->)].
  - rewrite M. repeat split; try lra.
    + apply Rle_lt_trans with (r * dt); [exact L1|]. now apply Rmult_lt_compat_r.
    + intro Q. specialize (B4 Q). apply Rle_lt_trans with (r * dt); [exact L1|]. rewrite <- (Rmult_1_l dt) at 2. now apply Rmult_lt_compat_r.
  - rewrite (Rmult_comm dt r). repeat split; try lra.
    + apply Rmult_lt_0_compat; lra.
    + now apply Rmult_lt_compat_r.
    + intros _. now apply Rmult_lt_compat_r.
    + intros Q _. specialize (B3 Q). rewrite <- (Rmult_1_l dt) at 1. apply Rmult_le_compat_r; lra.
    + intro Q. specialize (B4 Q). rewrite <- (Rmult_1_l dt) at 2. now apply Rmult_lt_compat_r.
Qed.
Theorem C61_forward : forall eps I (pw : R -> R -> R) (idx : list I) (cf : pid_cfg (RNum eps)) p steps (dt : R) err x dxdt, sized p -> 0 < dt -> 0 < pc_dtmax cf ->
  exists p' e' (dt' : R), adj eps pw idx cf p steps dt err x dxdt = Ok (p', e', dt') /\ sized p'
  /\ (0 < norm_inf (N := RNum eps) idx e' ->
      0 < dt' < (1 + PI/2) * dt /\ dt' <= pc_dtmax cf
      /\ (dt' < pc_dtmax cf -> (1 - PI/4) * dt < dt')
      /\ (norm_inf (N := RNum eps) idx e' <= 1 -> dt' < pc_dtmax cf -> dt <= dt')
      /\ (1 < norm_inf (N := RNum eps) idx e' -> dt' < dt)).
Proof. exact forward. Qed.
Print Assumptions C61_forward.

(** Backwards with a positive dtmax: the same bounds, but no limit. *)
Lemma backward eps I (pw : R -> R -> R) (idx : list I) (cf : pid_cfg (RNum eps)) p steps (dt : R) err x dxdt : sized p -> dt < 0 -> 0 < pc_dtmax cf ->
  exists p' e' (dt' : R), adj eps pw idx cf p steps dt err x dxdt = Ok (p', e', dt') /\ sized p'
  /\ (0 < norm_inf (N := RNum eps) idx e' ->
      (1 + PI/2) * dt < dt' < (1 - PI/4) * dt /\ dt' < 0
      /\ (norm_inf (N := RNum eps) idx e' <= 1 -> dt' <= dt) /\ (1 < norm_inf (N := RNum eps) idx e' -> dt < dt')).
Proof.
  intros Hs Hdt Hm. destruct (adjust_total eps I pw idx cf p steps dt err x dxdt Hs) as (p' & e' & E & Hs').
  exists p', e'. eexists. split; [exact E|]. split; [exact Hs'|]. intro Hn.
  set (n := norm_inf (N := RNum eps) idx e') in *. pose proof (growth_bounds eps n Hn) as [B1 B2].
  pose proof (growth_ge1 eps n Hn) as B3. pose proof (growth_lt1 eps n) as B4. pose proof pi4 as P4.
  set (r := pid_growth (N := RNum eps) atan n) in *. change (carrier (RNum eps)) with R in *.
  assert (N1 : r * dt < 0) by (assert (0 < r * - dt) by (apply Rmult_lt_0_compat; lra); lra).
  destruct (limit_cases eps (pc_dtmax cf) dt r) as [(L1 & _)|(L1 & ->)]; [lra|].
  assert (N2 : 0 < (1 + PI/2 - r) * - dt) by (apply Rmult_lt_0_compat; lra).
  assert (N3 : 0 < (r - (1 - PI/4)) * - dt) by (apply Rmult_lt_0_compat; lra).
  repeat split; try lra.
  - intro Q. specialize (B3 Q). assert (0 <= (r - 1) * - dt) by (apply Rmult_le_pos; lra). lra.
  - intro Q. specialize (B4 Q). assert (0 < (1 - r) * - dt) by (apply Rmult_lt_0_compat; lra). lra.
Qed.
Theorem C61_backward : forall eps I (pw : R -> R -> R) (idx : list I) (cf : pid_cfg (RNum eps)) p steps (dt : R) err x dxdt, sized p -> dt < 0 -> 0 < pc_dtmax cf ->
  exists p' e' (dt' : R), adj eps pw idx cf p steps dt err x dxdt = Ok (p', e', dt') /\ sized p'
  /\ (0 < norm_inf (N := RNum eps) idx e' ->
      (1 + PI/2) * dt < dt' < (1 - PI/4) * dt /\ dt' < 0
      /\ (norm_inf (N := RNum eps) idx e' <= 1 -> dt' <= dt) /\ (1 < norm_inf (N := RNum eps) idx e' -> dt < dt')).
Proof. exact backward. Qed.
Print Assumptions C61_backward.

(** A fresh object, one component, tolerance 1: the error 1 gives the norm 1. *)
Definition fresh eps : pid (RNum eps) unit := mkPid (N := RNum eps) (I := unit) (mkRb (repeat ((fun _ => 0) : vec (RNum eps) unit) 3) 0) (mkRb (repeat (0 : RNum eps) 3) 0) 0.
Definition cfg eps ty (m : R) : pid_cfg (RNum eps) := mkPidCfg (pid_coeffs (N := RNum eps) ty) 1 0 m.
Lemma fresh_sized eps : sized (fresh eps).
Proof. split; split; cbn; lia. Qed.
Lemma abs1 : Rabs 1 = 1. Proof. apply Rabs_right. lra. Qed.
Lemma op2_1 eps steps : @eq R (pid_op2 (N := RNum eps) Rpower steps 1) 1.
Proof. rewrite op2_R, abs1. unfold Rpower. now rewrite ln_1, Rmult_0_r, exp_0. Qed.
Lemma norm_1 eps : norm_inf (N := RNum eps) [tt] (fun _ => 1) = 1.
Proof. unfold norm_inf. cbn [fold_left]. rewrite nmax_R. cbn [nabs nofZ RNum]. rewrite abs1. apply Rmax_right. lra. Qed.
Lemma first_call eps ty m (dt e : R) : exists p', adj eps Rpower [tt] (cfg eps ty m) (fresh eps) 1 dt (fun _ => e) (fun _ => 0) (fun _ => 0)
  = Ok (p', (fun _ => pid_op2 (N := RNum eps) Rpower 1 (Rabs e)), dt * pid_limit (N := RNum eps) m dt (pid_growth (N := RNum eps) atan (norm_inf (N := RNum eps) [tt] (fun _ => pid_op2 (N := RNum eps) Rpower 1 (Rabs e))))).
Proof.
  destruct (fresh_sized eps) as [W1 W2].
  destruct (adjust_ok eps Rpower atan [tt] (cfg eps ty m) (fresh eps) 1 dt (fun _ => e) (fun _ => 0) (fun _ => 0) W1 W2) as (e1 & e2 & d1 & d2 & p' & _ & _ & _ & _ & E & _).
  exists p'. cbv zeta in E. change (2 <=? p_init (fresh eps))%nat with false in E. cbv beta iota in E.
  assert (Q : forall i : unit, pid_scaled (pc_abs (cfg eps ty m)) (pc_rel (cfg eps ty m)) dt (fun _ => e) (fun _ => 0) (fun _ => 0) i = Rabs e).
  { intros i. unfold pid_scaled. cbn [cfg pc_abs pc_rel]. field. }
  assert (F : (fun i : unit => pid_op2 (N := RNum eps) Rpower 1 (pid_scaled (pc_abs (cfg eps ty m)) (pc_rel (cfg eps ty m)) dt (fun _ => e) (fun _ => 0) (fun _ => 0) i)) = (fun _ => pid_op2 (N := RNum eps) Rpower 1 (Rabs e)))
    by (apply FunctionalExtensionality.functional_extensionality; intro i; now rewrite Q).
  rewrite F in E. exact E.
Qed.
Lemma growth_1 eps : @eq R (pid_growth (N := RNum eps) atan 1) 1.
Proof. unfold pid_growth. cbn [nadd nmul ndiv nsub nofZ RNum]. replace ((1 / 1 - 1) / 1) with 0 by field. rewrite atan_0. ring. Qed.
Example C61_ex : forall eps, exists p', adj eps Rpower [tt] (cfg eps H211PI 10) (fresh eps) 1 2 (fun _ => 1) (fun _ => 0) (fun _ => 0) = Ok (p', (fun _ => 1), 2)
  /\ 0 < norm_inf (N := RNum eps) [tt] (fun _ => 1).
Proof.
  intro eps. destruct (first_call eps H211PI 10 2 1) as (p' & E). exists p'. split; [|rewrite norm_1; lra]. rewrite abs1, op2_1, norm_1, growth_1 in E.
  destruct (limit_cases eps 10 2 1) as [(L & _)|(_ & L)]; [lra|]. rewrite L in E.
  exact (eq_trans E (f_equal (fun z : R => Ok (p', (fun _ : unit => 1), z)) (Rmult_1_r 2))).
Qed.

(** ** C96: the limit of the step *)

(** Backwards, a positive limit does not limit: |dt'| = 2 although dtmax = 1, after an accepted step. *)
Lemma no_limit eps : exists p', adj eps Rpower [tt] (cfg eps H211PI 1) (fresh eps) 1 (-2) (fun _ => 1) (fun _ => 0) (fun _ => 0) = Ok (p', (fun _ => 1), -2)
  /\ pc_dtmax (cfg eps H211PI 1) < Rabs (-2).
Proof.
  destruct (first_call eps H211PI 1 (-2) 1) as (p' & E). exists p'. split; [|cbn; rewrite Rabs_left; lra]. rewrite abs1, op2_1, norm_1, growth_1 in E.
  destruct (limit_cases eps 1 (-2) 1) as [(L & _)|(_ & L)]; [lra|]. rewrite L in E.
  exact (eq_trans E (f_equal (fun z : R => Ok (p', (fun _ : unit => 1), z)) (Rmult_1_r (-2)))).
Qed.
Theorem C96_backward_limit_refuted : forall eps, exists p',
  adj eps Rpower [tt] (cfg eps H211PI 1) (fresh eps) 1 (-2) (fun _ => 1) (fun _ => 0) (fun _ => 0) = Ok (p', (fun _ => 1), -2)
  /\ pc_dtmax (cfg eps H211PI 1) < Rabs (-2).
Proof. exact no_limit. Qed.
Print Assumptions C96_backward_limit_refuted.

(** Backwards with a negative limit: every step that is short against the limit is accepted, whatever its
    error, and the new step is the limit. *)
Lemma negative_limit eps I (pw : R -> R -> R) (idx : list I) (cf : pid_cfg (RNum eps)) p steps (dt : R) err x dxdt : sized p -> dt < 0 -> pc_dtmax cf <= (1 + PI/2) * dt ->
  exists p' e' (dt' : R), adj eps pw idx cf p steps dt err x dxdt = Ok (p', e', dt') /\ (0 < norm_inf (N := RNum eps) idx e' -> dt' = pc_dtmax cf /\ 9/10 <= dt' / dt).
Proof.
  intros Hs Hdt Hm. destruct (adjust_total eps I pw idx cf p steps dt err x dxdt Hs) as (p' & e' & E & Hs').
  exists p', e'. eexists. split; [exact E|]. intro Hn.
  pose proof (growth_bounds eps _ Hn) as [B1 B2]. set (r := pid_growth (N := RNum eps) atan _) in *. change (carrier (RNum eps)) with R in *.
  assert (N2 : 0 < (1 + PI/2 - r) * - dt) by (apply Rmult_lt_0_compat; lra).
  assert (M : dt * (pc_dtmax cf / dt) = pc_dtmax cf) by (field; lra).
  destruct (limit_cases eps (pc_dtmax cf) dt r) as [(L1 & ->)|(L1 & _)]; [|lra]. rewrite M. split; [reflexivity|].
  pose proof PI2_1. apply Rmult_le_reg_r with (- dt); [lra|]. replace (pc_dtmax cf / dt * - dt) with (- pc_dtmax cf) by (field; lra). assert (0 < PI * - dt) by (apply Rmult_lt_0_compat; [exact PI_RGT_0|lra]). lra.
Qed.
Theorem C96_negative_limit_accepts_all : forall eps I (pw : R -> R -> R) (idx : list I) (cf : pid_cfg (RNum eps)) p steps (dt : R) err x dxdt,
  sized p -> dt < 0 -> pc_dtmax cf <= (1 + PI/2) * dt ->
  exists p' e' (dt' : R), adj eps pw idx cf p steps dt err x dxdt = Ok (p', e', dt') /\ (0 < norm_inf (N := RNum eps) idx e' -> dt' = pc_dtmax cf /\ 9/10 <= dt' / dt).
Proof. exact negative_limit. Qed.
Print Assumptions C96_negative_limit_accepts_all.
(** An error a million times the tolerance: accepted, and the step grows from -1/10 to -1/2. *)
Lemma negative_limit_ex eps : exists p' e', adj eps Rpower [tt] (cfg eps H211PI (-1/2)%R) (fresh eps) 1 (-1/10)%R (fun _ => 1000000) (fun _ => 0) (fun _ => 0) = Ok (p', e', (-1/2)%R)
  /\ 1 < norm_inf (N := RNum eps) [tt] e'.
Proof.
  assert (H4 : PI < 4) by (pose proof pi4; lra).
  destruct (negative_limit eps unit Rpower [tt] (cfg eps H211PI (-1/2)%R) (fresh eps) 1 (-1/10)%R (fun _ => 1000000) (fun _ => 0) (fun _ => 0)
     (fresh_sized eps) ltac:(lra) ltac:(cbn [cfg pc_dtmax]; lra)) as (p' & e' & dt' & E & G).
  destruct (first_call eps H211PI (-1/2) (-1/10)%R 1000000) as (p2 & E2). rewrite E in E2. injection E2 as _ Ee _.
  assert (V : 1 < pid_op2 (N := RNum eps) Rpower 1 (Rabs 1000000)).
  { rewrite op2_R, Rabs_Rabsolu, Rabs_right by lra. rewrite <- (Rpower_O 1000000) by lra. apply Rpower_lt; [lra|]. cbn [INR Nat.add]. lra. }
  assert (G1 : 1 < norm_inf (N := RNum eps) [tt] e').
  { rewrite Ee. unfold norm_inf. cbn [fold_left]. rewrite nmax_R. cbn [nabs RNum]. eapply Rlt_le_trans; [exact V|]. eapply Rle_trans; [apply Rle_abs|apply Rmax_r]. }
  exists p', e'. destruct (G ltac:(lra)) as (-> & _). split; [exact E|exact G1].
Qed.
Theorem C96_error_control_refuted : forall eps, exists p' e',
  adj eps Rpower [tt] (cfg eps H211PI (-1/2)%R) (fresh eps) 1 (-1/10)%R (fun _ => 1000000) (fun _ => 0) (fun _ => 0) = Ok (p', e', (-1/2)%R)
  /\ 1 < norm_inf (N := RNum eps) [tt] e'.
Proof. exact negative_limit_ex. Qed.
Print Assumptions C96_error_control_refuted.

(** ** C95: the history of the controller *)

(** In every run the adjusted error is the formula of the controller for this step and the last two accepted
    ones, if there were at least two accepted steps since the last rejection; otherwise it is the power 7/10. *)
Definition history_theorem : Prop :=
  forall eps I (at_ : R -> R) (idx : list I) (cf : pid_cfg (RNum eps)) p n h steps (dt : R) err x dxdt,
  pid_run eps Rpower at_ idx cf p n h ->
  let e := pid_scaled (pc_abs cf) (pc_rel cf) dt err x dxdt in
  exists p' e' (dt' : R), adjust_stepsize (N := RNum eps) Rpower at_ idx cf p steps dt err x dxdt = Ok (p', e', dt')
  /\ ((n < 2)%nat -> forall i, e' i = Rpower (Rabs (e i)) (7/10 / INR (steps + 1)))
  /\ ((2 <= n)%nat -> exists e1 (d1 : R) e2 (d2 : R) r, h = (e1, d1) :: (e2, d2) :: r
      /\ forall i, e' i = pid_formula (pb1 (pc_coeff cf)) (pb2 (pc_coeff cf)) (pb3 (pc_coeff cf)) (pa1 (pc_coeff cf)) (pa2 (pc_coeff cf))
                            (INR (steps + 1)) (Rabs (e i)) (Rabs (e1 i)) (Rabs (e2 i)) (Rabs (dt / d1)) (Rabs (d1 / d2))).
Lemma history_thm : history_theorem.
Proof.
  intros eps I at_ idx cf p n h steps dt err x dxdt Hr e.
  destruct (run_storage eps Rpower at_ idx cf p n h Hr) as (We & Wd & En & Hl & Hh).
  destruct (adjust_ok eps Rpower at_ idx cf p steps dt err x dxdt We Wd) as (e1 & e2 & d1 & d2 & p' & E1 & E2 & D1 & D2 & E & _).
  fold e in E. rewrite En in E. eexists p', _, _. split; [exact E|]. split.
  - intros H2 i. destruct (Nat.leb_spec 2 n); [lia|]. apply op2_R.
  - intros H2. destruct h as [|[f1 c1] [|[f2 c2] r]]; [cbn in Hl; lia|cbn in Hl; lia|].
    destruct (Hh 0%nat f1 c1 ltac:(lia) eq_refl) as (A1 & A2). destruct (Hh 1%nat f2 c2 ltac:(lia) eq_refl) as (A3 & A4).
    rewrite E1 in A1. rewrite E2 in A3. rewrite D1 in A2. rewrite D2 in A4.
    injection A1 as <-. injection A3 as <-. injection A2 as <-. injection A4 as <-.
    exists e1, d1, e2, d2, r. split; [reflexivity|]. intro i. destruct (Nat.leb_spec 2 n); [|lia]. apply op4_R.
Qed.
Theorem C95_history : history_theorem.
Proof. exact history_thm. Qed.
Print Assumptions C95_history.

(** A run of accepted steps 2, 2, 2, ... with the error phi <= 1. *)
Lemma pw_le1 phi a : 0 < phi <= 1 -> 0 <= a -> 0 < Rpower phi a <= 1.
Proof.
  intros [H1 H2] Ha. split; [apply exp_pos|]. unfold Rpower. rewrite <- exp_0.
  assert (L : ln phi <= 0) by (rewrite <- ln_1; destruct H2 as [H2|H2]; [left; now apply ln_increasing|right; now rewrite H2]).
  assert (M : a * ln phi <= 0) by (assert (0 <= a * - ln phi) by (apply Rmult_le_pos; lra); lra).
  destruct M as [M|M]; [left; now apply exp_increasing|right; now rewrite M].
Qed.
Lemma sum_nonneg eps ty : 0 <= pb1 (pid_coeffs (N := RNum eps) ty) + pb2 (pid_coeffs (N := RNum eps) ty) + pb3 (pid_coeffs (N := RNum eps) ty).
Proof. destruct ty; cbn [pid_coeffs pb1 pb2 pb3]; unfold nfrac, nfrac_neg; cbn [ndiv nopp nofZ RNum]; lra. Qed.
Lemma norm_c eps (c : R) : 0 < c -> norm_inf (N := RNum eps) [tt] (fun _ => c) = c.
Proof. intro H. unfold norm_inf. cbn [fold_left]. rewrite nmax_R. cbn [nabs nofZ RNum]. rewrite Rabs_right by lra. apply Rmax_right. lra. Qed.
Lemma run_of eps ty phi n : 0 < phi <= 1 -> exists p h, pid_run eps Rpower atan [tt] (cfg eps ty 10) p n h /\ length h = n /\ Forall (fun q => q = (fun _ => phi, 2)) h.
Proof.
  intro Hphi. induction n as [|n (p & h & Hr & L & F)].
  - exists (fresh eps), []. split; [|auto]. destruct (fresh_sized eps). now apply pr_start.
  - destruct (history_thm eps unit atan [tt] (cfg eps ty 10) p n h 1%nat 2 (fun _ => phi) (fun _ => 0) (fun _ => 0) Hr) as (p' & e' & dt' & E & G1 & G2).
    assert (Es : forall i : unit, pid_scaled (pc_abs (cfg eps ty 10)) (pc_rel (cfg eps ty 10)) 2 (fun _ => phi) (fun _ => 0) (fun _ => 0) i = phi).
    { intro i. unfold pid_scaled. cbn [cfg pc_abs pc_rel]. rewrite Rabs_right by lra. field. }
    assert (P1 : forall a, Rpower 1 a = 1) by (intro a; unfold Rpower; now rewrite ln_1, Rmult_0_r, exp_0).
    assert (Ee : exists a, 0 <= a /\ e' = fun _ => Rpower phi a).
    { destruct (Nat.lt_ge_cases n 2) as [Q|Q].
      - exists (7/10 / INR (1 + 1)). split; [cbn [INR Nat.add]; lra|]. apply FunctionalExtensionality.functional_extensionality. intro i.
        rewrite (G1 Q), Es, Rabs_right by lra. reflexivity.
      - destruct (G2 Q) as (e1 & d1 & e2 & d2 & r & Eh & G). rewrite Eh in F.
        inversion F as [|? ? F1 F']. inversion F' as [|? ? F2 F'']. injection F1 as -> ->. injection F2 as -> ->.
        eexists. split; [|apply FunctionalExtensionality.functional_extensionality; intro i; rewrite G, Es;
          replace (2 / 2) with 1 by field; rewrite abs1, Rabs_right by lra; unfold pid_formula; rewrite !P1, !Rmult_1_r, <- !Rpower_plus; reflexivity].
        pose proof (sum_nonneg eps ty) as SN. cbn [cfg pc_coeff INR Nat.add] in *. change (carrier (RNum eps)) with R in *. lra. }
    destruct Ee as (a & Ha & Ee). pose proof (pw_le1 phi a Hphi Ha) as [Q3 Q4].
    destruct (adjust_total eps unit Rpower [tt] (cfg eps ty 10) p 1 2 (fun _ => phi) (fun _ => 0) (fun _ => 0)) as (p2 & e2 & E2 & _).
    { destruct (run_storage eps Rpower atan [tt] (cfg eps ty 10) p n h Hr) as (W1 & W2 & _). now split. }
    rewrite E in E2. injection E2 as _ Q1 Q2. rewrite <- Q1, Ee, norm_c in Q2 by exact Q3.
    pose proof (growth_ge1 eps (Rpower phi a) Q3 Q4) as Q5. set (g := pid_growth (N := RNum eps) atan (Rpower phi a)) in *.
    assert (Q6 : 9/10 <= dt' / 2).
    { assert (Q7 : @eq R dt' (2 * pid_limit (N := RNum eps) 10 2 g)) by exact Q2. change (carrier (RNum eps)) with R in *.
      destruct (limit_cases eps 10 2 g) as [(X & Y)|(_ & Y)]; rewrite Y in Q7; lra. }
    exists p'. eexists. split; [refine (pr_accept eps Rpower atan [tt] (cfg eps ty 10) p n h 1%nat 2 (fun _ => phi) (fun _ => 0) (fun _ => 0) p' e' dt' Hr _ E _)|].
    + lra.
    + exact Q6.
    + split; [cbn [length]; now rewrite L|]. constructor; [|exact F]. f_equal. apply FunctionalExtensionality.functional_extensionality. exact Es.
Qed.
Example C95_ex : forall eps ty, exists p h, pid_run eps Rpower atan [tt] (cfg eps ty 10) p 3 h /\ length h = 3%nat.
Proof. intros eps ty. destruct (run_of eps ty 1 3 ltac:(lra)) as (p & h & H1 & H2 & _). eauto. Qed.

(** ** C97: the controllers H0... reach the tolerance in one step if error and step are constant *)
Definition deadbeat_for (ty : pid_type) : Prop :=
  forall eps I (at_ : R -> R) (idx : list I) ea er m p n h steps (dt phi : R) err x dxdt,
  let cf := mkPidCfg (pid_coeffs (N := RNum eps) ty) ea er m in
  pid_run eps Rpower at_ idx cf p n ((fun _ => phi, dt) :: (fun _ => phi, dt) :: h) -> (2 <= n)%nat -> dt <> 0 -> 0 < phi ->
  (forall i, pid_scaled ea er dt err x dxdt i = phi) ->
  exists p' e' (dt' : R), adjust_stepsize (N := RNum eps) Rpower at_ idx cf p steps dt err x dxdt = Ok (p', e', dt')
  /\ forall i, e' i = Rpower phi (1 / INR (steps + 1)).
Lemma const_history eps I (at_ : R -> R) (idx : list I) ty ea er m p n h steps (dt phi : R) err x dxdt :
  let cf := mkPidCfg (pid_coeffs (N := RNum eps) ty) ea er m in
  pid_run eps Rpower at_ idx cf p n ((fun _ => phi, dt) :: (fun _ => phi, dt) :: h) -> (2 <= n)%nat -> dt <> 0 -> 0 < phi ->
  (forall i, pid_scaled ea er dt err x dxdt i = phi) ->
  exists p' e' (dt' : R), adjust_stepsize (N := RNum eps) Rpower at_ idx cf p steps dt err x dxdt = Ok (p', e', dt')
  /\ forall i, e' i = Rpower phi ((pb1 (pc_coeff cf) + pb2 (pc_coeff cf) + pb3 (pc_coeff cf)) / INR (steps + 1)).
Proof.
  intros cf Hr Hn Hdt Hphi He.
  destruct (history_thm eps I at_ idx cf p n _ steps dt err x dxdt Hr) as (p' & e' & dt' & E & _ & G).
  exists p', e', dt'. split; [exact E|]. destruct (G Hn) as (e1 & d1 & e2 & d2 & r & Eh & F). injection Eh as <- <- <- <- _.
  intro i. rewrite F. change (pc_abs cf) with ea. change (pc_rel cf) with er. rewrite He.
  replace (dt / dt) with 1 by (field; exact Hdt). rewrite abs1, Rabs_right by lra. unfold pid_formula.
  assert (P1 : forall a, Rpower 1 a = 1) by (intro a; unfold Rpower; now rewrite ln_1, Rmult_0_r, exp_0).
  rewrite !P1, !Rmult_1_r, <- !Rpower_plus. f_equal. field. apply not_0_INR. lia.
Qed.
Lemma deadbeat ty : ty = BASIC \/ ty = H0211 \/ ty = H0321 -> deadbeat_for ty.
Proof.
  intros Ht eps I at_ idx ea er m p n h steps dt phi err x dxdt cf Hr Hn Hdt Hphi He.
  destruct (const_history eps I at_ idx ty ea er m p n h steps dt phi err x dxdt Hr Hn Hdt Hphi He) as (p' & e' & dt' & E & G).
  exists p', e', dt'. split; [exact E|]. intro i. rewrite G. f_equal. f_equal. clear - Ht.
  destruct Ht as [-> | [-> | ->]]; cbn [pid_coeffs pc_coeff pb1 pb2 pb3]; unfold nfrac, nfrac_neg; cbn [ndiv nopp nofZ RNum]; lra.
Qed.
Theorem C97_deadbeat : forall ty, ty = BASIC \/ ty = H0211 \/ ty = H0321 -> deadbeat_for ty.
Proof. exact deadbeat. Qed.
Print Assumptions C97_deadbeat.
Lemma const_run eps ty phi : 0 < phi <= 1 -> exists p h, pid_run eps Rpower atan [tt] (cfg eps ty 10) p 2 ((fun _ => phi, 2) :: (fun _ => phi, 2) :: h).
Proof.
  intros Hp. destruct (run_of eps ty phi 2 Hp) as (p & h & H1 & H2 & F). destruct h as [|a [|b r]]; try discriminate H2.
  inversion F as [|? ? F1 F']. inversion F' as [|? ? F2 F'']. rewrite F1, F2 in H1. eauto.
Qed.
Example C97_ex : forall eps ty, exists p h, pid_run eps Rpower atan [tt] (cfg eps ty 10) p 2 ((fun _ => 1/2, 2) :: (fun _ => 1/2, 2) :: h)
  /\ forall i : unit, pid_scaled 1 0 2 (fun _ => 1/2) (fun _ => 0) (fun _ => 0) i = 1/2.
Proof.
  intros eps ty. destruct (const_run eps ty (1/2) ltac:(lra)) as (p & h & H). exists p, h. split; [exact H|].
  intro i. unfold pid_scaled. rewrite Rabs_right by lra. field.
Qed.
(** H0312 has the coefficient 2/2 where 2/4 is meant: the exponent is 3/2 of the right one, for every error
    other than 1. *)
Lemma h0312 eps I (at_ : R -> R) (idx : list I) ea er m p n h steps (dt phi : R) err x dxdt :
  let cf := mkPidCfg (pid_coeffs (N := RNum eps) H0312) ea er m in
  pid_run eps Rpower at_ idx cf p n ((fun _ => phi, dt) :: (fun _ => phi, dt) :: h) -> (2 <= n)%nat -> dt <> 0 -> 0 < phi -> phi <> 1 ->
  (forall i, pid_scaled ea er dt err x dxdt i = phi) ->
  exists p' e' (dt' : R), adjust_stepsize (N := RNum eps) Rpower at_ idx cf p steps dt err x dxdt = Ok (p', e', dt')
  /\ forall i, e' i <> Rpower phi (1 / INR (steps + 1)).
Proof.
  intros cf Hr Hn Hdt Hphi H1 He.
  destruct (const_history eps I at_ idx H0312 ea er m p n h steps dt phi err x dxdt Hr Hn Hdt Hphi He) as (p' & e' & dt' & E & G).
  exists p', e', dt'. split; [exact E|]. intros i. rewrite G. intro Q. unfold Rpower in Q. apply exp_inv in Q.
  apply Rmult_eq_reg_r in Q.
  - cbn [cf pid_coeffs pc_coeff pb1 pb2 pb3] in Q. unfold nfrac in Q. cbn [ndiv nofZ RNum] in Q.
    assert (Hn' : 0 < / INR (steps + 1)) by (apply Rinv_0_lt_compat, lt_0_INR; lia). unfold Rdiv in Q.
    apply Rmult_eq_reg_r in Q; lra.
  - intro L. apply H1. rewrite <- ln_1 in L. apply ln_inv in L; lra.
Qed.
Theorem C97_H0312_off : forall eps I (at_ : R -> R) (idx : list I) ea er m p n h steps (dt phi : R) err x dxdt,
  let cf := mkPidCfg (pid_coeffs (N := RNum eps) H0312) ea er m in
  pid_run eps Rpower at_ idx cf p n ((fun _ => phi, dt) :: (fun _ => phi, dt) :: h) -> (2 <= n)%nat -> dt <> 0 -> 0 < phi -> phi <> 1 ->
  (forall i, pid_scaled ea er dt err x dxdt i = phi) ->
  exists p' e' (dt' : R), adjust_stepsize (N := RNum eps) Rpower at_ idx cf p steps dt err x dxdt = Ok (p', e', dt')
  /\ forall i, e' i <> Rpower phi (1 / INR (steps + 1)).
Proof. exact h0312. Qed.
Print Assumptions C97_H0312_off.

Lemma h0312_not : ~ deadbeat_for H0312.
Proof.
  intro D. destruct (C97_ex 0 H0312) as (p & h & Hr & He).
  destruct (D 0 unit atan [tt] 1 0 10 p 2%nat h 1%nat 2 (1/2) (fun _ => 1/2) (fun _ => 0) (fun _ => 0) Hr (le_n 2) ltac:(lra) ltac:(lra) He) as (p1 & e1 & d1 & E1 & G1).
  destruct (h0312 0 unit atan [tt] 1 0 10 p 2%nat h 1%nat 2 (1/2) (fun _ => 1/2) (fun _ => 0) (fun _ => 0) Hr (le_n 2) ltac:(lra) ltac:(lra) ltac:(lra) He) as (p2 & e2 & d2 & E2 & G2).
  rewrite E1 in E2. injection E2 as _ <- _. exact (G2 tt (G1 tt)).
Qed.
Theorem C97_H0312_refuted : ~ deadbeat_for H0312.
Proof. exact h0312_not. Qed.
Print Assumptions C97_H0312_refuted.

(** ** C98: an error that is not a number *)

(** In binary64 the maximum norm of a vector of NaNs is 0, so the ratio is 1 + atan(inf): the step is accepted
    and grows.  [pow] and [atan] are only asked for pow(NaN, y) = NaN and atan(+inf) = 1.57.... *)
Definition nan_accepted : Prop :=
  forall I (idx : list I) (pw : F64 -> F64 -> F64) (at_ : F64 -> F64) (cf : pid_cfg F64) (p : pid F64 I) err x dxdt,
  (forall y, pw S754_nan y = S754_nan) -> at_ (S754_infinity false) = f64_dyadic 7074237752028440 (-52) ->
  pc_dtmax cf = f64_ofZ 1000 -> rb_wf 3 (p_err p) -> rb_wf 3 (p_dt p) -> (p_init p < 2)%nat -> (forall i, err i = S754_nan) ->
  exists p' e' dt', adjust_stepsize pw at_ idx cf p 1 (f64_ofZ 1) err x dxdt = Ok (p', e', dt')
  /\ (forall i, e' i = S754_nan) /\ @nlt F64 (f64_ofZ 2) dt' = true /\ p_init p' = S (p_init p).
Lemma nan_acc : nan_accepted.
Proof.
  intros I idx pw at_ cf p err x dxdt Hpw Hat Hm We Wd Hi Herr. unfold adjust_stepsize.
  set (e := fun i : I => rel_error _ _ _ _ _ _ _).
  assert (He : forall i, e i = S754_nan) by (intro i; unfold e; rewrite Herr; unfold rel_error; apply nan_div_l). clearbody e.
  destruct (set0_ok 3 wf3 (p_err p) e We) as (es & Es & _ & Ge0 & _).
  destruct (set0_ok 3 wf3 (p_dt p) (f64_ofZ 1) Wd) as (ds & Eds & _).
  rewrite Es. cbn [rbind]. rewrite Eds. cbn [rbind]. destruct (Nat.leb_spec 2 (p_init p)); [lia|]. rewrite Ge0. cbn [rbind].
  set (e' := fun i : I => pid_op2 pw 1 (e i)).
  assert (He' : forall i, e' i = S754_nan).
  { intro i. unfold e', pid_op2. rewrite He. set (q := ndiv (nopp _) _). unfold adapted_pow.
    assert (Q1 : negb (nneq q (nofZ 0)) = false) by (vm_compute; reflexivity). assert (Q2 : @nlt F64 (nofZ 0) q = false) by (vm_compute; reflexivity).
    rewrite Q1, Q2. rewrite f64_nan_abs, Hpw. reflexivity. }
  clearbody e'. rewrite (norm_nan I idx e' (fun i _ => He' i)).
  assert (G : pid_growth at_ (@nofZ F64 0) = f64_dyadic 5788918689699468 (-51)).
  { unfold pid_growth. replace ((@nofZ F64 1 / @nofZ F64 0 - @nofZ F64 1) / @nofZ F64 1)%num with (S754_infinity false) by (vm_compute; reflexivity).
    rewrite Hat. vm_compute. reflexivity. }
  rewrite G, Hm. eexists _, e', _. split; [reflexivity|]. split; [exact He'|]. split; vm_compute; reflexivity.
Qed.
Theorem C98_nan_refuted : nan_accepted.
Proof. exact nan_acc. Qed.
Print Assumptions C98_nan_refuted.
Example C98_ex : exists p : pid F64 unit, rb_wf 3 (p_err p) /\ rb_wf 3 (p_dt p) /\ (p_init p < 2)%nat.
Proof. exists (mkPid (mkRb (repeat ((fun _ => f64_ofZ 0) : vec F64 unit) 3) 0) (mkRb (repeat (f64_ofZ 0 : F64) 3) 0) 0). repeat split; cbn; lia. Qed.

(** Proofs about pid_step_adjuster. *)
From Coq Require Import ZArith List Bool Arith Lia Reals Lra FunctionalExtensionality.
From Verif Require Import M_Num M_Run M_RK M_CtrlRK M_Midpoint M_Adams M_Pid S_Adams S_Pid P_R P_BS P_Adams P_AABM P_CtrlRKR.
Import ListNotations.
Local Open Scope R_scope.

Section R.
Variable eps : R.
Context {I : Type}.
Notation NN := (RNum eps).
Variables (pw : R -> R -> R) (at_ : R -> R) (idx : list I).
Variable cf : pid_cfg NN.
Notation adj := (adjust_stepsize (N := NN) (I := I) pw at_ idx cf).

Lemma ratio_eq (dt dt' r : R) : dt <> 0 -> dt * r = dt' -> dt' / dt = r.
Proof. intros H <-. field. exact H. Qed.
Lemma wf3 : (0 < 3)%nat. Proof. lia. Qed.

Lemma scaled_R (dt : R) (err x dxdt : I -> R) :
  (fun i => rel_error (N := NN) (pc_abs cf) (pc_rel cf) (nofZ (n := NN) 1) (nmul (n := NN) (nofZ (n := NN) 1) (nabs (n := NN) dt)) (err i) (x i) (dxdt i))
  = pid_scaled (pc_abs cf) (pc_rel cf) dt err x dxdt.
Proof.
  apply functional_extensionality. intro i. unfold rel_error, pid_scaled. cbn [nmul nadd ndiv nabs nofZ RNum].
  change (IZR 1) with 1. rewrite !Rmult_1_l. reflexivity.
Qed.

(** One call, for an object with storages of the right size. *)
Lemma adjust_ok (p : pid NN I) steps (dt : R) (err x dxdt : I -> R) : rb_wf 3 (p_err p) -> rb_wf 3 (p_dt p) ->
  let e := pid_scaled (pc_abs cf) (pc_rel cf) dt err x dxdt in
  exists e1 e2 (d1 d2 : R) (p' : pid NN I), rb_get 3 (p_err p) 1 = Ok e1 /\ rb_get 3 (p_err p) 2 = Ok e2
  /\ rb_get 3 (p_dt p) 1 = Ok d1 /\ rb_get 3 (p_dt p) 2 = Ok d2
  /\ let e' := if (2 <=? p_init p)%nat then (fun i => pid_op4 (N := NN) pw (pc_coeff cf) steps dt d1 d2 (e i) (e1 i) (e2 i))
               else (fun i => pid_op2 (N := NN) pw steps (e i)) in
     let ratio := pid_limit (N := NN) (pc_dtmax cf) dt (pid_growth (N := NN) at_ (norm_inf (N := NN) idx e')) in
     adj p steps dt err x dxdt = Ok (p', e', dt * ratio)
     /\ rb_wf 3 (p_err p') /\ rb_wf 3 (p_dt p')
     /\ (9/10 <= ratio -> p_init p' = S (p_init p) /\ rb_get 3 (p_err p') 1 = Ok e /\ rb_get 3 (p_err p') 2 = Ok e1
           /\ rb_get 3 (p_dt p') 1 = Ok dt /\ rb_get 3 (p_dt p') 2 = Ok d1)
     /\ (ratio < 9/10 -> p_init p' = 0%nat /\ rb_get 3 (p_err p') 1 = Ok e1 /\ rb_get 3 (p_err p') 2 = Ok e2
           /\ rb_get 3 (p_dt p') 1 = Ok d1 /\ rb_get 3 (p_dt p') 2 = Ok d2).
Proof.
  intros We Wd e.
  destruct (get_ok 3 wf3 (p_err p) 1 We) as (e1 & E1). destruct (get_ok 3 wf3 (p_err p) 2 We) as (e2 & E2).
  destruct (get_ok 3 wf3 (p_dt p) 1 Wd) as (d1 & D1). destruct (get_ok 3 wf3 (p_dt p) 2 Wd) as (d2 & D2).
  destruct (set0_ok 3 wf3 (p_err p) e We) as (es & Es & Wes & Ge0 & Ge).
  destruct (set0_ok 3 wf3 (p_dt p) dt Wd) as (ds & Eds & Wds & Gd0 & Gd).
  pose proof (Ge 1%nat ltac:(lia)) as Ge1. pose proof (Ge 2%nat ltac:(lia)) as Ge2.
  pose proof (Gd 1%nat ltac:(lia)) as Gd1. pose proof (Gd 2%nat ltac:(lia)) as Gd2. clear Ge Gd.
  rewrite E1 in Ge1. rewrite E2 in Ge2. rewrite D1 in Gd1. rewrite D2 in Gd2.
  exists e1, e2, d1, d2. unfold adjust_stepsize. rewrite scaled_R. fold e.
  rewrite Es. cbn [rbind]. change (carrier NN) with R in *. rewrite Eds. cbn [rbind].
  rewrite Ge0, Ge1, Ge2, Gd0, Gd1, Gd2. cbn [rbind].
  destruct (2 <=? p_init p)%nat; cbn [rbind]; cbv zeta;
  match goal with |- context [pid_limit ?a ?b ?c] => set (ratio := pid_limit a b c) end;
  (eexists; do 4 (split; [assumption|]); split; [reflexivity|]);
  change (nle (n := NN) (pid_threshold (N := NN)) ratio) with (Rleb (9/10) ratio);
  destruct (Rleb (9/10) ratio) eqn:Eb.
  1,3: apply Rleb_true in Eb; cbn [p_err p_dt p_init];
    (split; [apply rotate_wf; [lia|exact Wes]|]); (split; [apply rotate_wf; [lia|exact Wds]|]); (split; [|intro; lra]); intros _;
    (split; [reflexivity|]); rewrite !(rb_get_rotate 3) by (assumption || lia); auto.
  all: apply Rleb_false in Eb; cbn [p_err p_dt p_init]; (split; [exact Wes|]); (split; [exact Wds|]); (split; [intro; lra|]); intros _; auto.
Qed.

(** The storages of a run. *)
Lemma run_storage (p : pid NN I) n h : pid_run eps pw at_ idx cf p n h ->
  rb_wf 3 (p_err p) /\ rb_wf 3 (p_dt p) /\ p_init p = n /\ (n <= length h)%nat
  /\ forall k e d, (k < 2)%nat -> nth_error h k = Some (e, d) -> rb_get 3 (p_err p) (S k) = Ok e /\ rb_get 3 (p_dt p) (S k) = Ok d.
Proof.
  induction 1 as [es ds We Wd|p n h steps dt err x dxdt p' e' dt' Hr IH Hdt E Ha|p n h steps dt err x dxdt p' e' dt' Hr IH Hdt E Ha].
  - cbn [p_err p_dt p_init]. split; [exact We|]. split; [exact Wd|]. split; [reflexivity|]. split; [lia|]. intros [|k] e d _ Q; discriminate Q.
  - destruct IH as (We & Wd & En & Hl & Hh).
    destruct (adjust_ok p steps dt err x dxdt We Wd) as (e1 & e2 & d1 & d2 & p1 & E1 & E2 & D1 & D2 & Ea & W1 & W2 & Acc & _).
    rewrite Ea in E. injection E as E3 _ E4. rewrite <- E3. clear E3. cbn [nmul RNum] in E4.
    assert (Q : 9/10 <= pid_limit (N := NN) (pc_dtmax cf) dt (pid_growth (N := NN) at_ (norm_inf (N := NN) idx
       (if (2 <=? p_init p)%nat then (fun i => pid_op4 (N := NN) pw (pc_coeff cf) steps dt d1 d2 (pid_scaled (pc_abs cf) (pc_rel cf) dt err x dxdt i) (e1 i) (e2 i)) else (fun i => pid_op2 (N := NN) pw steps (pid_scaled (pc_abs cf) (pc_rel cf) dt err x dxdt i)))))).
    { match goal with |- _ <= ?b => replace b with (dt' / dt); [exact Ha|] end. exact (ratio_eq dt dt' _ Hdt E4). }
    destruct (Acc Q) as (A1 & A2 & A3 & A4 & A5). split; [exact W1|]. split; [exact W2|]. split; [now rewrite A1, En|]. split; [cbn [length]; lia|].
    intros [|[|k]] e d Hk Ee; [|cbn in Ee|lia].
    + cbn in Ee. injection Ee as <- <-. auto.
    + destruct (Hh 0%nat e d ltac:(lia) Ee) as (B1 & B2). split; congruence.
  - destruct IH as (We & Wd & En & Hl & Hh).
    destruct (adjust_ok p steps dt err x dxdt We Wd) as (e1 & e2 & d1 & d2 & p1 & E1 & E2 & D1 & D2 & Ea & W1 & W2 & _ & Rej).
    rewrite Ea in E. injection E as E3 _ E4. rewrite <- E3. clear E3. cbn [nmul RNum] in E4.
    assert (Q : pid_limit (N := NN) (pc_dtmax cf) dt (pid_growth (N := NN) at_ (norm_inf (N := NN) idx
       (if (2 <=? p_init p)%nat then (fun i => pid_op4 (N := NN) pw (pc_coeff cf) steps dt d1 d2 (pid_scaled (pc_abs cf) (pc_rel cf) dt err x dxdt i) (e1 i) (e2 i)) else (fun i => pid_op2 (N := NN) pw steps (pid_scaled (pc_abs cf) (pc_rel cf) dt err x dxdt i))))) < 9/10).
    { match goal with |- ?b < _ => replace b with (dt' / dt); [exact Ha|] end. exact (ratio_eq dt dt' _ Hdt E4). }
    destruct (Rej Q) as (A1 & A2 & A3 & A4 & A5). split; [exact W1|]. split; [exact W2|]. split; [exact A1|]. split; [lia|].
    intros [|[|k]] e d Hk Ee; [| |lia].
    + destruct (Hh 0%nat e d ltac:(lia) Ee) as (B1 & B2). split; congruence.
    + destruct (Hh 1%nat e d ltac:(lia) Ee) as (B1 & B2). split; congruence.
Qed.
End R.

(** ** The formula *)
Lemma Rpower_0 b : Rpower b 0 = 1.
Proof. unfold Rpower. rewrite Rmult_0_l. apply exp_0. Qed.
Lemma Rpower_pos b e : 0 < Rpower b e.
Proof. apply exp_pos. Qed.
Lemma adapted_R eps (b e : R) : @eq R (adapted_pow (N := RNum eps) Rpower b e) (Rpower b e).
Proof.
  unfold adapted_pow, nneq. cbn [nle nlt nofZ ndiv nopp RNum].
  destruct (Rleb e 0) eqn:E1; destruct (Rleb 0 e) eqn:E2; cbn [andb negb].
  - apply Rleb_true in E1, E2. replace e with 0 by lra. now rewrite Rpower_0.
  - apply Rleb_true in E1. apply Rleb_false in E2. destruct (Rltb 0 e) eqn:E3; [apply Rltb_true in E3; lra|].
    rewrite Rpower_Ropp. unfold Rdiv. rewrite Rmult_1_l. apply Rinv_inv.
  - apply Rleb_false in E1. apply Rleb_true in E2. destruct (Rltb 0 e) eqn:E3; [reflexivity|apply Rltb_false in E3; lra].
  - apply Rleb_false in E1, E2. lra.
Qed.
Lemma op2_R eps steps (e : R) : @eq R (pid_op2 (N := RNum eps) Rpower steps e) (Rpower (Rabs e) (7/10 / INR (steps + 1))).
Proof.
  unfold pid_op2. rewrite adapted_R, nofnat_R. cbn [ndiv nofZ nabs nopp RNum]. unfold nfrac. cbn [ndiv nofZ RNum].
  replace (- (7 / 10) / INR (steps + 1)) with (- (7 / 10 / INR (steps + 1))).
  - rewrite Rpower_Ropp. unfold Rdiv at 1. rewrite Rmult_1_l. apply Rinv_inv.
  - field. apply not_0_INR. lia.
Qed.
Lemma op4_R eps c steps (d0 d1 d2 e0 e1 e2 : R) : @eq R (pid_op4 (N := RNum eps) Rpower c steps d0 d1 d2 e0 e1 e2)
  (pid_formula (pb1 c) (pb2 c) (pb3 c) (pa1 c) (pa2 c) (INR (steps + 1)) (Rabs e0) (Rabs e1) (Rabs e2) (Rabs (d0 / d1)) (Rabs (d1 / d2))).
Proof.
  assert (Hn : INR (steps + 1) <> 0) by (apply not_0_INR; lia).
  unfold pid_op4, pid_formula. rewrite !adapted_R, !nofnat_R. cbn [ndiv nofZ nabs nopp nmul RNum].
  assert (G : forall a b, Rpower b (- a / INR (steps + 1)) = / Rpower b (a / INR (steps + 1))).
  { intros a b. rewrite <- Rpower_Ropp. f_equal. field. exact Hn. }
  change (carrier (RNum eps)) with R in *. rewrite !G.
  assert (F : forall a b c d e : R, a <> 0 -> b <> 0 -> c <> 0 -> d <> 0 -> e <> 0 -> 1 / (/ a * / b * / c * / d * / e) = a * b * c * d * e)
    by (intros; field; auto).
  apply F; apply Rgt_not_eq; apply Rpower_pos.
Qed.

(** ** The ratio *)
Lemma growth_bounds eps (n : R) : 0 < n -> 1 - PI/4 < pid_growth (N := RNum eps) atan n < 1 + PI/2.
Proof.
  intro Hn. unfold pid_growth. cbn [nadd nmul ndiv nsub nofZ RNum].
  replace ((1 / n - 1) / 1) with (1 / n - 1) by (field; lra). rewrite Rmult_1_l.
  assert (H1 : -1 < 1 / n - 1). { assert (0 < 1 / n) by (unfold Rdiv; rewrite Rmult_1_l; now apply Rinv_0_lt_compat). lra. }
  assert (H2 := atan_increasing _ _ H1). change (-1) with (- (1)) in H2; replace (IZR (-1)) with (- 1) in H2 by lra; rewrite atan_opp, atan_1 in H2. pose proof (atan_bound (1 / n - 1)). lra.
Qed.
Lemma growth_ge1 eps (n : R) : 0 < n -> n <= 1 -> 1 <= pid_growth (N := RNum eps) atan n.
Proof.
  intros Hn H1. unfold pid_growth. cbn [nadd nmul ndiv nsub nofZ RNum].
  replace ((1 / n - 1) / 1) with (1 / n - 1) by (field; lra). rewrite Rmult_1_l.
  assert (H : 0 <= 1 / n - 1). { unfold Rdiv. rewrite Rmult_1_l. assert (/1 <= /n) by (apply Rinv_le_contravar; lra). rewrite Rinv_1 in H. lra. }
  destruct (Rle_lt_or_eq_dec _ _ H) as [Q|Q].
  - apply atan_increasing in Q. rewrite atan_0 in Q. lra.
  - rewrite <- Q, atan_0. lra.
Qed.
Lemma growth_lt1 eps (n : R) : 1 < n -> pid_growth (N := RNum eps) atan n < 1.
Proof.
  intro H1. unfold pid_growth. cbn [nadd nmul ndiv nsub nofZ RNum].
  replace ((1 / n - 1) / 1) with (1 / n - 1) by (field; lra). rewrite Rmult_1_l.
  assert (H : 1 / n - 1 < 0). { unfold Rdiv. rewrite Rmult_1_l. assert (/n < /1) by (apply Rinv_lt_contravar; lra). rewrite Rinv_1 in H. lra. }
  apply atan_increasing in H. rewrite atan_0 in H. lra.
Qed.
Lemma pi4 : 1 - PI/4 > 0.
Proof. pose proof PI_4. pose proof PI_ineq 1 as Q. assert (G : PI < 4).
  { destruct Q as [_ Q]. cbn in Q. unfold tg_alt, PI_tg in Q. cbn in Q. lra. } lra. Qed.
Lemma limit_cases eps (m dt r : R) : (m <= r * dt /\ pid_limit (N := RNum eps) m dt r = m / dt) \/ (r * dt < m /\ pid_limit (N := RNum eps) m dt r = r).
Proof.
  unfold pid_limit. cbn [nle nmul ndiv RNum]. destruct (Rleb m (r * dt)) eqn:E; [apply Rleb_true in E|apply Rleb_false in E]; auto.
Qed.

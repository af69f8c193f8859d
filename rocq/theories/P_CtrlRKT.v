(** Attempts of controlled_runge_kutta over the reals. *)
From Coq Require Import ZArith List Bool Reals Lra Lia.
From Verif Require Import M_Num M_Sign M_RK M_CtrlRK S_Real S_Ctrl S_CtrlRK P_R P_RK P_Det P_CtrlRK P_CtrlRKR.
Import ListNotations.
Local Open Scope R_scope.

Section T.
Variable eps : R.
Notation NN := (RNum eps).
Context {I S : Type}.
Variable idx : list I.
Variable sys : (I -> R) -> R -> (I -> R).
Variable eo so : Z.
Variable cfg : err_cfg NN.
Variable max_dt : R.
Notation tol := (good_tol (eps_abs cfg) (eps_rel cfg) (a_x cfg) (a_dxdt cfg)).
Notation within := (within_tol idx (eps_abs cfg) (eps_rel cfg) (a_x cfg) (a_dxdt cfg)).

(** The three things that can happen to an attempt with error estimate [e]. *)
Definition outcome (x dx e : I -> R) (dt dt' : R) (ok : bool) : Prop :=
  let err := snd (@checker_error NN I idx cfg x dx e dt) in
  (max_dt <> 0 /\ dir dt * (dt - max_dt) > eps /\ ok = false /\ dt' = max_dt)
  \/ ((max_dt = 0 \/ dir dt * (dt - max_dt) <= eps) /\ 1 < err /\ ok = false
      /\ dt' = @decrease_step NN rpow max_dt dt err eo)
  \/ ((max_dt = 0 \/ dir dt * (dt - max_dt) <= eps) /\ err <= 1 /\ ok = true
      /\ dt' = @increase_step NN rpow max_dt dt err so).

Section E.
Variable estep : S -> (I -> R) -> (I -> R) -> R -> R -> S * (I -> R) * (I -> R).
Notation try := (ck_try (N := NN) idx rpow sys estep eo so cfg max_dt).

Lemma ck_outcome : forall c x t dt c' x' t' dt' ok, try c x t dt = (c', x', t', dt', ok) ->
  outcome x (sys x t) (snd (estep (ck_st c) x (sys x t) t dt)) dt dt' ok
  /\ (max_dt <> 0 -> dir dt * (dt - max_dt) > eps -> ck_st c' = ck_st c).
Proof.
  intros c x t dt c' x' t' dt' ok. unfold outcome, ck_try, ck_try_v2, ck_core. cbn [ck_st ck_xerr ck_xnew ck_dxdt].
  destruct (@check_step_size_limit NN max_dt dt) eqn:E.
  - apply check_R in E. destruct (estep (ck_st c) x (sys x t) t dt) as [[st1 out1] xerr1] eqn:Es.
    destruct (checker_error idx cfg x (sys x t) xerr1 dt) as [xerr2 err] eqn:Ec.
    cbn [fst snd].
    change (ngt err (@nofZ NN 1)) with (Rltb 1 err).
    destruct (Rltb 1 err) eqn:El.
    + apply Rltb_true in El. intro H; inversion H; subst. rewrite Ec. cbn [snd].
      split; [right; left; tauto|]. intros Q1 Q2. destruct E; lra.
    + apply Rltb_false in El. intro H; inversion H; subst. rewrite Ec. cbn [snd].
      split; [right; right; tauto|]. intros Q1 Q2. destruct E; lra.
  - apply check_R_false in E. intro H; inversion H; subst. split; [left; tauto|reflexivity].
Qed.
End E.

Section F.
Variable fstep : S -> (I -> R) -> (I -> R) -> R -> R -> S * (I -> R) * (I -> R) * (I -> R).
Notation try := (ckf_try (N := NN) idx rpow sys fstep eo so cfg max_dt).

Lemma ckf_outcome : forall rs c x t dt c' x' t' dt' ok, try rs c x t dt = (c', x', t', dt', ok) ->
  exists dx, (cache_ok (N := NN) sys c x t -> dx = sys x t)
  /\ outcome x dx (snd (fstep (cf_st c) x dx t dt)) dt dt' ok
  /\ (if (ok : bool) then t' = t + dt else x' = x /\ t' = t)
  /\ (max_dt <> 0 -> dir dt * (dt - max_dt) > eps -> cf_st c' = cf_st c).
Proof.
  intros rs c x t dt c' x' t' dt' ok. unfold ckf_try.
  set (c1 := if (rs || cf_first c)%bool then ckf_init (N := NN) sys c x t else c).
  assert (H1 : (cache_ok (N := NN) sys c x t -> cf_dxdt c1 = sys x t) /\ cf_st c1 = cf_st c).
  { unfold c1. destruct (rs || cf_first c)%bool eqn:E; [now split|]. split; [|reflexivity].
    intros [Hc|Hc]; [|exact Hc]. rewrite Hc in E. destruct rs; discriminate. }
  destruct H1 as [H1 H2]. intro H. exists (cf_dxdt c1). split; [exact H1|]. clear H1. clearbody c1.
  revert H. unfold outcome, ckf_try_v3, ckf_core. rewrite H2.
  destruct (@check_step_size_limit NN max_dt dt) eqn:E.
  - apply check_R in E.
    destruct (fstep (cf_st c) x (cf_dxdt c1) t dt) as [[[st1 out1] dxout1] xerr1] eqn:Es.
    destruct (checker_error idx cfg x (cf_dxdt c1) xerr1 dt) as [xerr2 err] eqn:Ec.
    cbn [fst snd]. change (ngt err (@nofZ NN 1)) with (Rltb 1 err).
    destruct (Rltb 1 err) eqn:El.
    + apply Rltb_true in El. intro H; inversion H; subst. rewrite Ec. cbn [snd].
      split; [right; left; tauto|]. split; [tauto|]. intros Q1 Q2. destruct E; lra.
    + apply Rltb_false in El. intro H; inversion H; subst. rewrite Ec. cbn [snd].
      split; [right; right; tauto|]. split; [reflexivity|]. intros Q1 Q2. destruct E; lra.
  - apply check_R_false in E. intro H; inversion H; subst.
    split; [left; tauto|]. split; [tauto|]. intros _ _. reflexivity.
Qed.
End F.

(** Consequences of an outcome. *)
Lemma not_within : forall x dx e dt, ~ within x dx e dt ->
  exists i, In i idx /\ (eps_abs cfg : R) + eps_rel cfg * (a_x cfg * Rabs (x i) + a_dxdt cfg * Rabs dt * Rabs (dx i)) < Rabs (e i).
Proof.
  intros x dx e dt H. unfold within_tol in H.
  set (P := fun i => Rabs (e i) <= (eps_abs cfg : R) + eps_rel cfg * (a_x cfg * Rabs (x i) + a_dxdt cfg * Rabs dt * Rabs (dx i))).
  destruct (Forall_Exists_dec P (fun i => Rle_dec _ _) idx) as [F|X].
  - exfalso. apply H. rewrite Forall_forall in F. exact F.
  - apply Exists_exists in X. destruct X as (i & Hi & Hn). exists i. split; [exact Hi|].
    unfold P in Hn. lra.
Qed.

Lemma outcome_tol : forall x dx e dt dt' ok, tol -> outcome x dx e dt dt' ok ->
  (ok = true -> within x dx e dt)
  /\ (ok = false -> (max_dt = 0 \/ dir dt * (dt - max_dt) <= eps) ->
      exists i, In i idx /\ (eps_abs cfg : R) + eps_rel cfg * (a_x cfg * Rabs (x i) + a_dxdt cfg * Rabs dt * Rabs (dx i)) < Rabs (e i)).
Proof.
  intros x dx e dt dt' ok Ht [(H1 & H2 & H3 & H4)|[(H1 & H2 & H3 & H4)|(H1 & H2 & H3 & H4)]]; subst ok.
  - split; [discriminate|]. intros _ [Q|Q]; lra.
  - split; [discriminate|]. intros _ _. apply not_within. intro Q.
    apply (error_le1 eps idx cfg x dx e dt Ht) in Q. lra.
  - split; [|discriminate]. intros _. now apply (error_le1 eps idx cfg x dx e dt Ht).
Qed.

Lemma err_nonneg : forall x dx e dt, 0 <= snd (@checker_error NN I idx cfg x dx e dt).
Proof. intros. unfold checker_error. cbn [snd]. apply norm_inf_nonneg. Qed.

Lemma outcome_dt : forall x dx e dt dt' ok, dt <> 0 -> (2 <= eo)%Z -> (1 <= so)%Z -> 0 <= eps ->
  agrees dt max_dt -> outcome x dx e dt dt' ok ->
  0 < dir dt * dt'
  /\ (ok = false -> Rabs dt' < Rabs dt)
  /\ (ok = false -> max_dt = 0 -> 1 / 5 * Rabs dt <= Rabs dt' < 9 / 10 * Rabs dt)
  /\ (ok = true -> Rabs dt' <= 9 / 2 * Rabs dt)
  /\ (ok = true -> max_dt = 0 -> (so <= 6)%Z -> Rabs dt <= Rabs dt')
  /\ (max_dt <> 0 -> Rabs dt' <= Rabs max_dt + eps /\ (ok = true -> Rabs dt <= Rabs max_dt + eps)).
Proof.
  intros x dx e dt dt' ok Hd He Ho Hp Ha [(H1 & H2 & H3 & H4)|[(H1 & H2 & H3 & H4)|(H1 & H2 & H3 & H4)]];
    subst ok dt'.
  - destruct Ha as [Ha|Ha]; [contradiction|].
    assert (E : Rabs max_dt = dir dt * max_dt) by (rewrite <- (dir_same dt max_dt Ha); symmetry; apply dir_abs).
    rewrite Rmult_minus_distr_l, dir_abs in H2.
    repeat split; try discriminate; try lra; intros; lra.
  - destruct (decrease_bounds eps max_dt dt _ eo Hd H2 He Ha) as (A & B & C & D). cbv zeta in *.
    set (d := @decrease_step NN rpow max_dt dt (snd (checker_error idx cfg x dx e dt)) eo) in *. clearbody d.
    change R in d. assert (0 < Rabs dt) by now apply Rabs_pos_lt.
    split; [exact A|]. split; [intros _; lra|]. split; [intros _ Z; specialize (C Z); lra|].
    split; [discriminate|]. split; [discriminate|]. intro Z. specialize (D Z). split; [lra|discriminate].
  - destruct (increase_bounds eps max_dt dt _ so Hd (err_nonneg x dx e dt) Ho Ha) as (A & B & C & D). cbv zeta in *.
    set (d := @increase_step NN rpow max_dt dt (snd (checker_error idx cfg x dx e dt)) so) in *. clearbody d.
    change R in d.
    split; [exact A|]. split; [discriminate|]. split; [discriminate|]. split; [intros _; exact B|].
    split; [intros _; exact C|]. intro Z. specialize (D Z).
    assert (Q : Rabs dt <= Rabs max_dt + eps).
    { destruct H1 as [H1|H1]; [contradiction|]. destruct Ha as [Ha|Ha]; [contradiction|].
      assert (E : Rabs max_dt = dir dt * max_dt) by (rewrite <- (dir_same dt max_dt Ha); symmetry; apply dir_abs).
      rewrite Rmult_minus_distr_l, dir_abs in H1. lra. }
    split; [|intros _; exact Q].
    eapply Rle_trans; [exact D|]. apply Rmax_lub; lra.
Qed.
End T.

(** The contract assumed of controlled steppers by the theorems about the integrate functions. *)
Theorem ck_contract : forall eps I S (idx : list I) sys
    (estep : S -> (I -> R) -> (I -> R) -> R -> R -> S * (I -> R) * (I -> R)) eo so (cfg : err_cfg (RNum eps)),
  0 <= eps -> (2 <= eo)%Z -> (1 <= so)%Z ->
  try_contract (ck_try (N := RNum eps) idx rpow sys estep eo so cfg 0%R).
Proof.
  intros eps I S idx sys estep eo so cfg Hp He Ho s x t dt Hd.
  destruct (ck_try (N := RNum eps) idx rpow sys estep eo so cfg 0%R s x t dt) as [[[[c' x'] t'] dt'] ok] eqn:E.
  destruct (ck_outcome eps idx sys eo so cfg 0 estep s x t dt c' x' t' dt' ok E) as [Oc _].
  pose proof (ck_effect (N := RNum eps) idx rpow sys estep eo so cfg _ s x t dt c' x' t' dt' ok E) as Ef.
  destruct (outcome_dt eps idx eo so cfg 0 _ _ _ _ _ _ Hd He Ho Hp (or_introl eq_refl) Oc)
    as (A & B & _). destruct ok.
  - destruct Ef as [Ef _]. split; [exact Ef|exact A].
  - destruct Ef as [E1 E2]. split; [exact E1|]. split; [exact E2|]. split; [exact A|].
    specialize (B eq_refl). pose proof (dir_same dt dt' A). rewrite <- H. rewrite dir_abs. lra.
Qed.
Theorem ckf_contract : forall eps I S (idx : list I) sys
    (fstep : S -> (I -> R) -> (I -> R) -> R -> R -> S * (I -> R) * (I -> R) * (I -> R)) eo so
    (cfg : err_cfg (RNum eps)) rs,
  0 <= eps -> (2 <= eo)%Z -> (1 <= so)%Z ->
  try_contract (ckf_try (N := RNum eps) idx rpow sys fstep eo so cfg 0%R rs).
Proof.
  intros eps I S idx sys fstep eo so cfg rs Hp He Ho s x t dt Hd.
  destruct (ckf_try (N := RNum eps) idx rpow sys fstep eo so cfg 0%R rs s x t dt) as [[[[c' x'] t'] dt'] ok] eqn:E.
  destruct (ckf_outcome eps idx sys eo so cfg 0 fstep rs s x t dt c' x' t' dt' ok E) as (dx & _ & Oc & Ef & _).
  destruct (outcome_dt eps idx eo so cfg 0 _ _ _ _ _ _ Hd He Ho Hp (or_introl eq_refl) Oc)
    as (A & B & _). destruct ok.
  - split; [exact Ef|exact A].
  - destruct Ef as [E1 E2]. split; [exact E1|]. split; [exact E2|]. split; [exact A|].
    specialize (B eq_refl). pose proof (dir_same dt dt' A). rewrite <- H. rewrite dir_abs. lra.
Qed.

(** The time grid of integrate_const in binary64, when all its points are doubles. *)
From Coq Require Import ZArith List Bool Arith Lia.
From Coq Require Import Floats.SpecFloat.
From Verif Require Import M_Num M_Sign M_Run M_Plain S_Grid S_F64 P_F64.
Local Open Scope Z_scope.

Lemma eps_units : units (@neps F64) (2 ^ 1022).
Proof. pose proof (dyadic_exact 1 (-52) ltac:(lia) ltac:(lia)) as H. rewrite Z.mul_1_l in H. exact H. Qed.
Lemma zero_units : units (@nofZ F64 0) 0.
Proof. reflexivity. Qed.

Section Grid.
Variables (t0 dt : F64) (T0 H k : Z) (n : nat).
Hypothesis Ut : units t0 (T0 * 2 ^ k).
Hypothesis Ud : units dt (H * 2 ^ k).
Hypothesis Hk : 0 <= k <= 2045.
Hypothesis Hb : Z.abs T0 + (Z.of_nat n + 1) * Z.abs H < 2 ^ 53.
Hypothesis HH : H <> 0.

Lemma exact_multiple a : Z.abs a < 2 ^ 53 -> exact_units (a * 2 ^ k).
Proof. intro Ha. exists a, k. auto. Qed.
Lemma mult_bound j : 0 <= j <= Z.of_nat n + 1 -> Z.abs (j * H) <= (Z.of_nat n + 1) * Z.abs H.
Proof. intro Hj. rewrite Z.abs_mul, (Z.abs_eq j) by lia. apply Z.mul_le_mono_nonneg_r; lia. Qed.

Lemma scaled_units j : (j <= n + 1)%nat -> units (@nofnat F64 j * dt)%num (Z.of_nat j * H * 2 ^ k).
Proof.
  intro Hj. pose proof (mult_bound (Z.of_nat j) ltac:(lia)).
  assert (J : Z.of_nat j < 2 ^ 53) by nia.
  apply (mul_exact _ _ (Z.of_nat j * 2 ^ 1074) (H * 2 ^ k)).
  - apply ofZ_exact. rewrite Z.abs_eq by lia. exact J.
  - exact Ud.
  - ring.
  - apply exact_multiple. lia.
Qed.
Lemma scaled_units_r j : (j <= n + 1)%nat -> units (dt * @nofnat F64 j)%num (Z.of_nat j * H * 2 ^ k).
Proof.
  intro Hj. pose proof (mult_bound (Z.of_nat j) ltac:(lia)).
  assert (J : Z.of_nat j < 2 ^ 53) by nia.
  apply (mul_exact _ _ (H * 2 ^ k) (Z.of_nat j * 2 ^ 1074)).
  - exact Ud.
  - apply ofZ_exact. rewrite Z.abs_eq by lia. exact J.
  - ring.
  - apply exact_multiple. lia.
Qed.
Lemma sum_units x j : (j <= n + 1)%nat -> units x (Z.of_nat j * H * 2 ^ k) -> units (t0 + x)%num ((T0 + Z.of_nat j * H) * 2 ^ k).
Proof.
  intros Hj Hx. pose proof (mult_bound (Z.of_nat j) ltac:(lia)). rewrite Z.mul_add_distr_r. apply add_exact; auto.
  rewrite <- Z.mul_add_distr_r. apply exact_multiple. lia.
Qed.
Lemma grid_units j : (j <= n + 1)%nat -> units (grid t0 dt j) ((T0 + Z.of_nat j * H) * 2 ^ k).
Proof.
  intro Hj. destruct j as [|j]; [cbn [grid]; replace (T0 + Z.of_nat 0 * H) with T0 by lia; exact Ut|].
  cbn [grid]. apply sum_units; [exact Hj|]. now apply scaled_units.
Qed.
Lemma next_units j : (j <= n)%nat -> units (grid t0 dt j + dt)%num ((T0 + Z.of_nat (S j) * H) * 2 ^ k).
Proof.
  intro Hj. pose proof (mult_bound (Z.of_nat (S j)) ltac:(lia)).
  replace ((T0 + Z.of_nat (S j) * H) * 2 ^ k) with ((T0 + Z.of_nat j * H) * 2 ^ k + H * 2 ^ k) by (rewrite Nat2Z.inj_succ; ring).
  apply add_exact; [apply grid_units; lia|exact Ud|]. rewrite <- Z.mul_add_distr_r. apply exact_multiple.
  replace (T0 + Z.of_nat j * H + H) with (T0 + Z.of_nat (S j) * H) by (rewrite Nat2Z.inj_succ; ring). lia.
Qed.

Variable tend : F64.
Hypothesis Ue : units tend ((T0 + Z.of_nat n * H) * 2 ^ k).
Hypothesis Hd : 2 ^ 1022 < Z.abs H * 2 ^ k.

Lemma pos_dt : @npos F64 dt = (0 <? H).
Proof.
  unfold npos. rewrite (ltb_exact _ _ 0 (H * 2 ^ k) zero_units Ud). assert (P : 0 < 2 ^ k) by (apply Z.pow_pos_nonneg; lia).
  apply eq_true_iff_eq. rewrite !Z.ltb_lt. nia.
Qed.
Lemma diff_units j : (j <= n)%nat ->
  units ((grid t0 dt j + dt) - tend)%num ((Z.of_nat (S j) - Z.of_nat n) * H * 2 ^ k)
  /\ units (tend - (grid t0 dt j + dt))%num ((Z.of_nat n - Z.of_nat (S j)) * H * 2 ^ k).
Proof.
  intro Hj.
  assert (B : Z.abs ((Z.of_nat (S j) - Z.of_nat n) * H) < 2 ^ 53) by (rewrite Z.abs_mul; nia).
  replace ((Z.of_nat (S j) - Z.of_nat n) * H * 2 ^ k) with ((T0 + Z.of_nat (S j) * H) * 2 ^ k - (T0 + Z.of_nat n * H) * 2 ^ k) by ring.
  replace ((Z.of_nat n - Z.of_nat (S j)) * H * 2 ^ k) with ((T0 + Z.of_nat n * H) * 2 ^ k - (T0 + Z.of_nat (S j) * H) * 2 ^ k) by ring.
  split; apply sub_exact; auto using next_units; rewrite <- Z.mul_sub_distr_r; apply exact_multiple.
  - replace (T0 + Z.of_nat (S j) * H - (T0 + Z.of_nat n * H)) with ((Z.of_nat (S j) - Z.of_nat n) * H) by ring. exact B.
  - replace (T0 + Z.of_nat n * H - (T0 + Z.of_nat (S j) * H)) with (- ((Z.of_nat (S j) - Z.of_nat n) * H)) by ring. lia.
Qed.
Lemma count_first : first_false (fun j => @less_eq_with_sign F64 (grid t0 dt j + dt)%num tend dt) n.
Proof.
  assert (P : 0 < 2 ^ k) by (apply Z.pow_pos_nonneg; lia). assert (P2 : 0 < 2 ^ 1022) by (apply Z.pow_pos_nonneg; lia).
  assert (A : Z.abs H * 2 ^ k = Z.abs (H * 2 ^ k)) by (rewrite Z.abs_mul, (Z.abs_eq (2 ^ k)); lia).
  split.
  - intros j Hj. destruct (diff_units j ltac:(lia)) as [U1 U2]. unfold less_eq_with_sign. rewrite pos_dt. destruct (Z.ltb_spec 0 H).
    + rewrite (leb_exact _ _ _ _ U1 eps_units). apply Z.leb_le. apply Z.le_trans with 0; [|lia]. apply Z.mul_nonpos_nonneg; [nia|lia].
    + rewrite (leb_exact _ _ _ _ U2 eps_units). apply Z.leb_le. apply Z.le_trans with 0; [|lia]. apply Z.mul_nonpos_nonneg; [nia|lia].
  - destruct (diff_units n ltac:(lia)) as [U1 U2]. unfold less_eq_with_sign. rewrite pos_dt. destruct (Z.ltb_spec 0 H).
    + rewrite (leb_exact _ _ _ _ U1 eps_units). apply Z.leb_gt. replace (Z.of_nat (S n) - Z.of_nat n) with 1 by lia. rewrite Z.mul_1_l. nia.
    + rewrite (leb_exact _ _ _ _ U2 eps_units). apply Z.leb_gt. replace (Z.of_nat n - Z.of_nat (S n)) with (-1) by lia. nia.
Qed.
(** The time computed by integrate_adaptive after the whole steps is the end time: no last step. *)
Lemma no_rest : @less_with_sign F64 (t0 + dt * nofnat n)%num tend dt = false.
Proof.
  assert (P2 : 0 < 2 ^ 1022) by (apply Z.pow_pos_nonneg; lia).
  assert (U : units (t0 + dt * @nofnat F64 n)%num ((T0 + Z.of_nat n * H) * 2 ^ k)) by (apply sum_units; [lia|apply scaled_units_r; lia]).
  assert (D : forall x y, units x ((T0 + Z.of_nat n * H) * 2 ^ k) -> units y ((T0 + Z.of_nat n * H) * 2 ^ k) -> units (@nsub F64 x y) 0).
  { intros x y Hx Hy. rewrite <- (Z.sub_diag ((T0 + Z.of_nat n * H) * 2 ^ k)). apply sub_exact; auto. rewrite Z.sub_diag. exists 0, 0. repeat split; lia. }
  unfold less_with_sign. destruct (npos dt).
  - rewrite (ltb_exact _ _ _ _ eps_units (D _ _ Ue U)). apply Z.ltb_ge. lia.
  - rewrite (ltb_exact _ _ _ _ eps_units (D _ _ U Ue)). apply Z.ltb_ge. lia.
Qed.
End Grid.

(** Repeated rejection, fehlberg78 on quadratures, binary64 errors that are not a number, wrong
    direction of the step limit. *)
From Coq Require Import ZArith List Bool Reals Lra Lia Floats.SpecFloat.
From Verif Require Import M_Num M_Sign M_RK M_CtrlRK S_RK S_Real S_Ctrl S_CtrlRK P_R P_RK P_RKR P_RKAll P_Det
  P_CtrlRK P_CtrlRKR P_CtrlRKT P_CtrlRKN P_RosR.
Import ListNotations.
Local Open Scope R_scope.

(** A stepper whose rejections shorten the step by a factor in [lo,hi]. *)
Section Geo.
Context {S X : Type}.
Variable f : S -> X -> R -> R -> S * X * R * R * bool.
Variables lo hi : R.
Hypothesis lo0 : 0 < lo.
Hypothesis hi0 : 0 <= hi.
Hypothesis rej : forall s x t dt s' x' t' dt', dt <> 0 -> f s x t dt = (s', x', t', dt', false) ->
  lo * Rabs dt <= Rabs dt' <= hi * Rabs dt.

Lemma geo_attempts : forall k s x t dt, dt <> 0 ->
  (forall j, (j <= k)%nat -> snd (attempt f j s x t dt) = false) ->
  lo ^ (Datatypes.S k) * Rabs dt <= Rabs (snd (fst (attempt f k s x t dt))) <= hi ^ (Datatypes.S k) * Rabs dt.
Proof.
  induction k as [|k IH]; intros s x t dt Hd H.
  - specialize (H 0%nat (le_n 0)). cbn [attempt] in *.
    destruct (f s x t dt) as [[[[s' x'] t'] dt'] ok] eqn:E. cbn [fst snd] in *. subst ok.
    rewrite !pow_1. exact (rej _ _ _ _ _ _ _ _ Hd E).
  - pose proof (H 0%nat (Nat.le_0_l _)) as H0. cbn [attempt] in H0. cbn [attempt].
    destruct (f s x t dt) as [[[[s' x'] t'] dt'] ok] eqn:E. cbn [snd] in H0. subst ok.
    pose proof (rej _ _ _ _ _ _ _ _ Hd E) as [B1 B2].
    assert (P : 0 < Rabs dt) by now apply Rabs_pos_lt.
    assert (Hd' : dt' <> 0). { intro Z. subst dt'. rewrite Rabs_R0 in B1. nra. }
    specialize (IH s' x' t' dt' Hd').
    assert (Q : forall j, (j <= k)%nat -> snd (attempt f j s' x' t' dt') = false).
    { intros j Hj. specialize (H (Datatypes.S j) ltac:(lia)). cbn [attempt] in H. rewrite E in H. exact H. }
    specialize (IH Q). pose proof (pow_lt lo (Datatypes.S k) lo0).
    pose proof (pow_le hi (Datatypes.S k) hi0).
    rewrite (tech_pow_Rmult lo (Datatypes.S k)) || idtac.
    change (lo ^ Datatypes.S (Datatypes.S k)) with (lo * lo ^ Datatypes.S k).
    change (hi ^ Datatypes.S (Datatypes.S k)) with (hi * hi ^ Datatypes.S k).
    set (pl := lo ^ Datatypes.S k) in *. set (ph := hi ^ Datatypes.S k) in *. clearbody pl ph.
    split.
    + apply Rle_trans with (pl * Rabs dt'); [|lra]. nra.
    + apply Rle_trans with (ph * Rabs dt'); [lra|]. nra.
Qed.
End Geo.

(** fehlberg78 on x' = g(t): the error estimate is 0. *)
Lemma f78_quadrature : forall eps I (g : R -> I -> R) x t dt e,
  rk_error eps (tab_of (N := RNum eps) rk_f78) (fun _ s => g s) x t dt e -> forall i, e i = 0.
Proof.
  intros eps I g x t dt e (ks & [L H0 HS] & He) i. rewrite He. clear He.
  cbn [length tab_of f78_tab tab_a] in L.
  pose proof (HS 9%nat _ _ eq_refl eq_refl) as H10.
  pose proof (HS 10%nat _ _ eq_refl eq_refl) as H11.
  pose proof (HS 11%nat _ _ eq_refl eq_refl) as H12. clear HS.
  do 14 (destruct ks as [|? ks]; try discriminate L). clear L.
  cbn [nth_error] in *.
  apply (f_equal (fun o => match o with Some v => v i | None => 0 end)) in H0, H10, H11, H12.
  cbv iota in H0, H10, H11, H12.
  cbn [wsum tab_of f78_tab tab_b2 combine]. unfold wsum. cbn [combine map rsum fold_right fst snd].
  rewrite H0, H10, H11, H12. unfold nfrac. cbn [ndiv nofZ RNum nmul nadd].
  replace (t + 1 * dt) with (t + dt) by ring. replace (t + 0 * dt) with t by ring.
  match goal with |- @eq _ ?a ?b => change (@eq R a b) end. lra.
Qed.

Lemma norm_zero : forall eps I (idx : list I) (v : I -> R), (forall i, v i = 0) -> @norm_inf (RNum eps) I idx v = 0.
Proof.
  intros eps I idx v H. apply Rle_antisym; [|apply norm_inf_nonneg].
  apply norm_inf_le; [lra|]. intros i _. rewrite H, Rabs_R0. lra.
Qed.

Lemma grow_zero : grow 0 8 = 9 / 2.
Proof.
  unfold grow. rewrite (rpow_pos 5) by lra. pose proof (Rpower_gt0 5 (- IZR 8)) as G.
  rewrite Rmax_left by lra. rewrite rpow_pos by exact G. rewrite Rpower_mult.
  replace (- IZR 8 * (-1 / IZR 8)) with 1 by field. rewrite Rpower_1; lra.
Qed.

Theorem f78_blind : forall eps I (idx : list I) (g : R -> I -> R) (cfg : err_cfg (RNum eps)) c x t dt,
  0 <= eps ->
  exists c' x',
  ck_try (N := RNum eps) idx rpow (fun _ s => g s) (rk_estep (N := RNum eps) (fun _ s => g s) rk_f78) 7 8 cfg 0%R
    c x t dt = (c', x', t + dt, dt * (9 / 2), true).
Proof.
  intros eps I idx g cfg c x t dt Hp.
  destruct (ck_try (N := RNum eps) idx rpow (fun _ s => g s) (rk_estep (N := RNum eps) (fun _ s => g s) rk_f78)
     7 8 cfg 0%R c x t dt) as [[[[c' x'] t'] dt'] ok] eqn:E.
  pose proof (ck_effect (N := RNum eps) _ _ _ _ _ _ _ _ _ _ _ _ _ _ _ _ _ E) as Ef.
  destruct (ck_outcome eps idx _ 7 8 cfg 0 _ _ _ _ _ _ _ _ _ _ E) as [Oc _]. cbv beta in Oc, Ef.
  set (est := rk_estep (N := RNum eps) (fun _ s => g s) rk_f78 (ck_st c) x (g t) t dt) in *.
  assert (Z : forall i, snd est i = 0).
  { destruct est as [[st out] e] eqn:Ee.
    refine (f78_quadrature eps I g x t dt _ (proj2 (rk_estep_R eps (fun _ s => g s) rk_f78 (ck_st c) x t dt st out e _ Ee))).
    cbn. lia. }
  clearbody est.
  assert (Zn : snd (@checker_error (RNum eps) I idx cfg x (g t) (snd est) dt) = 0).
  { unfold checker_error. cbn [snd]. apply norm_zero. intro i. unfold rel_error.
    rewrite Z. cbn [nabs ndiv RNum]. rewrite Rabs_R0. unfold Rdiv. apply Rmult_0_l. }
  change (outcome eps idx 7 8 cfg 0 x (g t) (snd est) dt dt' ok) in Oc.
  unfold outcome in Oc. cbv zeta in Oc. rewrite Zn in Oc.
  destruct Oc as [(H1 & _)|[(_ & H1 & _)|(_ & _ & H3 & H4)]]; [lra|lra|].
  subst ok. destruct Ef as [Ef _]. exists c', x'. rewrite increase_R in H4. 
  replace (Rltb 0 (1 / 2)) with true in H4 by (symmetry; apply Rltb_true; lra).
  replace (@nneq (RNum eps) 0 0) with false in H4 by (symmetry; now apply nneq_R_false).
  rewrite grow_zero in H4. subst dt' t'. reflexivity.
Qed.

(** binary64: NaN error estimates. *)
Lemma f64_nan_abs : @nabs F64 S754_nan = S754_nan. Proof. reflexivity. Qed.
Lemma norm_nan : forall I (idx : list I) (v : vec F64 I), (forall i, In i idx -> v i = S754_nan) ->
  @norm_inf F64 I idx v = @nofZ F64 0.
Proof.
  intros I idx v H. unfold norm_inf.
  assert (G : forall l, (forall i, In i l -> v i = S754_nan) -> forall a,
    fold_left (fun m i => nmax m (nabs (v i))) l a = a).
  { induction l as [|i l IH]; intros Hl a; cbn [fold_left]; [reflexivity|].
    rewrite (Hl i) by (now left). rewrite f64_nan_abs.
    unfold nmax. rewrite nan_lt_r. apply IH. intros j Hj. apply Hl. now right. }
  now apply G.
Qed.

Theorem nan_accepted : forall I S (idx : list I) pw sys
    (estep : S -> vec F64 I -> vec F64 I -> F64 -> F64 -> S * vec F64 I * vec F64 I) eo so cfg c x t dt,
  (forall i, In i idx -> snd (estep (ck_st c) x (sys x t) t dt) i = S754_nan) ->
  exists c' dt',
  ck_try (N := F64) idx pw sys estep eo so cfg (@nofZ F64 0) c x t dt
  = (c', snd (fst (estep (ck_st c) x (sys x t) t dt)), (t + dt)%num, dt', true).
Proof.
  intros I S idx pw sys estep eo so cfg c x t dt H.
  unfold ck_try, ck_try_v2, ck_core. cbn [ck_st ck_xerr ck_xnew ck_dxdt].
  replace (check_step_size_limit (@nofZ F64 0) dt) with true by reflexivity.
  destruct (estep (ck_st c) x (sys x t) t dt) as [[st1 out1] xerr1]. cbn [fst snd] in *.
  unfold checker_error.
  set (e := fun i => rel_error _ _ _ _ (xerr1 i) (x i) (sys x t i)).
  assert (Z : norm_inf idx e = @nofZ F64 0).
  { apply norm_nan. intros i Hi. unfold e, rel_error. rewrite (H i Hi), f64_nan_abs. apply nan_div_l. }
  rewrite Z. replace (@nlt F64 (nofZ 1) (nofZ 0)) with false by reflexivity.
  eexists _, _. reflexivity.
Qed.

(** The step limit against the direction of integration. *)
Theorem limit_reverses : forall eps I S (idx : list I) sys
    (estep : S -> (I -> R) -> (I -> R) -> R -> R -> S * (I -> R) * (I -> R)) eo so (cfg : err_cfg (RNum eps))
    max_dt c x t dt,
  dt < 0 -> 0 < max_dt -> eps < max_dt - dt ->
  exists c', ck_try (N := RNum eps) idx rpow sys estep eo so cfg max_dt c x t dt = (c', x, t, max_dt, false).
Proof.
  intros eps I S idx sys estep eo so cfg max_dt c x t dt Hd Hm He.
  unfold ck_try, ck_try_v2, ck_core. cbn [ck_st ck_xerr ck_xnew ck_dxdt].
  replace (@check_step_size_limit (RNum eps) max_dt dt) with false.
  2:{ symmetry. apply check_R_false. split; [lra|].
      destruct (dir_cases dt) as [[H1 H2]|[H1 H2]]; [lra|]. rewrite H2. lra. }
  eexists. reflexivity.
Qed.
Theorem limit_reverses_ros : forall eps I S (idx : list I)
    (rstep : S -> (I -> R) -> R -> R -> S * (I -> R) * (I -> R)) atol rtol max_dt c x t dt,
  dt < 0 -> 0 < max_dt -> eps < max_dt - dt ->
  exists c', rosc_try (N := RNum eps) idx rpow sqrt rstep atol rtol max_dt c x t dt = (c', x, t, max_dt, false).
Proof.
  intros eps I S idx rstep atol rtol max_dt c x t dt Hd Hm He. unfold rosc_try, rosc_core.
  replace (@nneq (RNum eps) max_dt (nofZ 0) && less_with_sign (N := RNum eps) max_dt dt dt)%bool with true.
  2:{ symmetry. apply andb_true_intro. split; [apply nneq_R; cbn; lra|]. apply less_R.
      destruct (dir_cases dt) as [[H1 H2]|[H1 H2]]; [lra|]. rewrite H2. lra. }
  eexists. reflexivity.
Qed.

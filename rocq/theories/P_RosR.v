(** rosenbrock4_controller: effect in any arithmetic, bounds over the reals, NaN in binary64. *)
From Coq Require Import ZArith List Bool Reals Lra Lia Floats.SpecFloat.
From Verif Require Import M_Num M_Sign M_RK M_CtrlRK S_Real S_Ctrl S_CtrlRK P_R P_CtrlRKR.
Import ListNotations.

Section Any.
Context {N : Num} {I S : Type}.
Variable idx : list I.
Variable pw : N -> N -> N.
Variable sq : N -> N.
Variable rstep : S -> vec N I -> N -> N -> S * vec N I * vec N I.
Variable atol rtol max_dt : N.
Notation try := (rosc_try idx pw sq rstep atol rtol max_dt).

Theorem ros_effect : forall c x t dt c' x' t' dt' ok, try c x t dt = (c', x', t', dt', ok) ->
  if (ok : bool)
  then t' = (t + dt)%num /\ x' = snd (fst (rstep (rc_st c) x t dt))
       /\ (ros_error idx sq atol rtol x' x (snd (rstep (rc_st c) x t dt)) <=? nofZ 1)%num = true
       /\ rc_first c' = false /\ rc_rejected c' = false /\ rc_dt_old c' = dt
  else x' = x /\ t' = t /\ rc_first c' = rc_first c /\ rc_err_old c' = rc_err_old c
       /\ rc_dt_old c' = rc_dt_old c.
Proof.
  intros c x t dt c' x' t' dt' ok. unfold rosc_try, rosc_core.
  destruct (nneq max_dt (nofZ 0) && less_with_sign max_dt dt dt)%bool.
  - intro H; inversion H; subst; cbn; auto.
  - destruct (rstep (rc_st c) x t dt) as [[st1 xout1] xerr1].
    destruct (ros_error idx sq atol rtol xout1 x xerr1 <=? nofZ 1)%num eqn:E;
      intro H; inversion H; subst; cbn; auto 10.
Qed.
End Any.

Local Open Scope R_scope.
Section R.
Variable eps : R.
Notation NN := (RNum eps).
Context {I S : Type}.
Variable idx : list I.
Variable rstep : S -> (I -> R) -> R -> R -> S * (I -> R) * (I -> R).
Variable atol rtol max_dt : R.
Notation try := (rosc_try (N := NN) idx rpow sqrt rstep atol rtol max_dt).
Notation error := (ros_error (N := NN) idx sqrt atol rtol).

Lemma ros_sum : forall (x xold e : I -> R) l a,
  fold_left (fun err i => @nadd NN err
     (@ndiv NN (@ndiv NN (@nmul NN (e i) (e i)) (@nadd NN atol (@nmul NN rtol (@nmax NN (Rabs (xold i)) (Rabs (x i))))))
        (@nadd NN atol (@nmul NN rtol (@nmax NN (Rabs (xold i)) (Rabs (x i))))))) l a
  = a + fold_right (fun i s => (e i / (atol + rtol * Rmax (Rabs (xold i)) (Rabs (x i)))) ^ 2 + s) 0 l.
Proof.
  intros x xold e. induction l as [|i l IH]; intros a; cbn [fold_left fold_right]; [lra|].
  rewrite IH. rewrite nmax_R. cbn [nadd ndiv nmul]. unfold RNum. cbn [nadd ndiv nmul].
  unfold Rdiv. match goal with |- @eq _ ?a ?b => change (@eq R a b) end. ring.
Qed.

Lemma sum_nonneg : forall (f : I -> R) l, 0 <= fold_right (fun i s => f i ^ 2 + s) 0 l.
Proof. induction l as [|i l IH]; cbn [fold_right]; [lra|]. pose proof (pow2_ge_0 (f i)). lra. Qed.

Lemma ros_error_nonneg : forall x xold e, 0 <= error x xold e.
Proof. intros. unfold ros_error. apply sqrt_pos. Qed.

Lemma ros_error_le1 : forall (x xold e : I -> R), idx <> [] ->
  error x xold e <= 1 <-> rms_within idx atol rtol xold x e.
Proof.
  intros x xold e Hn. unfold ros_error, rms_within.
  pose proof (ros_sum x xold e idx 0) as Q. rewrite Rplus_0_l in Q.
  match goal with |- context [sqrt ?a] => replace a with
    (fold_right (fun i s => (e i / (atol + rtol * Rmax (Rabs (xold i)) (Rabs (x i)))) ^ 2 + s) 0 idx / INR (length idx)) end.
  2:{ rewrite <- Q. cbn [ndiv]. rewrite <- (nofnat_R eps). reflexivity. }
  pose proof (sum_nonneg (fun i => e i / (atol + rtol * Rmax (Rabs (xold i)) (Rabs (x i)))) idx) as P. cbv beta in P.
  set (s := fold_right _ 0 idx) in *. clearbody s.
  assert (L : 0 < INR (length idx)).
  { apply lt_0_INR. destruct idx; [contradiction|cbn; lia]. }
  assert (D : 0 <= s / INR (length idx)).
  { apply Rmult_le_pos; [exact P|]. left. now apply Rinv_0_lt_compat. }
  assert (E : s / INR (length idx) <= 1 <-> s <= INR (length idx)).
  { split; intro H.
    - apply (Rmult_le_compat_r (INR (length idx))) in H; [|lra]. unfold Rdiv in H.
      rewrite Rmult_assoc, Rinv_l in H; lra.
    - apply (Rmult_le_reg_r (INR (length idx))); [exact L|]. unfold Rdiv.
      rewrite Rmult_assoc, Rinv_l; lra. }
  rewrite <- E. split; intro H.
  - destruct (Rle_lt_dec (s / INR (length idx)) 1) as [h|h]; [exact h|].
    assert (Hh : sqrt 1 < sqrt (s / INR (length idx))) by (apply sqrt_lt_1_alt; lra). rewrite sqrt_1 in Hh. lra.
  - rewrite <- sqrt_1. apply sqrt_le_1_alt. exact H.
Qed.

Lemma ros_clamp_R f : 1 / 6 <= @ros_clamp NN f <= 5.
Proof.
  unfold ros_clamp. rewrite nmin_R, nmax_R. change (@ndiv NN (nofZ 1) (nofZ 6)) with (1 / 6).
  change (@nofZ NN 5) with 5. split; [apply Rmax_l|]. apply Rmax_lub; [lra|apply Rmin_l].
Qed.
Lemma ros_clamp_big f : 1 / (9 / 10) < f -> 10 / 9 < @ros_clamp NN f.
Proof.
  intro H. unfold ros_clamp. rewrite nmin_R, nmax_R. change (@ndiv NN (nofZ 1) (nofZ 6)) with (1 / 6).
  change (@nofZ NN 5) with 5. eapply Rlt_le_trans; [|apply Rmax_r]. apply Rmin_glb_lt; lra.
Qed.
Lemma Rpower_gt1 x y : 1 < x -> 0 < y -> 1 < Rpower x y.
Proof.
  intros Hx Hy. unfold Rpower. rewrite <- exp_0. apply exp_increasing.
  apply Rmult_lt_0_compat; [exact Hy|]. rewrite <- ln_1. apply ln_increasing; lra.
Qed.

(** Dividing a step by a factor in [lo,hi]. *)
Lemma div_step dt f : dt <> 0 -> 0 < f ->
  dir (dt / f) = dir dt /\ Rabs (dt / f) = Rabs dt / f.
Proof.
  intros Hd Hf. split.
  - apply dir_mult. now apply Rinv_0_lt_compat.
  - unfold Rdiv. rewrite Rabs_mult, (Rabs_right (/ f)); [reflexivity|].
    apply Rle_ge, Rlt_le. now apply Rinv_0_lt_compat.
Qed.
Lemma div_le a f b : 0 < a -> 0 < b <= f -> a / f <= a / b.
Proof.
  intros Ha [Hb Hf]. unfold Rdiv. apply Rmult_le_compat_l; [lra|]. apply Rinv_le_contravar; lra.
Qed.
Lemma div_lt a f b : 0 < a -> 0 < b < f -> a / f < a / b.
Proof.
  intros Ha [Hb Hf]. unfold Rdiv. apply Rmult_lt_compat_l; [lra|]. apply Rinv_lt_contravar; [nra|lra].
Qed.
Lemma abs_lim dt m : 0 < dir dt * m -> Rabs m = dir dt * m.
Proof. intro H. rewrite <- (dir_same dt m H). symmetry. apply dir_abs. Qed.

Theorem ros_dt : forall c x t dt c' x' t' dt' ok, dt <> 0 -> 0 <= eps -> agrees dt max_dt ->
  try c x t dt = (c', x', t', dt', ok) ->
  0 < dir dt * dt'
  /\ (ok = false -> Rabs dt' < Rabs dt)
  /\ (ok = false -> max_dt = 0 -> 1 / 5 * Rabs dt <= Rabs dt' < 9 / 10 * Rabs dt)
  /\ (ok = true -> Rabs dt' <= 6 * Rabs dt)
  /\ (ok = true -> max_dt = 0 -> 1 / 5 * Rabs dt <= Rabs dt')
  /\ (ok = true -> rc_rejected c = true -> Rabs dt' <= Rabs dt)
  /\ (max_dt <> 0 -> Rabs dt' <= Rabs max_dt + eps /\ (ok = true -> Rabs dt <= Rabs max_dt + eps)).
Proof.
  intros c x t dt c' x' t' dt' ok Hd Hp Ha. unfold rosc_try, rosc_core.
  assert (P : 0 < Rabs dt) by now apply Rabs_pos_lt.
  destruct (@nneq NN max_dt (nofZ 0) && less_with_sign (N := NN) max_dt dt dt)%bool eqn:EL.
  { apply andb_prop in EL. destruct EL as [E1 E2]. apply nneq_R in E1. apply less_R in E2.
    intro H; inversion H; subst. destruct Ha as [Ha|Ha]; [contradiction|].
    pose proof (abs_lim dt _ Ha) as A. rewrite Rmult_minus_distr_l, dir_abs in E2.
    change (IZR 0) with 0 in *. cbn [nofZ RNum] in E1.
    split; [exact Ha|]. split; [intros _; lra|]. split; [intros _ Z; contradiction|].
    split; [discriminate|]. split; [discriminate|]. split; [discriminate|].
    intros _. split; [lra|discriminate]. }
  assert (Lim : max_dt <> 0 -> Rabs dt <= Rabs max_dt + eps).
  { intro Z. apply andb_false_iff in EL. destruct EL as [E1|E2].
    - apply nneq_R_false in E1. contradiction.
    - apply less_R_false in E2. destruct Ha as [Ha|Ha]; [contradiction|].
      pose proof (abs_lim dt _ Ha) as A. rewrite Rmult_minus_distr_l, dir_abs in E2. lra. }
  destruct (rstep (rc_st c) x t dt) as [[st1 xout1] xerr1].
  pose proof (ros_error_nonneg xout1 x xerr1) as Pe.
  set (err := ros_error (N := NN) idx sqrt atol rtol xout1 x xerr1) in *. clearbody err. change R in err.
  cbv zeta.
  set (fac := @ros_clamp NN (@ndiv NN (rpow err (@ndiv NN (nofZ 1) (nofZ 4))) (@ndiv NN (nofZ 9) (nofZ 10)))).
  assert (F : 1 / 6 <= fac <= 5) by apply ros_clamp_R.
  change (@nle NN err (nofZ 1)) with (Rleb err 1).
  destruct (Rleb err 1) eqn:EE.
  - (* accepted *)
    apply Rleb_true in EE.
    set (fac1 := if rc_first c then fac else
           @nmax NN fac (@ros_clamp NN _)).
    assert (F1 : 1 / 6 <= fac1 <= 5).
    { unfold fac1. destruct (rc_first c); [exact F|]. rewrite nmax_R.
      match goal with |- context [Rmax fac (@ros_clamp NN ?g)] => pose proof (ros_clamp_R g) as G end.
      split; [eapply Rle_trans; [apply F|apply Rmax_l]|apply Rmax_lub; [apply F|apply G]]. }
    clearbody fac1. change R in fac1.
    destruct (div_step dt fac1 Hd ltac:(lra)) as [D1 D2].
    assert (D3 : 1 / 5 * Rabs dt <= Rabs (dt / fac1) <= 6 * Rabs dt).
    { rewrite D2. split.
      - replace (1 / 5 * Rabs dt) with (Rabs dt / 5) by field. apply div_le; lra.
      - replace (6 * Rabs dt) with (Rabs dt / (1 / 6)) by field. apply div_le; lra. }
    change (@ndiv NN dt fac1) with (dt / fac1).
    set (dn := dt / fac1) in *. clearbody dn. change R in dn.
    set (d1 := if rc_rejected c then
                 (if @nle NN (nofZ 0) dt then @nmin NN dn dt else @nmax NN dn dt) else dn).
    assert (Q : dir d1 = dir dt /\ 1 / 5 * Rabs dt <= Rabs d1 <= 6 * Rabs dt
                /\ (rc_rejected c = true -> Rabs d1 <= Rabs dt)).
    { unfold d1. destruct (rc_rejected c); [|split; [exact D1|]; split; [exact D3|discriminate]].
      change (@nle NN (nofZ 0) dt) with (Rleb 0 dt). rewrite nmin_R, nmax_R.
      pose proof (dir_abs dn) as E1. pose proof (dir_abs dt) as E2. rewrite D1 in E1.
      destruct (Rleb 0 dt) eqn:E0.
      - apply Rleb_true in E0. destruct (dir_cases dt) as [[H1 H2]|[H1 H2]]; [|lra].
        rewrite H2 in *. unfold Rmin. destruct (Rle_dec dn dt).
        + split; [congruence|]. split; [exact D3|]. intros _. lra.
        + split; [congruence|]. split; [lra|]. intros _. lra.
      - apply Rleb_false in E0. destruct (dir_cases dt) as [[H1 H2]|[H1 H2]]; [lra|].
        rewrite H2 in *. unfold Rmax. destruct (Rle_dec dn dt).
        + split; [congruence|]. split; [lra|]. intros _. lra.
        + split; [congruence|]. split; [exact D3|]. intros _. lra. }
    clearbody d1. change R in d1. destruct Q as (Q1 & Q2 & Q3).
    intro H; inversion H; subst. clear H.
    change (@nofZ NN 0) with 0 in *. cbn [nofZ RNum].
    destruct (@nneq NN max_dt 0) eqn:E0.
    + apply nneq_R in E0.  destruct Ha as [Ha|Ha]; [contradiction|].
      assert (M0 : 0 < Rabs max_dt) by now apply Rabs_pos_lt.
      assert (Dm : dir max_dt = dir dt) by now apply dir_same.
      assert (B : 0 < dir max_dt * d1).
      { rewrite Dm, <- Q1, dir_abs. lra. }
      pose proof (min_abs_dir eps max_dt d1 E0 B) as A.
      set (m := @min_abs NN max_dt d1) in *. clearbody m. change R in m. rewrite Dm in A.
      assert (Pm : 0 < Rmin (Rabs max_dt) (Rabs d1)) by (apply Rmin_glb_lt; lra).
      assert (Am : Rabs m = Rmin (Rabs max_dt) (Rabs d1)).
      { rewrite <- A. apply abs_lim. lra. }
      pose proof (Rmin_l (Rabs max_dt) (Rabs d1)). pose proof (Rmin_r (Rabs max_dt) (Rabs d1)).
      split; [lra|]. split; [discriminate|]. split; [discriminate|]. split; [intros _; lra|].
      split; [intros _ Z; contradiction|]. split; [intros _ Z; specialize (Q3 Z); lra|].
      intros Z. split; [lra|intros _; now apply Lim].
    + apply nneq_R_false in E0. 
      split; [rewrite <- Q1, dir_abs; lra|]. split; [discriminate|]. split; [discriminate|].
      split; [intros _; lra|]. split; [intros _ _; lra|]. split; [intros _; exact Q3|].
      intro Z; contradiction.
  - (* rejected *)
    apply Rleb_false in EE. intro H; inversion H; subst. clear H.
    assert (F2 : 10 / 9 < fac).
    { apply ros_clamp_big. change (@ndiv NN (rpow err (@ndiv NN (nofZ 1) (nofZ 4))) (@ndiv NN (nofZ 9) (nofZ 10)))
        with (rpow err (1 / 4) / (9 / 10)). rewrite rpow_pos by lra.
      pose proof (Rpower_gt1 err (1 / 4) EE ltac:(lra)). unfold Rdiv.
      apply Rmult_lt_compat_r; [apply Rinv_0_lt_compat; lra|]. lra. }
    clearbody fac. change R in fac. change (@ndiv NN dt fac) with (dt / fac).
    destruct (div_step dt fac Hd ltac:(lra)) as [D1 D2].
    assert (D3 : 1 / 5 * Rabs dt <= Rabs (dt / fac) < 9 / 10 * Rabs dt).
    { rewrite D2. split.
      - replace (1 / 5 * Rabs dt) with (Rabs dt / 5) by field. apply div_le; lra.
      - replace (9 / 10 * Rabs dt) with (Rabs dt / (10 / 9)) by field. apply div_lt; lra. }
    set (dn := dt / fac) in *. clearbody dn. change R in dn.
    split; [rewrite <- D1, dir_abs; lra|]. split; [intros _; lra|]. split; [intros _ _; lra|].
    split; [discriminate|]. split; [discriminate|]. split; [discriminate|].
    intro Z. specialize (Lim Z). split; [lra|discriminate].
Qed.
End R.

Theorem ros_contract : forall eps I S (idx : list I)
    (rstep : S -> (I -> R) -> R -> R -> S * (I -> R) * (I -> R)) atol rtol, 0 <= eps ->
  try_contract (rosc_try (N := RNum eps) idx rpow sqrt rstep atol rtol 0%R).
Proof.
  intros eps I S idx rstep atol rtol Hp s x t dt Hd.
  destruct (rosc_try (N := RNum eps) idx rpow sqrt rstep atol rtol 0%R s x t dt) as [[[[c' x'] t'] dt'] ok] eqn:E.
  destruct (ros_dt eps idx rstep atol rtol 0 s x t dt c' x' t' dt' ok Hd Hp (or_introl eq_refl) E) as (A & B & _).
  pose proof (ros_effect (N := RNum eps) idx rpow sqrt rstep atol rtol _ s x t dt c' x' t' dt' ok E) as Ef.
  destruct ok.
  - destruct Ef as [Ef _]. split; [exact Ef|exact A].
  - destruct Ef as (E1 & E2 & _). split; [exact E1|]. split; [exact E2|]. split; [exact A|].
    specialize (B eq_refl). pose proof (dir_same dt dt' A) as H. rewrite <- H. rewrite dir_abs. lra.
Qed.

(** ** binary64: an error estimate that is not a number. *)
Lemma nan_add_l a : @nadd F64 S754_nan a = S754_nan. Proof. now destruct a. Qed.
Lemma nan_add_r a : @nadd F64 a S754_nan = S754_nan. Proof. now destruct a. Qed.
Lemma nan_mul_l a : @nmul F64 S754_nan a = S754_nan. Proof. now destruct a. Qed.
Lemma nan_div_l a : @ndiv F64 S754_nan a = S754_nan. Proof. now destruct a. Qed.
Lemma nan_lt_l a : @nlt F64 S754_nan a = false. Proof. now destruct a. Qed.
Lemma nan_lt_r a : @nlt F64 a S754_nan = false. Proof. now destruct a as [[]|[]| |[] ? ?]. Qed.
Lemma nan_le_l a : @nle F64 S754_nan a = false. Proof. now destruct a. Qed.

Section Nan.
Context {I S : Type}.
Variable idx : list I.
Variable pw : F64 -> F64 -> F64.
Variable sq : F64 -> F64.
Hypothesis pw_nan : forall y, pw S754_nan y = S754_nan.
Hypothesis sq_nan : sq S754_nan = S754_nan.
Variable rstep : S -> vec F64 I -> F64 -> F64 -> S * vec F64 I * vec F64 I.
Variable atol rtol : F64.

Lemma ros_fold_nan : forall (g : I -> F64) l a,
  a = S754_nan \/ (exists i, In i l /\ g i = S754_nan) ->
  fold_left (fun err i => @nadd F64 err (g i)) l a = S754_nan.
Proof.
  intros g. induction l as [|i l IH]; intros a [->|[j [Hj E]]]; cbn [fold_left].
  - reflexivity.
  - destruct Hj.
  - apply IH. left. apply nan_add_l.
  - apply IH. destruct Hj as [->|Hj].
    + left. rewrite E. apply nan_add_r.
    + right. exists j. auto.
Qed.

Theorem ros_nan : forall c x t dt c' x' t' dt' ok,
  (exists i, In i idx /\ snd (rstep (rc_st c) x t dt) i = S754_nan) ->
  rosc_try idx pw sq rstep atol rtol (@nofZ F64 0) c x t dt = (c', x', t', dt', ok) ->
  ok = false /\ x' = x /\ t' = t /\ dt' = (dt / nofZ 5)%num.
Proof.
  intros c x t dt c' x' t' dt' ok Hn. unfold rosc_try, rosc_core.
  change (nneq (@nofZ F64 0) (nofZ 0)) with false. cbn [andb].
  destruct (rstep (rc_st c) x t dt) as [[st1 xout1] xerr1]. cbn [snd] in Hn.
  assert (E : ros_error idx sq atol rtol xout1 x xerr1 = S754_nan).
  { unfold ros_error. rewrite ros_fold_nan.
    - rewrite nan_div_l. exact sq_nan.
    - right. destruct Hn as (i & Hi & Ei). exists i. split; [exact Hi|].
      rewrite Ei. rewrite nan_mul_l, !nan_div_l. reflexivity. }
  rewrite E. rewrite nan_le_l. rewrite pw_nan, nan_div_l.
  replace (@ros_clamp F64 S754_nan) with (@nofZ F64 5) by (vm_compute; reflexivity).
  intro H; inversion H; subst; auto.
Qed.
End Nan.

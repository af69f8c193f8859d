(** Stability and convergence of explicit Runge-Kutta methods over the reals. *)
From Coq Require Import List Arith ZArith Reals Lia Lra.
From Verif Require Import M_Num M_RK S_RK S_Real S_Integrate S_Conv P_R.
Import ListNotations.
Local Open Scope R_scope.

Lemma some_inj {A} (a b : A) : Some a = Some b -> a = b.
Proof. now injection 1. Qed.

(** ** Weighted sums. *)
Lemma wsum_nil_r {I} row (i : I) : wsum row [] i = 0.
Proof. destruct row; reflexivity. Qed.

Lemma wsum_cons {I} a row (k : I -> R) ks i : wsum (a :: row) (k :: ks) i = a * k i + wsum row ks i.
Proof. reflexivity. Qed.

Lemma rabs_sum_nonneg l : 0 <= rsum (map Rabs l).
Proof. induction l as [|a l IH]; cbn; [lra|]. pose proof (Rabs_pos a). unfold rsum in IH. lra. Qed.

Lemma wsum_diff {I} (E : R) : 0 <= E -> forall row (ks zs : list (I -> R)) i,
  (forall j k z, nth_error ks j = Some k -> nth_error zs j = Some z -> Rabs (k i - z i) <= E) -> length ks = length zs ->
  Rabs (wsum row ks i - wsum row zs i) <= rsum (map Rabs row) * E.
Proof.
  intros HE. induction row as [|a row IH]; intros ks zs i H Hl.
  - unfold wsum. cbn. rewrite Rminus_0_r, Rabs_R0. lra.
  - destruct ks as [|k ks], zs as [|z zs]; try discriminate Hl.
    + rewrite !wsum_nil_r, Rminus_0_r, Rabs_R0. apply Rmult_le_pos; [apply rabs_sum_nonneg|exact HE].
    + rewrite !wsum_cons. cbn [map rsum fold_right].
      replace (a * k i + wsum row ks i - (a * z i + wsum row zs i))
        with (a * (k i - z i) + (wsum row ks i - wsum row zs i)) by ring.
      eapply Rle_trans; [apply Rabs_triang|]. rewrite Rmult_plus_distr_r, Rabs_mult.
      apply Rplus_le_compat.
      * apply Rmult_le_compat_l; [apply Rabs_pos|]. exact (H 0%nat k z eq_refl eq_refl).
      * apply IH; [|now injection Hl]. intros j k' z' H1 H2. exact (H (Datatypes.S j) k' z' H1 H2).
Qed.

Lemma wsum_const {I} (v : I -> R) i : forall row n, length row = n -> wsum row (repeat v n) i = rsum row * v i.
Proof.
  induction row as [|a row IH]; intros n <-; cbn [length repeat].
  - unfold wsum. cbn. lra.
  - rewrite wsum_cons, (IH _ eq_refl). cbn [rsum fold_right]. unfold rsum. ring.
Qed.

Lemma row_size_le (rows : list (list R)) row : In row rows ->
  rsum (map Rabs row) <= rsum (map (fun r => rsum (map Rabs r)) rows).
Proof.
  induction rows as [|r rows IH]; [intros []|]. intros [->|H]; cbn [map rsum fold_right].
  - assert (0 <= rsum (map (fun r => rsum (map Rabs r)) rows)); [|unfold rsum in *; lra].
    clear. induction rows as [|r rows IH]; cbn; [lra|]. pose proof (rabs_sum_nonneg r). unfold rsum in *. lra.
  - pose proof (rabs_sum_nonneg r). specialize (IH H). unfold rsum in *. lra.
Qed.

Lemma stage_size_nonneg {eps} (tb : tableau (RNum eps)) : 0 <= stage_size tb.
Proof.
  unfold stage_size. generalize (tab_a tb) as rows. induction rows as [|r rows IH]; cbn; [lra|].
  pose proof (rabs_sum_nonneg r). unfold rsum in *. lra.
Qed.

(** ** Differences of stages grow geometrically. *)
Lemma stages_grow {I} (ks zs : list (I -> R)) G q : 0 <= G -> 0 <= q -> length ks = length zs ->
  (forall i k z, nth_error ks 0 = Some k -> nth_error zs 0 = Some z -> Rabs (k i - z i) <= G) ->
  (forall s E, 0 <= E -> (Datatypes.S s < length ks)%nat ->
     (forall j k z, (j <= s)%nat -> nth_error ks j = Some k -> nth_error zs j = Some z -> forall i, Rabs (k i - z i) <= E) ->
     forall k z, nth_error ks (Datatypes.S s) = Some k -> nth_error zs (Datatypes.S s) = Some z ->
     forall i, Rabs (k i - z i) <= G + q * E) ->
  forall s, (s < length ks)%nat ->
  forall j k z, (j <= s)%nat -> nth_error ks j = Some k -> nth_error zs j = Some z -> forall i, Rabs (k i - z i) <= G * (1 + q) ^ s.
Proof.
  intros HG Hq Hl H0 HS. induction s as [|s IH]; intros Hs j k z Hj Hk Hz i.
  - assert (j = 0)%nat by lia. subst j. rewrite pow_O, Rmult_1_r. exact (H0 i k z Hk Hz).
  - assert (P : 1 <= (1 + q) ^ s) by (apply pow_R1_Rle; lra).
    assert (B : 0 <= G * (1 + q) ^ s) by (apply Rmult_le_pos; lra).
    cbn [pow]. destruct (Nat.eq_dec j (Datatypes.S s)) as [->|Hne].
    + apply Rle_trans with (G + q * (G * (1 + q) ^ s)).
      * apply (HS s (G * (1 + q) ^ s) B Hs); auto. apply IH. lia.
      * replace (G * ((1 + q) * (1 + q) ^ s)) with (G * (1 + q) ^ s + q * (G * (1 + q) ^ s)) by ring.
        apply Rplus_le_compat_r. nra.
    + apply Rle_trans with (G * (1 + q) ^ s); [apply (IH ltac:(lia) j k z); auto; lia|].
      replace (G * ((1 + q) * (1 + q) ^ s)) with (G * (1 + q) ^ s + q * (G * (1 + q) ^ s)) by ring. nra.
Qed.

Section M.
Variable eps : R.
Notation NN := (RNum eps).
Context {I : Type}.
Variable tb : tableau NN.
Hypothesis Hwf : wf_tableau tb.
Hypothesis Hunit : forall c : R, In c (tab_c tb) -> 0 <= c <= 1.
(** Row sums and consistency. *)
Hypothesis Hrow : forall s row c, nth_error (tab_a tb) s = Some row -> nth_error (tab_c tb) (Datatypes.S s) = Some c ->
  rsum row = c.
Hypothesis Hb1 : rsum (tab_b tb) = 1.
Variable T : R -> Prop.
Hypothesis Tconv : forall s u c, T s -> T u -> 0 <= c <= 1 -> T (s + c * (u - s)).
Variable f : (I -> R) -> R -> (I -> R).
Variables L H : R.
Hypothesis HL0 : 0 <= L.
Hypothesis HH0 : 0 <= H.
Hypothesis HL : lipschitz T L f.
Notation q := (H * L * stage_size tb).
Notation pw := ((1 + q) ^ length (tab_a tb)).

Lemma q_nonneg : 0 <= q.
Proof. pose proof (stage_size_nonneg tb). apply Rmult_le_pos; [nra|assumption]. Qed.

Lemma stage_time t h c : T t -> T (t + h) -> 0 <= c <= 1 -> T (t + c * h).
Proof. intros H1 H2 Hc. replace (t + c * h) with (t + c * ((t + h) - t)) by ring. now apply Tconv. Qed.

Lemma row_of s : (s < length (tab_a tb))%nat -> exists (row : list R) (c : R), nth_error (tab_a tb) s = Some row
  /\ nth_error (tab_c tb) (Datatypes.S s) = Some c /\ 0 <= c <= 1 /\ length row = Datatypes.S s
  /\ rsum row = c /\ rsum (map Rabs row) <= stage_size tb.
Proof.
  intro Hs. destruct Hwf as [Wc Wb Wr].
  destruct (nth_error (tab_a tb) s) as [row|] eqn:E1.
  2:{ apply nth_error_None in E1. lia. }
  destruct (nth_error (tab_c tb) (Datatypes.S s)) as [c|] eqn:E2.
  2:{ apply nth_error_None in E2. lia. }
  exists row, c. split; [reflexivity|]. split; [reflexivity|]. split; [apply Hunit; eapply nth_error_In; eauto|].
  split; [now apply Wr|]. split; [eapply Hrow; eauto|]. apply row_size_le. eapply nth_error_In; eauto.
Qed.

Lemma nth_firstn {A} (l : list A) n j a : nth_error (firstn n l) j = Some a -> nth_error l j = Some a /\ (j < n)%nat.
Proof.
  revert l j. induction n as [|n IH]; intros l j; [destruct j; discriminate|].
  destruct l as [|b l]; [destruct j; discriminate|]. destruct j as [|j]; cbn; [intro E; split; [exact E|lia]|].
  intro E. destruct (IH _ _ E). split; [assumption|lia].
Qed.

(** ** Two runs from different states. *)
Lemma stages_stable x y t h D ks ls : 0 <= D -> T t -> T (t + h) -> Rabs h <= H ->
  (forall j, Rabs (x j - y j) <= D) ->
  rk_stages_R eps tb f x t h ks -> rk_stages_R eps tb f y t h ls ->
  forall j k l, nth_error ks j = Some k -> nth_error ls j = Some l -> forall i, Rabs (k i - l i) <= L * D * pw.
Proof.
  intros HD Ht Hth Hh Hxy [K1 K2 K3] [L1 L2 L3] j k l Hk Hl i.
  assert (Hj : (j < length ks)%nat) by (apply nth_error_Some; congruence).
  pose proof q_nonneg as Hq.
  apply (stages_grow ks ls (L * D) q) with (s := length (tab_a tb)) (j := j); auto.
  - now apply Rmult_le_pos.
  - congruence.
  - intros i0 k0 l0 E1 E2. rewrite K2 in E1. rewrite L2 in E2. injection E1 as <-. injection E2 as <-.
    now apply HL.
  - intros s E HE Hs HP k0 l0 E1 E2 i0.
    destruct (row_of s ltac:(lia)) as (row & c & R1 & R2 & R3 & R4 & _ & R6).
    rewrite (K3 s row c R1 R2) in E1. rewrite (L3 s row c R1 R2) in E2. apply some_inj in E1. apply some_inj in E2. subst k0 l0.
    replace (L * D + q * E) with (L * (D + H * (stage_size tb * E))) by ring.
    apply HL; [now apply stage_time|]. intro m. cbv beta.
    replace (x m + h * wsum row (firstn (Datatypes.S s) ks) m - (y m + h * wsum row (firstn (Datatypes.S s) ls) m))
      with ((x m - y m) + h * (wsum row (firstn (Datatypes.S s) ks) m - wsum row (firstn (Datatypes.S s) ls) m)) by ring.
    eapply Rle_trans; [apply Rabs_triang|]. apply Rplus_le_compat; [apply Hxy|]. rewrite Rabs_mult.
    apply Rmult_le_compat; [apply Rabs_pos|apply Rabs_pos|exact Hh|].
    apply Rle_trans with (rsum (map Rabs row) * E).
    + apply wsum_diff; [exact HE| |].
      * intros j0 k0 z0 F1 F2. apply nth_firstn in F1. apply nth_firstn in F2. apply (HP j0 k0 z0); [destruct F1; lia|exact (proj1 F1)|exact (proj1 F2)].
      * rewrite !firstn_length. congruence.
    + now apply Rmult_le_compat_r.
  - lia.
  - lia.
Qed.

Theorem rk_stable x y t h D x' y' : 0 <= D -> T t -> T (t + h) -> Rabs h <= H ->
  (forall j, Rabs (x j - y j) <= D) -> rk_result eps tb f x t h x' -> rk_result eps tb f y t h y' ->
  forall i, Rabs (x' i - y' i) <= (1 + Rabs h * growth tb L H) * D.
Proof.
  intros HD Ht Hth Hh Hxy (ks & Sk & Ek) (ls & Sl & El) i. rewrite Ek, El.
  replace (x i + h * wsum (tab_b tb) ks i - (y i + h * wsum (tab_b tb) ls i))
    with ((x i - y i) + h * (wsum (tab_b tb) ks i - wsum (tab_b tb) ls i)) by ring.
  eapply Rle_trans; [apply Rabs_triang|]. rewrite Rabs_mult, Rmult_plus_distr_r, Rmult_1_l.
  apply Rplus_le_compat; [apply Hxy|]. rewrite Rmult_assoc. apply Rmult_le_compat_l; [apply Rabs_pos|].
  unfold growth, weight_size.
  replace (rsum (map Rabs (tab_b tb)) * L * pw * D) with (rsum (map Rabs (tab_b tb)) * (L * D * pw)) by ring.
  pose proof q_nonneg as Hq. assert (0 <= pw) by (apply pow_le; lra).
  apply wsum_diff.
  - apply Rmult_le_pos; [nra|assumption].
  - intros j k l F1 F2. exact (stages_stable x y t h D ks ls HD Ht Hth Hh Hxy Sk Sl j k l F1 F2 i).
  - destruct Sk as [-> _ _], Sl as [-> _ _]. reflexivity.
Qed.

(** ** The exact solution. *)
Variable y : R -> I -> R.
Variable K : R.
Hypothesis HK0 : 0 <= K.
Hypothesis Hsol : solution T f y.
Hypothesis Hsm : smooth T K f y.

Lemma taylor1 t d i : T t -> T (t + d) -> Rabs (y (t + d) i - y t i - d * f (y t) t i) <= K * (d * d).
Proof.
  intros H1 H2.
  assert (G : exists xi, T xi /\ Rabs (xi - t) <= Rabs d /\ y (t + d) i - y t i = d * f (y xi) xi i).
  { destruct (Rtotal_order d 0) as [Hd|[->|Hd]].
    - destruct (MVT_cor2 (fun s => y s i) (fun s => f (y s) s i) (t + d) t ltac:(lra)) as (xi & E & Hx).
      + intros s Hs. apply Hsol. replace s with (t + ((s - t) / d) * (t + d - t)) by (field; lra).
        apply Tconv; auto. split; [apply Rmult_le_reg_r with (- d)|apply Rmult_le_reg_r with (- d)]; try lra;
        replace ((s - t) / d * - d) with (t - s) by (field; lra); lra.
      + exists xi. split.
        * replace xi with (t + ((xi - t) / d) * (t + d - t)) by (field; lra).
          apply Tconv; auto. split; [apply Rmult_le_reg_r with (- d)|apply Rmult_le_reg_r with (- d)]; try lra;
          replace ((xi - t) / d * - d) with (t - xi) by (field; lra); lra.
        * split; [rewrite !Rabs_left1; lra|]. lra.
    - exists t. split; [exact H1|]. rewrite Rplus_0_r, !Rminus_diag_eq by reflexivity. split; [lra|ring].
    - destruct (MVT_cor2 (fun s => y s i) (fun s => f (y s) s i) t (t + d) ltac:(lra)) as (xi & E & Hx).
      + intros s Hs. apply Hsol. replace s with (t + ((s - t) / d) * (t + d - t)) by (field; lra).
        apply Tconv; auto. split; [apply Rmult_le_reg_r with d|apply Rmult_le_reg_r with d]; try lra;
        replace ((s - t) / d * d) with (s - t) by (field; lra); lra.
      + exists xi. split.
        * replace xi with (t + ((xi - t) / d) * (t + d - t)) by (field; lra).
          apply Tconv; auto. split; [apply Rmult_le_reg_r with d|apply Rmult_le_reg_r with d]; try lra;
          replace ((xi - t) / d * d) with (xi - t) by (field; lra); lra.
        * split; [rewrite !Rabs_right; lra|]. lra. }
  destruct G as (xi & Tx & Hx & E). rewrite E.
  replace (d * f (y xi) xi i - d * f (y t) t i) with (d * (f (y xi) xi i - f (y t) t i)) by ring.
  rewrite Rabs_mult. replace (K * (d * d)) with (Rabs d * (K * Rabs d)).
  2:{ replace (Rabs d * (K * Rabs d)) with (K * (Rabs d * Rabs d)) by ring. rewrite <- Rabs_mult, Rabs_right; [ring|].
      pose proof (Rle_0_sqr d) as Q. unfold Rsqr in Q. lra. }
  apply Rmult_le_compat_l; [apply Rabs_pos|].
  eapply Rle_trans; [apply Hsm; assumption|]. now apply Rmult_le_compat_l.
Qed.

Lemma abs_sq d : d * d = Rabs d * Rabs d.
Proof. rewrite <- Rabs_mult, Rabs_right; [ring|]. pose proof (Rle_0_sqr d) as Q. unfold Rsqr in Q. lra. Qed.

Lemma stages_near x t h D ks : 0 <= D -> T t -> T (t + h) -> Rabs h <= H ->
  (forall j, Rabs (x j - y t j) <= D) -> rk_stages_R eps tb f x t h ks ->
  forall j k, nth_error ks j = Some k -> forall i,
  Rabs (k i - f (y t) t i) <= (L * D + Rabs h * (K * (1 + L * H))) * pw.
Proof.
  intros HD Ht Hth Hh Hxy [K1 K2 K3] j k Hk i.
  assert (Hj : (j < length ks)%nat) by (apply nth_error_Some; congruence).
  pose proof q_nonneg as Hq. pose proof (Rabs_pos h) as Ph.
  set (z := f (y t) t). set (G := L * D + Rabs h * (K * (1 + L * H))).
  assert (Hn : 0 <= 1 + L * H) by nra.
  assert (Pk : 0 <= Rabs h * (K * (1 + L * H))) by (apply Rmult_le_pos; [assumption|now apply Rmult_le_pos]).
  assert (PG : 0 <= G) by (unfold G; nra).
  assert (Hr : forall a zz, nth_error (repeat z (length ks)) a = Some zz -> zz = z).
  { intros a zz E. apply nth_error_In in E. now apply repeat_spec in E. }
  assert (He : nth_error (repeat z (length ks)) j = Some z).
  { destruct (nth_error (repeat z (length ks)) j) as [zz|] eqn:E; [now rewrite (Hr _ _ E)|].
    apply nth_error_None in E. rewrite repeat_length in E. lia. }
  apply (stages_grow ks (repeat z (length ks)) G q) with (s := length (tab_a tb)) (j := j) (z := z); auto.
  - now rewrite repeat_length.
  - intros i0 k0 z0 E1 E2. rewrite (Hr _ _ E2). rewrite K2 in E1. injection E1 as <-.
    apply Rle_trans with (L * D); [now apply HL|unfold G; lra].
  - intros s E HE Hs HP k0 z0 E1 E2 i0. rewrite (Hr _ _ E2).
    destruct (row_of s ltac:(lia)) as (row & c & R1 & R2 & R3 & R4 & R5 & R6).
    rewrite (K3 s row c R1 R2) in E1. apply some_inj in E1. subst k0.
    pose proof (stage_time t h c Ht Hth R3) as Tc.
    assert (Ac : Rabs (c * h) <= Rabs h) by (rewrite Rabs_mult, Rabs_right by lra; nra).
    set (u := fun m => x m + h * wsum row (firstn (Datatypes.S s) ks) m).
    replace (f u (t + c * h) i0 - z i0)
      with ((f u (t + c * h) i0 - f (y (t + c * h)) (t + c * h) i0) + (f (y (t + c * h)) (t + c * h) i0 - f (y t) t i0))
      by (unfold z; ring).
    eapply Rle_trans; [apply Rabs_triang|].
    assert (B1 : Rabs (f (y (t + c * h)) (t + c * h) i0 - f (y t) t i0) <= K * Rabs h).
    { eapply Rle_trans; [apply Hsm; assumption|]. replace (t + c * h - t) with (c * h) by ring. now apply Rmult_le_compat_l. }
    assert (B2 : Rabs (f u (t + c * h) i0 - f (y (t + c * h)) (t + c * h) i0) <= L * (D + H * (stage_size tb * E) + K * (Rabs h * H))).
    { apply HL; [exact Tc|]. intro m. unfold u.
      replace (x m + h * wsum row (firstn (Datatypes.S s) ks) m - y (t + c * h) m)
        with ((x m - y t m) + h * (wsum row (firstn (Datatypes.S s) ks) m - wsum row (repeat z (Datatypes.S s)) m)
              + - (y (t + c * h) m - y t m - (c * h) * f (y t) t m)).
      2:{ rewrite (wsum_const z m row _ R4), R5. unfold z. ring. }
      eapply Rle_trans; [apply Rabs_triang|]. apply Rplus_le_compat.
      - eapply Rle_trans; [apply Rabs_triang|]. apply Rplus_le_compat; [apply Hxy|]. rewrite Rabs_mult.
        apply Rmult_le_compat; [apply Rabs_pos|apply Rabs_pos|exact Hh|].
        apply Rle_trans with (rsum (map Rabs row) * E); [|now apply Rmult_le_compat_r].
        apply wsum_diff; [exact HE| |].
        + intros j0 k0 z1 F1 F2. apply nth_firstn in F1.
          assert (z1 = z) by (apply nth_error_In in F2; now apply repeat_spec in F2). subst z1.
          destruct F1 as [F1 F3]. assert (Lj : (j0 < length ks)%nat) by (apply nth_error_Some; congruence).
          apply (HP j0 k0 z); [lia|exact F1|].
          destruct (nth_error (repeat z (length ks)) j0) as [zz|] eqn:Ez; [now rewrite (Hr _ _ Ez)|].
          apply nth_error_None in Ez. rewrite repeat_length in Ez. lia.
        + rewrite firstn_length, repeat_length. lia.
      - rewrite Rabs_Ropp. eapply Rle_trans; [apply taylor1; assumption|].
        apply Rmult_le_compat_l; [exact HK0|]. rewrite abs_sq.
        apply Rmult_le_compat; [apply Rabs_pos|apply Rabs_pos|exact Ac|lra]. }
    unfold G. nra.
  - lia.
  - lia.
Qed.

Theorem rk_local x t h D x' : 0 <= D -> T t -> T (t + h) -> Rabs h <= H ->
  (forall j, Rabs (x j - y t j) <= D) -> rk_result eps tb f x t h x' ->
  forall i, Rabs (x' i - y (t + h) i) <= (1 + Rabs h * growth tb L H) * D + local_const tb L H K * (h * h).
Proof.
  intros HD Ht Hth Hh Hxy (ks & Sk & Ek) i. rewrite Ek. set (z := f (y t) t).
  destruct Hwf as [Wc Wb Wr].
  replace (x i + h * wsum (tab_b tb) ks i - y (t + h) i)
    with ((x i - y t i) + h * (wsum (tab_b tb) ks i - wsum (tab_b tb) (repeat z (Datatypes.S (length (tab_a tb)))) i)
          + - (y (t + h) i - y t i - h * f (y t) t i)).
  2:{ rewrite (wsum_const z i (tab_b tb) _ Wb). change (carrier NN) with R in *. rewrite Hb1. unfold z. ring. }
  pose proof q_nonneg as Hq. pose proof (Rabs_pos h) as Ph.
  assert (Ppw : 0 <= pw) by (apply pow_le; lra).
  assert (Hn : 0 <= 1 + L * H) by nra.
  set (E := (L * D + Rabs h * (K * (1 + L * H))) * pw).
  assert (PE : 0 <= E).
  { unfold E. apply Rmult_le_pos; [|exact Ppw]. apply Rplus_le_le_0_compat; [now apply Rmult_le_pos|].
    apply Rmult_le_pos; [assumption|now apply Rmult_le_pos]. }
  assert (B1 : Rabs (wsum (tab_b tb) ks i - wsum (tab_b tb) (repeat z (Datatypes.S (length (tab_a tb)))) i) <= weight_size tb * E).
  { unfold weight_size. apply wsum_diff; [exact PE| |].
    - intros j k zz F1 F2. assert (zz = z) by (apply nth_error_In in F2; now apply repeat_spec in F2). subst zz.
      exact (stages_near x t h D ks HD Ht Hth Hh Hxy Sk j k F1 i).
    - destruct Sk as [-> _ _]. now rewrite repeat_length. }
  eapply Rle_trans; [apply Rabs_triang|].
  apply Rle_trans with (D + Rabs h * (weight_size tb * E) + K * (h * h)).
  - apply Rplus_le_compat.
    + eapply Rle_trans; [apply Rabs_triang|]. apply Rplus_le_compat; [apply Hxy|]. rewrite Rabs_mult.
      now apply Rmult_le_compat_l.
    + rewrite Rabs_Ropp. now apply taylor1.
  - unfold E, growth, local_const. rewrite abs_sq. right. ring.
Qed.
End M.

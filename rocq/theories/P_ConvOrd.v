(** Convergence with the order of the method. *)
From Coq Require Import List Arith ZArith Reals Lia Lra FunctionalExtensionality.
From Verif Require Import M_Num M_Sign M_Run M_Plain M_Controlled S_Grid M_RK S_RK M_CtrlRK S_CtrlRK S_Real M_Integrate S_Integrate S_Conv
  P_Run P_R P_Plain P_PlainR P_PlainA P_RKNamed P_RKOrder P_RKAll P_CtrlTermRK P_Integrate P_Conv P_ConvRun.
Import ListNotations.
Local Open Scope R_scope.

Section G.
Variable eps : R.
Notation NN := (RNum eps).
Context {I : Type}.
Variable n : rk_name.
Notation tb := (tab_of (N := NN) n).
Variable sg : R.
Hypothesis Hsg : sg = 1 \/ sg = -1.
Variable T : R -> Prop.
Hypothesis Tconv : forall s u c, T s -> T u -> 0 <= c <= 1 -> T (s + c * (u - s)).
Variable f : (I -> R) -> R -> (I -> R).
Variables L H E : R.
Variable p : nat.
Hypothesis HL0 : 0 <= L.
Hypothesis HH0 : 0 <= H.
Hypothesis HE0 : 0 <= E.
Hypothesis HL : lipschitz T L f.
Variable y : R -> I -> R.
Hypothesis Hcon : consistent tb f y T H E p.
(** A step from the solution exists, whatever the system. *)
Lemma step_exists x t h : exists x', rk_result eps tb f x t h x'.
Proof. eexists. exact (do_step_result eps n f (fun _ _ => 0) x t h). Qed.

Lemma local_ord x t h D x' : 0 <= D -> T t -> T (t + h) -> Rabs h <= H ->
  (forall j, Rabs (x j - y t j) <= D) -> rk_result eps tb f x t h x' ->
  forall i, Rabs (x' i - y (t + h) i) <= (1 + Rabs h * growth tb L H) * D + E * Rabs h ^ Datatypes.S p.
Proof.
  intros HD Ht Hth Hh Hx Hr i. destruct (step_exists (y t) t h) as [z Hz].
  pose proof (rk_stable eps tb (wf_tab_of NN n) (tab_c_unit eps n) (tab_row_sum eps n) T Tconv f L H HL0 HH0 HL
    x (y t) t h D x' z HD Ht Hth Hh Hx Hr Hz i) as B1.
  pose proof (Hcon t h z Ht Hth Hh Hz i) as B2.
  replace (x' i - y (t + h) i) with ((x' i - z i) + (z i - y (t + h) i)) by ring.
  eapply Rle_trans; [apply Rabs_triang|]. lra.
Qed.

Theorem global_ord hm : 0 <= hm <= H -> forall l x t D, 0 <= D -> T t -> (forall j, Rabs (x j - y t j) <= D) ->
  linked (one_step eps n sg T f hm) ((x, t) :: l) ->
  forall x' t', In (x', t') ((x, t) :: l) ->
  0 <= sg * (t' - t) /\
  forall i, Rabs (x' i - y t' i)
     <= exp (growth tb L H * Rabs (t' - t)) * (D + E * hm ^ p * Rabs (t' - t)).
Proof.
  intros Hm. pose proof (growth_nonneg eps n L H HL0 HH0) as PG.
  set (Lam := growth tb L H) in *. set (C := E * hm ^ p) in *.
  assert (PC : 0 <= C) by (apply Rmult_le_pos; [exact HE0|apply pow_le; lra]).
  induction l as [|[x1 t1] l IH]; intros x t D HD Ht Hx Hl x' t' Hin.
  - destruct Hin as [Eq|[]]. injection Eq as -> ->. rewrite Rminus_diag_eq, Rabs_R0, !Rmult_0_r, exp_0 by reflexivity.
    split; [lra|]. intro i. specialize (Hx i). lra.
  - destruct Hin as [Eq|Hin].
    { injection Eq as -> ->. rewrite Rminus_diag_eq, Rabs_R0, !Rmult_0_r, exp_0 by reflexivity.
      split; [lra|]. intro i. specialize (Hx i). lra. }
    destruct Hl as [(HS & [P1 P2] & HT) Hl]. cbn [fst snd] in HS, P1, P2, HT.
    set (h := t1 - t) in *. assert (E1 : t1 = t + h) by (unfold h; ring).
    assert (Ah : Rabs h = sg * h) by (apply sg_abs; auto; lra).
    assert (HT2 : T (t + h)) by now rewrite <- E1.
    pose proof (local_ord x t h D x1 HD Ht HT2 ltac:(lra) Hx HS) as B.
    fold Lam in B. rewrite <- E1 in B.
    assert (Pb : 0 <= Rabs h) by apply Rabs_pos.
    assert (Z1 : E * Rabs h ^ Datatypes.S p <= C * Rabs h).
    { unfold C. cbn [pow]. replace (E * (Rabs h * Rabs h ^ p)) with (E * Rabs h ^ p * Rabs h) by ring.
      apply Rmult_le_compat_r; [exact Pb|]. apply Rmult_le_compat_l; [exact HE0|]. apply pow_incr. lra. }
    set (D1 := (1 + Rabs h * Lam) * D + C * Rabs h).
    assert (PLb : 0 <= Rabs h * Lam) by now apply Rmult_le_pos.
    assert (PCb : 0 <= C * Rabs h) by now apply Rmult_le_pos.
    assert (PD1 : 0 <= D1) by (unfold D1; nra).
    assert (B1 : forall j, Rabs (x1 j - y t1 j) <= D1) by (intro j; specialize (B j); unfold D1; lra).
    destruct (IH x1 t1 D1 PD1 HT B1 Hl x' t' Hin) as [P3 Q].
    assert (A1 : Rabs (t' - t1) = sg * (t' - t1)) by now apply sg_abs.
    assert (P4 : sg * (t' - t) = sg * (t' - t1) + sg * h) by (unfold h; ring).
    assert (A2 : Rabs (t' - t) = Rabs (t' - t1) + Rabs h) by (rewrite (sg_abs sg Hsg (t' - t)); lra).
    split; [lra|]. intro i. eapply Rle_trans; [apply Q|]. rewrite A2.
    set (a := Rabs (t' - t1)) in *. set (b := Rabs h) in *.
    assert (Pa : 0 <= a) by apply Rabs_pos.
    replace (Lam * (a + b)) with (Lam * a + Lam * b) by ring. rewrite exp_plus, (Rmult_assoc (exp (Lam * a)) (exp (Lam * b))).
    apply Rmult_le_compat_l; [apply Rlt_le, exp_pos|].
    assert (E2 : 1 + Lam * b <= exp (Lam * b)) by apply exp_ineq1_le.
    assert (Z2 : 0 <= C * (a + b)) by (apply Rmult_le_pos; lra).
    assert (Z4 : (1 + Lam * b) * D <= exp (Lam * b) * D) by (apply Rmult_le_compat_r; assumption).
    assert (Z5 : 1 * (C * (a + b)) <= exp (Lam * b) * (C * (a + b))) by (apply Rmult_le_compat_r; lra).
    unfold D1. replace (C * (a + b)) with (C * a + C * b) in * by ring. lra.
Qed.
End G.

(** ** Linear systems: Taylor's formula. *)
Lemma power_bound (g g' : R -> R) t d c m : 0 <= c -> g t = 0 ->
  (forall q, 0 <= q <= 1 -> derivable_pt_lim g (t + q * d) (g' (t + q * d))) ->
  (forall q, 0 <= q <= 1 -> Rabs (g' (t + q * d)) <= c * Rabs (q * d) ^ m) ->
  Rabs (g (t + d)) <= c * Rabs d ^ Datatypes.S m / INR (Datatypes.S m).
Proof.
  intros Hc H0 Hd Hb. set (k := INR (Datatypes.S m)). assert (Pk : 0 < k) by (apply lt_0_INR; lia).
  assert (G : forall s, (s = 1 \/ s = -1) -> s * g (t + d) <= c * Rabs d ^ Datatypes.S m / k).
  { intros s Hs.
    set (P := fun q => c * Rabs d ^ Datatypes.S m / k * q ^ Datatypes.S m - s * g (t + q * d)).
    set (P' := fun q => c * Rabs d ^ Datatypes.S m * q ^ m - s * (d * g' (t + q * d))).
    assert (HP : forall q, 0 <= q <= 1 -> derivable_pt_lim P q (P' q)).
    { intros q Hq. unfold P, P'. apply derivable_pt_lim_minus.
      - replace (c * Rabs d ^ Datatypes.S m * q ^ m) with (c * Rabs d ^ Datatypes.S m / k * (k * q ^ m)) by (field; lra).
        apply (derivable_pt_lim_scal (fun q => q ^ Datatypes.S m)). apply derivable_pt_lim_pow.
      - apply (derivable_pt_lim_scal (fun q => g (t + q * d))).
        replace (d * g' (t + q * d)) with (g' (t + q * d) * (0 + (1 * d + q * 0))) by ring.
        apply (derivable_pt_lim_comp (fun q => t + q * d) g).
        + apply derivable_pt_lim_plus; [apply derivable_pt_lim_const|].
          apply (derivable_pt_lim_mult (fun q => q) (fun _ => d)); [apply derivable_pt_lim_id|apply derivable_pt_lim_const].
        + apply Hd. exact Hq. }
    destruct (MVT_cor2 P P' 0 1 Rlt_0_1 HP) as (q & Eq & Hq).
    assert (PP : 0 <= P' q).
    { unfold P'. specialize (Hb q ltac:(lra)). rewrite Rabs_mult, (Rabs_pos_eq q) in Hb by lra. rewrite Rpow_mult_distr in Hb.
      assert (s * (d * g' (t + q * d)) <= Rabs d * (c * (q ^ m * Rabs d ^ m))).
      { eapply Rle_trans; [apply Rle_abs|]. rewrite !Rabs_mult. replace (Rabs s) with 1.
        - rewrite Rmult_1_l. apply Rmult_le_compat_l; [apply Rabs_pos|exact Hb].
        - destruct Hs as [-> | ->]; [now rewrite Rabs_R1|rewrite Rabs_left; lra]. }
      cbn [pow]. lra. }
    unfold P in Eq. rewrite pow1, pow_i, Rmult_0_l, Rplus_0_r, H0, Rmult_1_l in Eq by lia. lra. }
  apply Rabs_le. split; [pose proof (G (-1) (or_intror eq_refl)); lra|pose proof (G 1 (or_introl eq_refl)); lra].
Qed.

Lemma sumn_abs m g : Rabs (sumn m g) <= sumn m (fun k => Rabs (g k)).
Proof.
  induction m as [|m IH]; [unfold sumn; cbn; rewrite Rabs_R0; lra|]. rewrite !sumn_S.
  eapply Rle_trans; [apply Rabs_triang|]. lra.
Qed.

Lemma sumn_le m g h : (forall k, (k < m)%nat -> g k <= h k) -> sumn m g <= sumn m h.
Proof.
  induction m as [|m IH]; intro Hk; [unfold sumn; cbn; lra|]. rewrite !sumn_S.
  pose proof (Hk m ltac:(lia)). specialize (IH ltac:(intros; apply Hk; lia)). lra.
Qed.

Section Lin.
Context {I : Type}.
Variable A : (I -> R) -> (I -> R).
Variable L M : R.
Hypothesis HA : linear_map A.
Hypothesis HL0 : 0 <= L.
Hypothesis HM0 : 0 <= M.
Hypothesis HL : bounded_map L A.

Lemma bounded_lipschitz T : lipschitz T L (fun u _ => A u).
Proof.
  intros x z t D _ H i.
  replace (A x i - A z i) with (A (fun j => 1 * x j + (-1) * z j) i) by (rewrite HA; ring).
  apply HL. intro j. replace (1 * x j + -1 * z j) with (x j - z j) by ring. apply H.
Qed.

Lemma A_zero i : A (fun _ => 0) i = 0.
Proof. pose proof (HL (fun _ => 0) 0 (fun _ => eq_ind_r (fun q => q <= 0) (Rle_refl 0) Rabs_R0) i) as B.
  rewrite Rmult_0_r in B. pose proof (Rabs_pos (A (fun _ => 0) i)). destruct (Req_dec (A (fun _ => 0) i) 0) as [Z|Z]; [exact Z|]. apply Rabs_pos_lt in Z. lra. Qed.

Lemma A_sumn (c : nat -> R) (v : nat -> I -> R) i : forall m,
  A (fun j => sumn m (fun k => c k * v k j)) i = sumn m (fun k => c k * A (v k) i).
Proof.
  induction m as [|m IH]; [exact (A_zero i)|]. rewrite sumn_S, <- IH.
  replace (A (fun j => sumn (Datatypes.S m) (fun k => c k * v k j)) i)
    with (A (fun j => 1 * sumn m (fun k => c k * v k j) + c m * v m j) i).
  - rewrite HA. ring.
  - f_equal. extensionality j. rewrite sumn_S. ring.
Qed.

Lemma mpow_bound x D : 0 <= D -> (forall j, Rabs (x j) <= D) -> forall k j, Rabs (mpow A k x j) <= L ^ k * D.
Proof.
  intros HD Hx. induction k as [|k IH]; intro j; cbn [mpow pow]; [rewrite Rmult_1_l; apply Hx|].
  rewrite Rmult_assoc. now apply HL.
Qed.

Variable T : R -> Prop.
Hypothesis Tconv : forall s u c, T s -> T u -> 0 <= c <= 1 -> T (s + c * (u - s)).
Variable y : R -> I -> R.
Hypothesis Hsol : solution T (fun u _ => A u) y.
Hypothesis HM : forall t j, T t -> Rabs (y t j) <= M.

Notation tay t d m i := (sumn m (fun k => d ^ k / INR (fact k) * mpow A k (y t) i)).

Lemma tay_deriv t i m u : derivable_pt_lim (fun s => tay t (s - t) (Datatypes.S m) i) u
  (sumn m (fun k => (u - t) ^ k / INR (fact k) * mpow A (Datatypes.S k) (y t) i)).
Proof.
  induction m as [|m IH].
  - replace (fun s => tay t (s - t) 1 i) with (fct_cte (1 / INR (fact 0) * y t i)).
    + unfold sumn at 1. cbn. apply derivable_pt_lim_const.
    + extensionality s. unfold fct_cte, sumn. cbn. ring.
  - rewrite sumn_S.
    replace (fun s => tay t (s - t) (Datatypes.S (Datatypes.S m)) i)
      with (fun s => tay t (s - t) (Datatypes.S m) i + (mpow A (Datatypes.S m) (y t) i / INR (fact (Datatypes.S m))) * (s - t) ^ Datatypes.S m).
    + apply derivable_pt_lim_plus; [exact IH|].
      replace ((u - t) ^ m / INR (fact m) * mpow A (Datatypes.S m) (y t) i)
        with (mpow A (Datatypes.S m) (y t) i / INR (fact (Datatypes.S m)) * (INR (Datatypes.S m) * (u - t) ^ m * (1 - 0))).
      * apply (derivable_pt_lim_scal (fun s => (s - t) ^ Datatypes.S m)).
        apply (derivable_pt_lim_comp (fun s => s - t) (fun v => v ^ Datatypes.S m)).
        -- apply derivable_pt_lim_minus; [apply derivable_pt_lim_id|apply derivable_pt_lim_const].
        -- apply derivable_pt_lim_pow.
      * rewrite fact_simpl, mult_INR. field. split; [apply INR_fact_neq_0|apply not_0_INR; lia].
    + extensionality s. rewrite (sumn_S (Datatypes.S m)). field. apply INR_fact_neq_0.
Qed.

Lemma taylor_linear t d : T t -> T (t + d) -> forall m i,
  Rabs (y (t + d) i - tay t d m i) <= L ^ m * M * Rabs d ^ m / INR (fact m).
Proof.
  intros Ht Htd m. revert d Htd. induction m as [|m IH]; intros d Htd i.
  - unfold sumn. cbn. rewrite Rminus_0_r. specialize (HM (t + d) i Htd). lra.
  - set (g := fun s => y s i - tay t (s - t) (Datatypes.S m) i).
    set (g' := fun s => A (y s) i - sumn m (fun k => (s - t) ^ k / INR (fact k) * mpow A (Datatypes.S k) (y t) i)).
    assert (Hq : forall q, 0 <= q <= 1 -> T (t + q * d)).
    { intros q Hq. replace (t + q * d) with (t + q * ((t + d) - t)) by ring. now apply Tconv. }
    assert (PF : 0 < INR (fact m)) by apply INR_fact_lt_0.
    assert (B : Rabs (g (t + d)) <= (L * (L ^ m * M / INR (fact m))) * Rabs d ^ Datatypes.S m / INR (Datatypes.S m)).
    { apply (power_bound g g' t d (L * (L ^ m * M / INR (fact m))) m).
      - apply Rmult_le_pos; [exact HL0|]. apply Rmult_le_pos; [apply Rmult_le_pos; [now apply pow_le|exact HM0]|].
        left. now apply Rinv_0_lt_compat.
      - unfold g. replace (t - t) with 0 by ring. rewrite sumn_shift. cbn.
        rewrite sumn_zero; [field|]. intros k _. rewrite Rmult_0_l. unfold Rdiv. now rewrite !Rmult_0_l.
      - intros q Hq1. unfold g, g'. apply derivable_pt_lim_minus; [apply Hsol; auto|apply tay_deriv].
      - intros q Hq1. unfold g'.
        replace (A (y (t + q * d)) i - sumn m (fun k => (t + q * d - t) ^ k / INR (fact k) * mpow A (Datatypes.S k) (y t) i))
          with (A (fun j => 1 * y (t + q * d) j + (-1) * tay t (q * d) m j) i).
        + replace (L * (L ^ m * M / INR (fact m)) * Rabs (q * d) ^ m) with (L * (L ^ m * M * Rabs (q * d) ^ m / INR (fact m))) by (field; lra).
          apply HL. intro j. replace (1 * y (t + q * d) j + -1 * tay t (q * d) m j) with (y (t + q * d) j - tay t (q * d) m j) by ring.
          apply IH. auto.
        + rewrite HA. rewrite (A_sumn (fun k => (q * d) ^ k / INR (fact k)) (fun k => mpow A k (y t))).
          replace (t + q * d - t) with (q * d) by ring. cbn [mpow]. ring. }
    unfold g in B. replace (t + d - t) with d in B by ring.
    eapply Rle_trans; [exact B|]. right. rewrite fact_simpl, mult_INR. cbn [pow]. field.
    split; [apply INR_fact_neq_0|apply not_0_INR; lia].
Qed.
End Lin.

(** The constant of the local error on linear systems. *)
Lemma linear_consistent eps n : exists (s : nat) (r : nat -> R),
  forall I (A : (I -> R) -> (I -> R)) L M H (T : R -> Prop) (y : R -> I -> R), linear_map A -> 0 <= L -> 0 <= M -> 0 <= H -> bounded_map L A ->
  (forall s u c, T s -> T u -> 0 <= c <= 1 -> T (s + c * (u - s))) ->
  solution T (fun u _ => A u) y -> (forall t j, T t -> Rabs (y t j) <= M) ->
  consistent (tab_of (N := RNum eps) n) (fun u _ => A u) y T H
    ((L ^ Datatypes.S (rk_order n) / INR (fact (Datatypes.S (rk_order n)))
      + sumn s (fun k => Rabs (r k) * H ^ k * L ^ (Datatypes.S (rk_order n) + k))) * M) (rk_order n).
Proof.
  destruct (named_linear_system eps n) as (s & r & HR). exists s, r.
  intros I A L M H T y HA HL0 HM0 HH0 HL Tconv Hsol HM t h x' Ht Hth Hh Hr i.
  set (p := rk_order n) in *.
  assert (Ex : x' i = sumn (Datatypes.S p) (fun k => h ^ k / INR (fact k) * mpow A k (y t) i)
     + sumn s (fun k => r k * h ^ (Datatypes.S p + k) * mpow A (Datatypes.S p + k) (y t) i)).
  { specialize (HR I A (mkAlias true false) t h (upd (N := RNum eps) (fun _ _ => 0%R) LIn (y t)) HA i).
    etransitivity; [|exact HR].
    destruct Hr as (ks & S1 & E1). destruct (do_step_result eps n (fun u _ => A u) (fun _ _ => 0) (y t) t h) as (ks' & S2 & E2).
    pose proof (rk_stages_R_unique eps (tab_of (N := RNum eps) n) (fun u _ => A u) (y t) t h ks ks' (wf_tab_of (RNum eps) n) S1 S2) as <-.
    rewrite E1. symmetry. exact (E2 i). }
  pose proof (taylor_linear A L M HA HL0 HM0 HL T Tconv y Hsol HM t h Ht Hth (Datatypes.S p) i) as B1.
  set (Ty := sumn (Datatypes.S p) (fun k => h ^ k / INR (fact k) * mpow A k (y t) i)) in *.
  set (Re := sumn s (fun k => r k * h ^ (Datatypes.S p + k) * mpow A (Datatypes.S p + k) (y t) i)) in *.
  assert (B2 : Rabs Re <= sumn s (fun k => Rabs (r k) * H ^ k * L ^ (Datatypes.S p + k)) * M * Rabs h ^ Datatypes.S p).
  { unfold Re. eapply Rle_trans; [apply sumn_abs|].
    replace (sumn s (fun k => Rabs (r k) * H ^ k * L ^ (Datatypes.S p + k)) * M * Rabs h ^ Datatypes.S p)
      with (sumn s (fun k => M * Rabs h ^ Datatypes.S p * (Rabs (r k) * H ^ k * L ^ (Datatypes.S p + k)))) by (rewrite sumn_scale; ring).
    apply sumn_le. intros k _. rewrite !Rabs_mult, <- RPow_abs, (pow_add (Rabs h)).
    pose proof (mpow_bound A L HL (y t) M HM0 (fun j => HM t j Ht) (Datatypes.S p + k) i) as B.
    assert (P1 : 0 <= Rabs h) by apply Rabs_pos.
    assert (P2 : 0 <= Rabs h ^ Datatypes.S p) by now apply pow_le.
    assert (P3 : Rabs h ^ k <= H ^ k) by (apply pow_incr; lra).
    assert (P4 : 0 <= Rabs h ^ k) by now apply pow_le.
    assert (P5 : 0 <= Rabs (r k)) by apply Rabs_pos.
    replace (M * Rabs h ^ Datatypes.S p * (Rabs (r k) * H ^ k * L ^ (Datatypes.S p + k)))
      with ((Rabs (r k) * (Rabs h ^ Datatypes.S p * H ^ k)) * (L ^ (Datatypes.S p + k) * M)) by ring.
    apply Rmult_le_compat; [|apply Rabs_pos| |exact B].
    - apply Rmult_le_pos; [exact P5|now apply Rmult_le_pos].
    - apply Rmult_le_compat_l; [exact P5|]. now apply Rmult_le_compat_l. }
  rewrite Ex. replace (Ty + Re - y (t + h) i) with (- (y (t + h) i - Ty) + Re) by ring.
  eapply Rle_trans; [apply Rabs_triang|]. rewrite Rabs_Ropp.
  rewrite Rmult_plus_distr_r, Rmult_plus_distr_r. apply Rplus_le_compat; [|exact B2].
  eapply Rle_trans; [exact B1|]. right. unfold Rdiv. ring.
Qed.

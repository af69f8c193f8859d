(** Termination of integrate_adaptive with controlled_runge_kutta for bounded right-hand sides. *)
From Coq Require Import List Arith ZArith Reals Lia Lra.
From Verif Require Import M_Num M_Sign M_Run M_Checker M_Controlled S_Grid M_RK S_RK M_CtrlRK S_Real S_Ctrl S_CtrlRK P_R
  P_RKAll P_Det P_CtrlRK P_CtrlRKR P_CtrlRKT P_CtrlRKN P_CtrlTerm.
Import ListNotations.
Local Open Scope R_scope.

Lemma grow_ge error so : 0 <= error <= 1 -> (1 <= so)%Z -> 9 / 10 <= grow error so.
Proof.
  intros He Ho. unfold grow. rewrite (rpow_pos 5) by lra. pose proof (Rpower_gt0 5 (- IZR so)) as G.
  pose proof (Rmax_l (Rpower 5 (- IZR so)) error) as M.
  rewrite rpow_pos by lra. assert (0 < Rmax (Rpower 5 (- IZR so)) error) by lra.
  destruct (Z_of_nat_complete so) as [k ->]; [lia|]. rewrite five_pow in *.
  assert (H5 : / 5 ^ k <= 1).
  { rewrite <- Rinv_1. apply Rinv_le_contravar; [lra|]. apply pow_R1_Rle. lra. }
  assert (Q : Rmax (/ 5 ^ k) error <= 1) by (apply Rmax_lub; lra).
  set (q := Rmax (/ 5 ^ k) error) in *. clearbody q. rewrite <- INR_IZR_INZ.
  assert (1 <= Rpower q (-1 / INR k)); [|lra].
  apply Rpower_root_ge; [lra|lra|lia|]. rewrite pow1. lra.
Qed.

Lemma grow_small error so : 0 <= error <= 2 / 5 -> (1 <= so <= 8)%Z -> 1 <= grow error so.
Proof.
  intros He Ho. unfold grow. rewrite (rpow_pos 5) by lra. pose proof (Rpower_gt0 5 (- IZR so)) as G.
  pose proof (Rmax_l (Rpower 5 (- IZR so)) error) as M.
  rewrite rpow_pos by lra. assert (0 < Rmax (Rpower 5 (- IZR so)) error) by lra.
  destruct (Z_of_nat_complete so) as [k ->]; [lia|]. rewrite five_pow in *.
  assert (Hk : (k = 1 \/ k = 2 \/ k = 3 \/ k = 4 \/ k = 5 \/ k = 6 \/ k = 7 \/ k = 8)%nat) by lia.
  assert (H5 : / 5 ^ k <= 2 / 5).
  { destruct Hk as [->|[->|[->|[->|[->|[->|[->| ->]]]]]]]; simpl; lra. }
  assert (Q : Rmax (/ 5 ^ k) error <= 2 / 5) by (apply Rmax_lub; lra).
  set (q := Rmax (/ 5 ^ k) error) in *. clearbody q. rewrite <- INR_IZR_INZ.
  assert (10 / 9 <= Rpower q (-1 / INR k)); [|lra].
  apply Rpower_root_ge; [lra|lra|lia|].
  destruct Hk as [->|[->|[->|[->|[->|[->|[->| ->]]]]]]]; simpl; lra.
Qed.

Section T.
Variable eps : R.
Hypothesis Heps : 0 <= eps.
Notation NN := (RNum eps).
Context {I : Type}.
Variable idx : list I.
Variable cfg : err_cfg NN.
Hypothesis Htol : good_tol (eps_abs cfg) (eps_rel cfg) (a_x cfg) (a_dxdt cfg).

Lemma error_small x dx e dt K : 0 <= K -> (forall i, In i idx -> Rabs (e i) <= K) ->
  snd (@checker_error NN I idx cfg x dx e dt) <= K / eps_abs cfg.
Proof.
  intros HK He. destruct Htol as (H1 & H2 & H3 & H4).
  unfold checker_error. cbn [snd]. apply norm_inf_le.
  { apply Rmult_le_pos; [exact HK|]. left. now apply Rinv_0_lt_compat. }
  intros i Hi. specialize (He i Hi). unfold rel_error. cbn [nabs nadd nmul ndiv RNum].
  set (s := eps_rel cfg * (a_x cfg * Rabs (x i) + a_dxdt cfg * Rabs dt * Rabs (dx i))).
  assert (0 <= s).
  { apply Rmult_le_pos; [exact H2|]. apply Rplus_le_le_0_compat; [apply Rmult_le_pos; [exact H3|apply Rabs_pos]|].
    apply Rmult_le_pos; [apply Rmult_le_pos; [exact H4|apply Rabs_pos]|apply Rabs_pos]. }
  pose proof (Rabs_pos (e i)).
  assert (Q : 0 < eps_abs cfg + s) by lra.
  rewrite Rabs_right.
  2:{ apply Rle_ge. apply Rmult_le_pos; [lra|]. left. now apply Rinv_0_lt_compat. }
  apply Rle_trans with (Rabs (e i) / eps_abs cfg).
  - apply Rmult_le_compat_l; [lra|]. apply Rinv_le_contravar; lra.
  - apply Rmult_le_compat_r; [left; now apply Rinv_0_lt_compat|exact He].
Qed.

Variable eo so : Z.
Hypothesis Heo : (2 <= eo)%Z.
Hypothesis Hso : (1 <= so <= 8)%Z.

Lemma outcome_term x dx e dt dt' ok K : dt <> 0 -> 0 < K -> (forall i, In i idx -> Rabs (e i) <= Rabs dt * K) ->
  outcome eps idx eo so cfg 0 x dx e dt dt' ok ->
  let h := eps_abs cfg / K in
  0 < dir dt * dt' /\ (Rabs dt <= h -> ok = true) /\
  (if (ok : bool) then Rmin (Rabs dt) (1 / 5 * h) <= Rabs dt' else 1 / 5 * Rabs dt <= Rabs dt' <= 9 / 10 * Rabs dt).
Proof.
  intros Hd HK He Oc h. pose proof (Rabs_pos_lt dt Hd) as Pd.
  destruct (outcome_dt eps idx eo so cfg 0 x dx e dt dt' ok Hd Heo (proj1 Hso) Heps (or_introl eq_refl) Oc)
    as (A & _ & B & _).
  split; [exact A|].
  assert (Es : snd (@checker_error NN I idx cfg x dx e dt) <= Rabs dt * K / eps_abs cfg).
  { apply error_small; [|exact He]. apply Rmult_le_pos; lra. }
  pose proof (err_nonneg eps idx cfg x dx e dt) as En.
  assert (Ea : 0 < eps_abs cfg) by apply Htol.
  assert (Eh : Rabs dt * K / eps_abs cfg = Rabs dt / h) by (unfold h; field; lra).
  assert (Ph : 0 < h) by (unfold h; apply Rdiv_lt_0_compat; lra).
  rewrite Eh in Es. clearbody h.
  unfold outcome in Oc. cbv zeta in Oc. set (err := snd (@checker_error NN I idx cfg x dx e dt)) in *. clearbody err.
  change R in err.
  assert (Es' : err * h <= Rabs dt).
  { apply Rmult_le_reg_r with (/ h); [now apply Rinv_0_lt_compat|]. rewrite Rmult_assoc, Rinv_r by lra. lra. }
  destruct Oc as [(H1 & _)|[(_ & H2 & H3 & H4)|(_ & H2 & H3 & H4)]]; [lra| |]; subst ok.
  - split; [|exact (conj (proj1 (B eq_refl eq_refl)) (Rlt_le _ _ (proj2 (B eq_refl eq_refl))))].
    intro L. exfalso. assert (1 * h < err * h) by (apply Rmult_lt_compat_r; lra). lra.
  - split; [reflexivity|]. rewrite increase_R in H4. destruct (Rltb err (1 / 2)) eqn:EB.
    2:{ rewrite H4. apply Rmin_l. }
    apply Rltb_true in EB.
    replace (@nneq NN 0 0) with false in H4 by (symmetry; now apply nneq_R_false).
    assert (Am : Rabs dt' = Rabs dt * grow err so).
    { rewrite H4, Rabs_mult, (Rabs_right (grow err so)); [reflexivity|]. left. apply grow_pos. }
    rewrite Am. destruct (Rle_lt_dec err (2 / 5)) as [L|L].
    + pose proof (grow_small err so (conj En L) Hso). pose proof (Rmin_l (Rabs dt) (1 / 5 * h)). nra.
    + assert (9 / 10 <= grow err so) by (apply grow_ge; [split; [exact En|exact H2]|apply Hso]).
      pose proof (Rmin_r (Rabs dt) (1 / 5 * h)).
      assert (2 / 5 * h <= err * h) by (apply Rmult_le_compat_r; lra). nra.
Qed.
End T.

(** The error estimate of a bounded system. *)
Section B.
Context {I : Type} (eps : R).
Variable sys : (I -> R) -> R -> (I -> R).
Variable B : R.
Variable T : R -> Prop.
Hypothesis HB : forall x t i, T t -> Rabs (sys x t i) <= B.

Lemma rk_stage_bound (tb : tableau (RNum eps)) x (t dt : R) ks : (length (tab_c tb) = S (length (tab_a tb)))%nat ->
  T t -> (forall c : R, In c (tab_c tb) -> T (t + c * dt)) ->
  rk_stages_R eps tb sys x t dt ks -> Forall (fun k => forall i, Rabs (k i) <= B) ks.
Proof.
  intros Hc HT HTc [L H0 HS]. apply Forall_forall. intros k Hk. apply In_nth_error in Hk. destruct Hk as [s Hs].
  destruct s as [|s].
  - rewrite H0 in Hs. apply (f_equal (fun o => match o with Some v => v | None => k end)) in Hs. subst k. auto.
  - assert (s < length (tab_a tb))%nat.
    { assert (Datatypes.S s < length ks)%nat by (apply nth_error_Some; rewrite Hs; discriminate). lia. }
    destruct (nth_error (tab_a tb) s) as [row|] eqn:E1; [|apply nth_error_None in E1; lia].
    destruct (nth_error (tab_c tb) (Datatypes.S s)) as [c|] eqn:E2; [|apply nth_error_None in E2; lia].
    rewrite (HS s row c E1 E2) in Hs. apply (f_equal (fun o => match o with Some v => v | None => k end)) in Hs. subst k.
    intro i. apply HB, HTc. exact (nth_error_In _ _ E2).
Qed.

Lemma wsum_bound : forall (row : list R) (ks : list (I -> R)) i,
  0 <= B -> Forall (fun k => forall i, Rabs (k i) <= B) ks ->
  Rabs (wsum row ks i) <= B * rsum (map Rabs row).
Proof.
  induction row as [|a row IH]; intros ks i HB0 Hk.
  - unfold wsum. simpl. rewrite Rabs_R0. lra.
  - destruct ks as [|k ks].
    + unfold wsum. simpl. rewrite Rabs_R0. assert (0 <= rsum (map Rabs row)).
      { clear. induction row; simpl; [lra|]. pose proof (Rabs_pos a). lra. }
      pose proof (Rabs_pos a). apply Rmult_le_pos; lra.
    + inversion Hk; subst. specialize (IH ks i HB0 H2). unfold wsum in *. simpl.
      eapply Rle_trans; [apply Rabs_triang|]. rewrite Rabs_mult, Rmult_plus_distr_l.
      apply Rplus_le_compat; [|exact IH]. rewrite (Rmult_comm B). apply Rmult_le_compat_l; [apply Rabs_pos|apply H1].
Qed.

Lemma rk_error_bound (tb : tableau (RNum eps)) x (t dt : R) e : 0 <= B -> (length (tab_c tb) = S (length (tab_a tb)))%nat ->
  T t -> (forall c : R, In c (tab_c tb) -> T (t + c * dt)) ->
  rk_error eps tb sys x t dt e -> forall i, Rabs (e i) <= Rabs dt * (B * rsum (map Rabs (tab_b2 tb))).
Proof.
  intros HB0 Hc HT HTc (ks & Hs & He) i. rewrite He, Rabs_mult. apply Rmult_le_compat_l; [apply Rabs_pos|].
  apply wsum_bound; [exact HB0|]. exact (rk_stage_bound tb x t dt ks Hc HT HTc Hs).
Qed.
End B.

Lemma tab_c_len eps n : (length (tab_c (tab_of (N := RNum eps) n)) = S (length (tab_a (tab_of (N := RNum eps) n))))%nat.
Proof. destruct n; reflexivity. Qed.

(** All evaluation points of a step lie between its ends. *)
Lemma tab_c_unit eps n (c : R) : In c (tab_c (tab_of (N := RNum eps) n)) -> 0 <= c <= 1.
Proof.
  destruct n; cbn [tab_of tab_c euler_tab rk4_tab ck54_tab dopri5_tab7 f78_tab In]; unfold nfrac; rnum;
    intro H; repeat (destruct H as [H|H]; [rewrite <- H; lra|]); contradiction.
Qed.

Lemma inside_stage eps t0 tend sg t dt c : 0 <= c <= 1 -> inside eps t0 tend sg t dt ->
  0 <= sg * (t + c * dt - t0) /\ sg * (t + c * dt - tend) <= eps.
Proof.
  intros Hc (<- & H1 & H2). pose proof (dir_abs dt). pose proof (Rabs_pos dt).
  replace (dir dt * (t + c * dt - t0)) with (dir dt * (t - t0) + c * (dir dt * dt)) by ring.
  replace (dir dt * (t + c * dt - tend)) with (dir dt * (t + dt - tend) - (1 - c) * (dir dt * dt)) by ring.
  split; nra.
Qed.

Lemma order_bounds n : (0 < rk_error_order n)%nat ->
  (2 <= Z.of_nat (rk_error_order n))%Z /\ (1 <= Z.of_nat (rk_order n) <= 8)%Z.
Proof. destruct n; cbn; lia. Qed.

Section Final.
Variable eps : R.
Hypothesis Heps : 0 <= eps.
Notation NN := (RNum eps).
Context {I W : Type}.
Variable idx : list I.
Variable cfg : err_cfg NN.
Hypothesis Htol : good_tol (eps_abs cfg) (eps_rel cfg) (a_x cfg) (a_dxdt cfg).
Variable sys : (I -> R) -> R -> (I -> R).
Variable B : R.
Variables t0 tend sg : R.
Hypothesis HB : forall x t i, 0 <= sg * (t - t0) /\ sg * (t - tend) <= eps -> Rabs (sys x t i) <= B.
Hypothesis HB0 : 0 < B.
Variable obs : W -> (I -> R) -> R -> M (ev (I -> R) R) W.
Hypothesis Hobs : forall w x t, exists tr w', obs w x t = (tr, Ok w').

(** Sum of the absolute values of the error weights. *)
Notation esum n := (rsum (map Rabs (tab_b2 (tab_of (N := NN) n)))).

Lemma esum_pos n : (0 < rk_error_order n)%nat -> 0 < esum n.
Proof.
  intro Hn. assert (G : forall l : list R, Exists (fun x => x <> 0) l -> 0 < rsum (map Rabs l)).
  { assert (P : forall l : list R, 0 <= rsum (map Rabs l)).
    { induction l as [|a l IH]; simpl; [lra|]. pose proof (Rabs_pos a). lra. }
    induction l as [|a l IH]; intro H; inversion H; subst; simpl.
    - pose proof (Rabs_pos_lt a H1). specialize (P l). lra.
    - specialize (IH H1). pose proof (Rabs_pos a). lra. }
  apply G. destruct n; cbn [rk_error_order] in Hn; try lia;
    cbn [tab_of tab_b2 ck54_tab dopri5_tab7 f78_tab]; apply Exists_cons_hd; unfold nfrac; rnum; lra.
Qed.

Lemma explicit_terminates n : (0 < rk_error_order n)%nat ->
  let h := eps_abs cfg / (B * esum n) in
  forall c w x dt, dt <> 0 -> dir dt = sg -> 0 <= dir dt * (tend - t0) ->
  (9 / 10) ^ 499 * (Rabs (tend - t0) + eps) <= h ->
  forall k fuel, Rabs (tend - t0) <= INR k * Rmin (Rabs dt) (1 / 5 * h) + eps -> (k < fuel)%nat ->
  exists tr c' w' x' t' dt' steps,
   integrate_adaptive_ctrl (N := NN) (ctrl_step (ck_try (N := NN) idx rpow sys (rk_estep (N := NN) sys n)
     (Z.of_nat (rk_error_order n)) (Z.of_nat (rk_order n)) cfg 0%R)) obs fuel c w x t0 tend dt
   = (tr, Ok (c', w', x', t', dt', steps)) /\ Rabs (tend - t') <= eps /\ (steps <= k)%nat.
Proof.
  intros Hn h c w x dt Hd Hsg Hs HL k fuel Hk Hf.
  assert (PK : 0 < B * esum n) by (apply Rmult_lt_0_compat; [exact HB0|now apply esum_pos]).
  assert (Ph : 0 < h) by (apply Rdiv_lt_0_compat; [apply Htol|exact PK]).
  assert (Ab : Rabs (tend - t0) = dir dt * (tend - t0)).
  { destruct (dir_cases dt) as [[_ E]|[_ E]]; rewrite E in *; [rewrite Rabs_right; lra|rewrite Rabs_left1; lra]. }
  pose proof (Rabs_pos_lt dt Hd) as Pd.
  destruct (ia_loop_term (W := W) eps Heps
    (ck_try (N := NN) idx rpow sys (rk_estep (N := NN) sys n) (Z.of_nat (rk_error_order n)) (Z.of_nat (rk_order n)) cfg 0%R)
    (fun _ _ _ => True) (1 / 5) (9 / 10) h ltac:(lra) ltac:(lra) t0 tend sg) with (obs := obs) (m := Rmin (Rabs dt) (1 / 5 * h))
      (L := Rabs (tend - t0)) (n := k) (fuel := fuel) (s := c) (w := w) (x := x) (t := t0) (dt := dt) (count := 0%nat)
    as (tr & c' & w' & x' & t' & dt' & steps & E & Q1 & Q2); auto.
  - intros s x1 t dt1 _ Hd1 Hin.
    destruct (ck_try (N := NN) idx rpow sys (rk_estep (N := NN) sys n) (Z.of_nat (rk_error_order n)) (Z.of_nat (rk_order n)) cfg 0%R s x1 t dt1)
      as [[[[s' x'] t'] dt'] ok] eqn:E.
    split; [exact Logic.I|].
    destruct (ck_outcome eps idx sys _ _ cfg 0 _ _ _ _ _ _ _ _ _ _ E) as [Oc _].
    pose (ee := snd (rk_estep (N := NN) sys n (ck_st s) x1 (sys x1 t) t dt1)).
    change (outcome eps idx (Z.of_nat (rk_error_order n)) (Z.of_nat (rk_order n)) cfg 0 x1 (sys x1 t) ee dt1 dt' ok) in Oc.
    assert (Hee : forall i, In i idx -> Rabs (ee i) <= Rabs dt1 * (B * esum n)).
    { intros i _. subst ee.
      destruct (rk_estep (N := NN) sys n (ck_st s) x1 (sys x1 t) t dt1) as [[st out] e] eqn:Ee. cbn [snd].
      apply (rk_error_bound eps sys B _ HB (tab_of (N := NN) n) x1 t dt1 e); [lra|apply tab_c_len| | |].
      { replace t with (t + 0 * dt1) by ring. apply (inside_stage _ _ _ _ _ _ 0); [lra|exact Hin]. }
      { intros c0 Hc0. apply inside_stage; [exact (tab_c_unit _ _ _ Hc0)|exact Hin]. }
      exact (proj2 (rk_estep_R eps sys n (ck_st s) x1 t dt1 st out e Hn Ee)). }
    clearbody ee.
    destruct (outcome_term eps Heps idx cfg Htol _ _ (proj1 (order_bounds n Hn)) (proj2 (order_bounds n Hn))
      _ _ ee dt1 dt' ok (B * esum n) Hd1 PK Hee Oc) as (A1 & A2 & A3).
    split; [exact A1|]. split; [exact A2|].
    pose proof (ck_effect (N := NN) idx rpow sys (rk_estep (N := NN) sys n) _ _ cfg _ s x1 t dt1 s' x' t' dt' ok E) as Ef.
    destruct ok; [exact (conj (proj1 Ef) A3)|exact (conj (proj1 Ef) (conj (proj2 Ef) A3))].
  - lra.
  - split; [apply Rmin_glb_lt; lra|apply Rmin_r].
  - rewrite Rminus_diag_eq, Rmult_0_r by reflexivity. lra.
  - lra.
  - split; [lra|]. rewrite <- Ab. exact Hk.
  - apply Rmin_l.
  - exists tr, c', w', x', t', dt', steps. split; [exact E|]. split; [exact Q1|lia].
Qed.

Lemma fsal_terminates :
  let h := eps_abs cfg / (B * esum rk_dopri5) in
  forall rs (c : ckf NN I (rkmem NN I)) w x dt, cf_first c = true -> dt <> 0 -> dir dt = sg -> 0 <= dir dt * (tend - t0) ->
  (9 / 10) ^ 499 * (Rabs (tend - t0) + eps) <= h ->
  forall k fuel, Rabs (tend - t0) <= INR k * Rmin (Rabs dt) (1 / 5 * h) + eps -> (k < fuel)%nat ->
  exists tr c' w' x' t' dt' steps,
   integrate_adaptive_ctrl (N := NN) (ctrl_step (ckf_try (N := NN) idx rpow sys (dopri5_fstep (N := NN) sys (mkAlias false false))
     (Z.of_nat (rk_error_order rk_dopri5)) (Z.of_nat (rk_order rk_dopri5)) cfg 0%R rs)) obs fuel c w x t0 tend dt
   = (tr, Ok (c', w', x', t', dt', steps)) /\ Rabs (tend - t') <= eps /\ (steps <= k)%nat.
Proof.
  intros h rs c w x dt Hc Hd Hsg Hs HL k fuel Hk Hf.
  assert (Hn : (0 < rk_error_order rk_dopri5)%nat) by (cbn; lia).
  assert (PK : 0 < B * esum rk_dopri5) by (apply Rmult_lt_0_compat; [exact HB0|apply esum_pos; cbn; lia]).
  assert (Ph : 0 < h) by (apply Rdiv_lt_0_compat; [apply Htol|exact PK]).
  assert (Ab : Rabs (tend - t0) = dir dt * (tend - t0)).
  { destruct (dir_cases dt) as [[_ E]|[_ E]]; rewrite E in *; [rewrite Rabs_right; lra|rewrite Rabs_left1; lra]. }
  pose proof (Rabs_pos_lt dt Hd) as Pd.
  destruct (ia_loop_term (W := W) eps Heps
    (ckf_try (N := NN) idx rpow sys (dopri5_fstep (N := NN) sys (mkAlias false false))
       (Z.of_nat (rk_error_order rk_dopri5)) (Z.of_nat (rk_order rk_dopri5)) cfg 0%R rs)
    (fun s x t => cache_ok (N := NN) sys s x t) (1 / 5) (9 / 10) h ltac:(lra) ltac:(lra) t0 tend sg) with (obs := obs) (m := Rmin (Rabs dt) (1 / 5 * h))
      (L := Rabs (tend - t0)) (n := k) (fuel := fuel) (s := c) (w := w) (x := x) (t := t0) (dt := dt) (count := 0%nat)
    as (tr & c' & w' & x' & t' & dt' & steps & E & Q1 & Q2); auto.
  - intros s x1 t dt1 HP Hd1 Hin.
    destruct (ckf_try (N := NN) idx rpow sys (dopri5_fstep (N := NN) sys (mkAlias false false))
       (Z.of_nat (rk_error_order rk_dopri5)) (Z.of_nat (rk_order rk_dopri5)) cfg 0%R rs s x1 t dt1)
      as [[[[s' x'] t'] dt'] ok] eqn:E.
    destruct (ckf_step (N := NN) idx rpow sys (dopri5_fstep (N := NN) sys (mkAlias false false)) _ _ cfg _
      (dopri5_fstep_last (N := NN) sys (mkAlias false false)) rs s x1 t dt1 s' x' t' dt' ok HP E) as [K1 K2].
    split; [exact K1|].
    destruct (ckf_outcome eps idx sys _ _ cfg 0 _ _ _ _ _ _ _ _ _ _ _ E) as (dx & Edx & Oc & _).
    rewrite (Edx HP) in Oc. clear Edx dx.
    pose (ee := snd (dopri5_fstep (N := NN) sys (mkAlias false false) (cf_st s) x1 (sys x1 t) t dt1)).
    change (outcome eps idx (Z.of_nat (rk_error_order rk_dopri5)) (Z.of_nat (rk_order rk_dopri5)) cfg 0 x1 (sys x1 t) ee dt1 dt' ok) in Oc.
    assert (Hee : forall i, In i idx -> Rabs (ee i) <= Rabs dt1 * (B * esum rk_dopri5)).
    { intros i _. subst ee.
      destruct (dopri5_fstep (N := NN) sys (mkAlias false false) (cf_st s) x1 (sys x1 t) t dt1) as [[[st out] dxo] e] eqn:Ee. cbn [snd].
      apply (rk_error_bound eps sys B _ HB (tab_of (N := NN) rk_dopri5) x1 t dt1 e); [lra|apply tab_c_len| | |].
      { replace t with (t + 0 * dt1) by ring. apply (inside_stage _ _ _ _ _ _ 0); [lra|exact Hin]. }
      { intros c0 Hc0. apply inside_stage; [exact (tab_c_unit _ _ _ Hc0)|exact Hin]. }
      exact (proj2 (dopri5_fstep_R eps sys _ (cf_st s) x1 t dt1 st out dxo e Ee)). }
    clearbody ee.
    destruct (outcome_term eps Heps idx cfg Htol _ _ (proj1 (order_bounds rk_dopri5 Hn)) (proj2 (order_bounds rk_dopri5 Hn))
      _ _ ee dt1 dt' ok (B * esum rk_dopri5) Hd1 PK Hee Oc) as (A1 & A2 & A3).
    split; [exact A1|]. split; [exact A2|].
    destruct ok; [exact (conj (proj1 K2) A3)|exact (conj (proj1 K2) (conj (proj2 K2) A3))].
  - lra.
  - split; [apply Rmin_glb_lt; lra|apply Rmin_r].
  - left. exact Hc.
  - rewrite Rminus_diag_eq, Rmult_0_r by reflexivity. lra.
  - lra.
  - split; [lra|]. rewrite <- Ab. exact Hk.
  - apply Rmin_l.
  - exists tr, c', w', x', t', dt', steps. split; [exact E|]. split; [exact Q1|lia].
Qed.
End Final.

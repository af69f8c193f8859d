(** Convergence with the order of the method on smooth nonlinear systems (C120). *)
From Coq Require Import List Arith ZArith Reals Lia Lra Qreals FunctionalExtensionality.
From Verif Require Import M_Num M_Sign M_Run M_Plain M_Controlled S_Grid M_RK S_RK M_CtrlRK S_Real S_CtrlRK M_Integrate S_Integrate S_Conv S_BSeries
  P_R P_Plain P_PlainR P_PlainA P_RKNamed P_RKOrder P_RKAll P_Integrate P_Conv P_ConvRun P_ConvOrd P_BSeries P_Butcher T_Integrate T_Conv T_ConvOrd.
Import ListNotations.
Local Open Scope R_scope.

Lemma taylor_weaken {J : Type} p p' M B G (D : (J -> R) -> list (J -> R) -> (J -> R)) : (p' <= p)%nat -> taylor p M B G D -> taylor p' M B G D.
Proof.
  intros L [T1 T2 T3]. split; [exact T1| |].
  - intros. apply T2; auto. lia.
  - intros. apply T3; auto. lia.
Qed.
Lemma order_pos n : (1 <= rk_order n)%nat.
Proof. destruct n; cbn; lia. Qed.

(** ** C120: one step of every explicit Runge-Kutta stepper from a point of a solution misses it by at most E |h|^(order()+1), for
    every system with derivatives bounded by M along the solution; E depends on the method, on M and on the largest step only. *)
Theorem C120_step : forall eps n (I : Type) M H, 0 <= M -> 0 <= H -> exists E, 0 <= E /\
  forall (f : (I -> R) -> R -> (I -> R)) y D (T : R -> Prop),
  (forall s u c, T s -> T u -> 0 <= c <= 1 -> T (s + c * (u - s))) ->
  taylor (rk_order n) M (fun v => exists t, T t /\ v = point (y t) t) (autonomous f) D -> solution T f y ->
  consistent (tab_of (N := RNum eps) n) f y T H E (rk_order n).
Proof.
  intros eps n I M H HM HH.
  destruct (butcher eps (tab_of n) (tab_of n) (rk_order n) (twin_tab_of eps n) (wf_tab_of (RNum eps) n)
    (tab_b (tab_of (N := QNum 0) n)) (named_order n) (order_pos n) (I := I) M H HM HH) as (E & PE & B).
  exists E. split; [exact PE|]. intros f y D T Tc Tay Sol t h x' Ht Hth Hh (ks & Hks & Hx) i.
  specialize (B f y D T Tc Tay Sol t h ks Ht Hth Hh Hks i).
  destruct (twin_tab_of eps n) as (_ & Hb & _). rewrite <- Hb in B. rewrite Hx. exact B.
Qed.
Print Assumptions C120_step.

(** Whole runs: every observation of integrate_const and integrate_adaptive is within
    exp( growth |t'-t0| ) ( d + E |dt|^order() |t'-t0| ) of the solution. *)
Theorem C120_runs : forall eps, 0 <= eps -> forall n (I : Type) M H, 0 <= M -> 0 <= H -> exists E, 0 <= E /\
  forall W (f : (I -> R) -> R -> (I -> R)) y D t0 tend dt L d,
  dt <> 0 -> 0 <= dir dt * (tend - t0) -> Rabs dt <= H -> 0 <= L -> 0 <= d ->
  lipschitz (span eps t0 tend (dir dt)) L f -> solution (span eps t0 tend (dir dt)) f y ->
  taylor (rk_order n) M (fun v => exists t, span eps t0 tend (dir dt) t /\ v = point (y t) t) (autonomous f) D ->
  forall fuel s (w : W) x tr, (forall j, Rabs (x j - y t0 j) <= d) ->
  (exists r, integrate_const (N := RNum eps) rec_obs (plain_step (rk_do_step (N := RNum eps) f n)) fuel s w x t0 tend dt = (tr, Ok r))
  \/ (exists r, integrate_adaptive_plain (N := RNum eps) rec_obs (plain_step (rk_do_step (N := RNum eps) f n)) fuel s w x t0 tend dt = (tr, Ok r)) ->
  forall x' t', In (x', t') (obs_of tr) -> forall i,
  Rabs (x' i - y t' i) <= exp (growth (tab_of (N := RNum eps) n) L H * Rabs (t' - t0)) * (d + E * Rabs dt ^ rk_order n * Rabs (t' - t0)).
Proof.
  intros eps He n I M H HM HH. destruct (C120_step eps n I M H HM HH) as (E & PE & B). exists E. split; [exact PE|].
  intros W f y D t0 tend dt L d Hd Hdir Hh HL Hd0 Lip Sol Tay.
  exact (C116_consistent eps He I W n f t0 tend dt L H E (rk_order n) y d Hd Hdir HL PE Hh Hd0 Lip
    (B f y D _ (span_conv eps t0 tend (dir dt)) Tay Sol)).
Qed.
Print Assumptions C120_runs.

(** Controlled steppers with a bound on the step: the order holds in that bound. *)
Theorem C120_controlled : forall eps, 0 <= eps -> forall n (I : Type) M H, 0 <= M -> 0 <= H -> exists E, 0 <= E /\
  forall W (idx : list I) (f : (I -> R) -> R -> (I -> R)) abs rel max_dt y D t0 tend dt L d,
  0 < abs -> 0 <= rel -> (0 < rk_error_order n)%nat -> agrees dt max_dt -> max_dt <> 0 -> Rabs max_dt + eps <= H ->
  dt <> 0 -> 0 <= dir dt * (tend - t0) -> 0 <= L -> 0 <= d ->
  lipschitz (span eps t0 tend (dir dt)) L f -> solution (span eps t0 tend (dir dt)) f y ->
  taylor (rk_order n) M (fun v => exists t, span eps t0 tend (dir dt) t /\ v = point (y t) t) (autonomous f) D ->
  forall (g : W -> (I -> R) -> R -> res W) fuel c w x tr r, (forall j, Rabs (x j - y t0 j) <= d) ->
  integrate_adaptive_ctrl (N := RNum eps) (ctrl_step (made_explicit (N := RNum eps) idx rpow f n abs rel max_dt))
    (user_obs g) (Datatypes.S fuel) c w x t0 tend dt = (tr, r) ->
  forall x' t', In (x', t') (obs_of tr) -> forall i,
  Rabs (x' i - y t' i) <= exp (growth (tab_of (N := RNum eps) n) L H * Rabs (t' - t0))
    * (d + E * (Rabs max_dt + eps) ^ rk_order n * Rabs (t' - t0)).
Proof.
  intros eps He n I M H HM HH. destruct (C120_step eps n I M H HM HH) as (E & PE & B). exists E. split; [exact PE|].
  intros W idx f abs rel max_dt y D t0 tend dt L d Ha Hr Ho Hag Hm HmH Hd Hdir HL Hd0 Lip Sol Tay.
  exact (C116_consistent_controlled eps He I W idx n f abs rel max_dt t0 tend dt L H E (rk_order n) y d Ha Hr Ho Hag Hm HmH Hd Hdir HL PE Hd0 Lip
    (B f y D _ (span_conv eps t0 tend (dir dt)) Tay Sol)).
Qed.
Print Assumptions C120_controlled.

(** The error estimate written by do_step( sys , x , t , dt , xerr ) is at most E |dt|^(error_order()+1). *)
Theorem C120_estimate : forall eps n (I : Type) M H, 0 <= M -> 0 <= H -> exists E, 0 <= E /\
  forall (f : (I -> R) -> R -> (I -> R)) y D (T : R -> Prop),
  (forall s u c, T s -> T u -> 0 <= c <= 1 -> T (s + c * (u - s))) ->
  taylor (rk_order n) M (fun v => exists t, T t /\ v = point (y t) t) (autonomous f) D -> solution T f y ->
  forall al t dt (m : rkmem (RNum eps) I) p, T t -> T (t + dt) -> Rabs dt <= H ->
  rk_err_impl (N := RNum eps) n al t dt = Some p -> m LIn = y t ->
  forall i, Rabs (fst (run_step (N := RNum eps) f al p t m) LErr i) <= E * Rabs dt ^ Datatypes.S (rk_error_order n).
Proof.
  intros eps n I M H HM HH. destruct (le_lt_dec (rk_error_order n) 0) as [Z|Z].
  { exists 0. split; [lra|]. intros f y D T _ _ _ al t dt m p _ _ _ Hp. destruct n; cbn in Hp, Z; try discriminate; lia. }
  assert (L : (rk_error_order n <= rk_order n)%nat) by (destruct n; cbn; lia).
  destruct (C120_step eps n I M H HM HH) as (E1 & P1 & B1).
  destruct (butcher eps (tab_of n) (tab_of n) (rk_error_order n) (twin_tab_of eps n) (wf_tab_of (RNum eps) n)
    (embedded (tab_of (N := QNum 0) n)) (named_embedded n Z) Z (I := I) M H HM HH) as (E2 & P2 & B2).
  set (k := (rk_order n - rk_error_order n)%nat).
  exists (E1 * H ^ k + E2). split; [pose proof (Rmult_le_pos _ _ P1 (pow_le H k HH)); lra|].
  intros f y D T Tc Tay Sol al t dt m p Ht Hth Hh Hp Hm i.
  destruct (named_err_step eps f n al t dt m p Hp) as [R1 _].
  destruct (named_error eps I n f al t dt m p Hp) as (_ & R2 & _).
  set (x' := fst (run_step (N := RNum eps) f al p t m) (resolve al LOut)) in *.
  set (e := fst (run_step (N := RNum eps) f al p t m) LErr) in *. rewrite Hm in R1, R2.
  specialize (B1 f y D T Tc Tay Sol t dt x' Ht Hth Hh R1 i).
  destruct R2 as (ks & [K1 K2 K3] & Hx).
  assert (Hks : rk_stages_R eps (tab_of n) f (y t) t dt ks) by (split; [exact K1|exact K2|exact K3]).
  specialize (B2 f y D T Tc (taylor_weaken _ _ M _ _ D L Tay) Sol t dt ks Ht Hth Hh Hks i).
  assert (Hx' : x' i - e i = y t i + dt * wsum (map Q2R (embedded (tab_of n))) ks i) by exact (Hx i).
  rewrite <- Hx' in B2.
  assert (W1 : E1 * Rabs dt ^ Datatypes.S (rk_order n) <= E1 * H ^ k * Rabs dt ^ Datatypes.S (rk_error_order n)).
  { replace (Datatypes.S (rk_order n)) with (k + Datatypes.S (rk_error_order n))%nat by (unfold k; lia).
    rewrite pow_add, <- Rmult_assoc. apply Rmult_le_compat_r; [apply pow_le, Rabs_pos|].
    apply Rmult_le_compat_l; [exact P1|]. apply pow_incr. split; [apply Rabs_pos|exact Hh]. }
  set (c := y (t + dt) i) in *. set (a := x' i) in *. set (b := e i) in *.
  clearbody a b c. change (carrier (RNum eps)) with R in a, b.
  replace b with ((a - c) + - (a - b - c)) by ring.
  eapply Rle_trans; [apply Rabs_triang|]. rewrite Rabs_Ropp.
  rewrite Rmult_plus_distr_r. apply Rplus_le_compat; [|exact B2]. eapply Rle_trans; [exact B1|exact W1].
Qed.
Print Assumptions C120_estimate.

(** ** Example: x' = sin x, with the solution x = 2 atan( exp t ). *)
Definition sin_f (x : unit -> R) (_ : R) : unit -> R := fun i => sin (x i).
Definition sin_y (t : R) (_ : unit) : R := 2 * atan (exp t).
(** The derivatives of the augmented system. *)
Definition sin_D (v : option unit -> R) (l : list (option unit -> R)) : option unit -> R :=
  fun k => match k with
  | None => match l with [] => 1 | _ => 0 end
  | Some i => sin (v (Some i) + INR (length l) * (PI / 2)) * fold_right (fun u z => u (Some i) * z) 1 l
  end.

Lemma sin_rem : forall m th w, Rabs (sin (th + w) - sumn m (fun k => sin (th + INR k * (PI / 2)) * w ^ k / INR (fact k))) <= 1 * Rabs w ^ m.
Proof.
  assert (G : forall m th w, Rabs (sin (th + w) - sumn m (fun k => sin (th + INR k * (PI / 2)) * w ^ k / INR (fact k))) <= Rabs w ^ m / INR (fact m)).
  { induction m as [|m IH]; intros th w.
    - unfold sumn. cbn [seq map rsum fold_right pow fact]. rewrite Rminus_0_r. unfold Rdiv. cbn. rewrite Rinv_1, Rmult_1_r.
      pose proof (SIN_bound (th + w)). apply Rabs_le. lra.
    - set (g := fun w => sin (th + w) - sumn (S m) (fun k => sin (th + INR k * (PI / 2)) * w ^ k / INR (fact k))).
      set (g' := fun w => sin ((th + PI / 2) + w) - sumn m (fun k => sin ((th + PI / 2) + INR k * (PI / 2)) * w ^ k / INR (fact k))).
      assert (Pf : 0 < INR (fact m)) by apply INR_fact_lt_0.
      pose proof (power_bound g g' 0 w (/ INR (fact m)) m) as B. rewrite Rplus_0_l in B.
      change (Rabs (g w) <= Rabs w ^ S m / INR (fact (S m))).
      eapply Rle_trans; [apply B|].
      + left. now apply Rinv_0_lt_compat.
      + unfold g. rewrite sumn_shift. rewrite sumn_zero by (intros k _; cbn [pow]; unfold Rdiv; ring).
        cbn [pow fact INR]. rewrite Rmult_0_l, !Rplus_0_r. unfold Rdiv. rewrite Rinv_1. ring.
      + intros q _. set (u := 0 + q * w). unfold g, g'. apply derivable_pt_lim_minus.
        * replace (sin (th + PI / 2 + u)) with (cos (th + u) * (0 + 1)).
          2:{ replace (th + PI / 2 + u) with (PI / 2 + (th + u)) by ring. rewrite <- cos_sin. ring. }
          apply (derivable_pt_lim_comp (fun v => th + v) sin); [|apply derivable_pt_lim_sin].
          apply derivable_pt_lim_plus; [apply derivable_pt_lim_const|apply derivable_pt_lim_id].
        * apply derivable_pt_lim_ext with (fun v => sin (th + INR 0 * (PI / 2)) + sumn m (fun k => sin (th + INR (S k) * (PI / 2)) / INR (fact (S k)) * v ^ S k)).
          { intro v. rewrite sumn_shift. f_equal; [cbn [pow fact INR]; unfold Rdiv; rewrite Rinv_1; ring|].
            apply sumn_ext. intros k _. unfold Rdiv. ring. }
          replace (sumn m (fun k => sin (th + PI / 2 + INR k * (PI / 2)) * u ^ k / INR (fact k)))
            with (0 + sumn m (fun k => sin (th + INR (S k) * (PI / 2)) / INR (fact (S k)) * (INR (S k) * u ^ k))).
          2:{ rewrite Rplus_0_l. apply sumn_ext. intros k _. replace (th + PI / 2 + INR k * (PI / 2)) with (th + INR (S k) * (PI / 2)) by (rewrite S_INR; ring).
              rewrite fact_simpl, mult_INR. field. split; [apply INR_fact_neq_0|apply not_0_INR; lia]. }
          apply derivable_pt_lim_plus; [apply derivable_pt_lim_const|].
          apply (deriv_lsum (seq 0 m) (fun k v => sin (th + INR (S k) * (PI / 2)) / INR (fact (S k)) * v ^ S k)). intros k _.
          apply (derivable_pt_lim_scal (fun v => v ^ S k)). apply derivable_pt_lim_pow.
      + intros q _. rewrite Rplus_0_l. eapply Rle_trans; [apply IH|]. right. unfold Rdiv. ring.
      + rewrite fact_simpl, mult_INR. right. field. split; [apply INR_fact_neq_0|apply not_0_INR; lia]. }
  intros m th w. eapply Rle_trans; [apply G|]. rewrite Rmult_1_l.
  assert (Pf : 1 <= INR (fact m)) by (change 1 with (INR 1); apply le_INR, lt_O_fact).
  apply (Rmult_le_reg_r (INR (fact m))); [lra|]. unfold Rdiv. rewrite Rmult_assoc, Rinv_l by lra.
  pose proof (pow_le (Rabs w) m (Rabs_pos w)). nra.
Qed.

Lemma sin_taylor p B : taylor p 1 B (autonomous sin_f) sin_D.
Proof.
  split.
  - intros y l l' a b u v [i|] _.
    + cbn [sin_D]. rewrite !app_length. cbn [length].
      set (s := sin (y (Some i) + INR (length l + S (length l')) * (PI / 2))).
      assert (E : forall w, fold_right (fun u z => u (Some i) * z) 1 (l ++ w :: l')
        = w (Some i) * (fold_right (fun (u : option unit -> R) z => u (Some i) * z) 1 l * fold_right (fun u z => u (Some i) * z) 1 l')).
      { intro w. clear. induction l as [|x l IH]; cbn [app fold_right]; [ring|]. rewrite IH. ring. }
      rewrite !E. ring.
    + cbn [sin_D]. destruct l; cbn [app]; ring.
  - intros y l rs [i|] _ _ F.
    + cbn [sin_D]. rewrite Rabs_mult.
      assert (Z : 0 <= fold_right Rmult 1 rs /\ Rabs (fold_right (fun u z => u (Some i) * z) 1 l) <= fold_right Rmult 1 rs).
      { clear - F. induction F as [|r u rs l Hu F [IH1 IH2]]; cbn [fold_right]; [rewrite Rabs_R1; lra|].
        specialize (Hu (Some i)). pose proof (Rabs_pos (u (Some i))). rewrite Rabs_mult. split; [apply Rmult_le_pos; lra|].
        apply Rmult_le_compat; auto using Rabs_pos. }
      destruct Z as [Z1 Z2]. rewrite Rmult_1_l. rewrite <- (Rmult_1_l (fold_right Rmult 1 rs)).
      apply Rmult_le_compat; auto using Rabs_pos. pose proof (SIN_bound (y (Some i) + INR (length l) * (PI / 2))). apply Rabs_le. lra.
    + cbn [sin_D]. rewrite Rmult_1_l. destruct F as [|r u rs l Hu F]; [cbn; rewrite Rabs_R1; lra|]. rewrite Rabs_R0.
      assert (Z : forall rs l, Forall2 (bnd (J := option unit)) rs l -> 0 <= fold_right Rmult 1 rs).
      { clear. intros rs l F. induction F as [|r u rs l Hu F IH]; cbn; [lra|]. apply Rmult_le_pos; [|exact IH].
        specialize (Hu None). pose proof (Rabs_pos (u None)). lra. }
      apply (Z (r :: rs) (u :: l)). now constructor.
  - intros y w r m [i|] _ Hm Hw.
    + cbn [autonomous sin_D]. unfold sin_f. rewrite (sumn_ext m _ (fun k => sin (y (Some i) + INR k * (PI / 2)) * w (Some i) ^ k / INR (fact k))).
      * eapply Rle_trans; [apply sin_rem|]. apply Rmult_le_compat_l; [lra|]. apply pow_incr. split; [apply Rabs_pos|apply Hw].
      * intros k _. rewrite repeat_length. f_equal. f_equal. clear. induction k; [reflexivity|]. cbn [repeat fold_right pow]. now rewrite IHk.
    + cbn [autonomous sin_D]. destruct m as [|m]; [lia|]. rewrite sumn_shift. cbn [repeat fact INR].
      rewrite sumn_zero by (intros k _; cbn [repeat]; unfold Rdiv; ring).
      replace (1 - (1 / 1 + 0)) with 0 by field. rewrite Rabs_R0. rewrite Rmult_1_l. apply pow_le.
      specialize (Hw None). pose proof (Rabs_pos (w None)). lra.
Qed.

Lemma sin_solution T : solution T sin_f sin_y.
Proof.
  intros t i _. unfold sin_f, sin_y.
  assert (P : 0 < 1 + exp t ^ 2) by (pose proof (pow2_ge_0 (exp t)); lra).
  replace (sin (2 * atan (exp t))) with (2 * (/ (1 + exp t ^ 2) * exp t)).
  - apply (derivable_pt_lim_scal (fun s => atan (exp s))).
    apply (derivable_pt_lim_comp exp atan); [apply derivable_pt_lim_exp|apply derivable_pt_lim_atan].
  - rewrite sin_2a, sin_atan, cos_atan. set (e := exp t) in *.
    replace (1 + e²) with (1 + e ^ 2) by (unfold Rsqr; ring).
    assert (S1 : sqrt (1 + e ^ 2) * sqrt (1 + e ^ 2) = 1 + e ^ 2) by (apply sqrt_sqrt; lra).
    assert (S2 : sqrt (1 + e ^ 2) <> 0) by (apply Rgt_not_eq, sqrt_lt_R0; exact P).
    replace (2 * (e / sqrt (1 + e ^ 2)) * (1 / sqrt (1 + e ^ 2))) with (2 * (/ (sqrt (1 + e ^ 2) * sqrt (1 + e ^ 2)) * e)) by (field; exact S2).
    now rewrite S1.
Qed.

Lemma sin_lipschitz T : lipschitz T 1 sin_f.
Proof.
  intros x z t D _ H i. rewrite Rmult_1_l. unfold sin_f. eapply Rle_trans; [|exact (H i)].
  pose proof (power_bound (fun u => sin u - sin (z i)) cos (z i) (x i - z i) 1 0 ltac:(lra) ltac:(cbv beta; ring)) as B. cbv beta in B.
  replace (z i + (x i - z i)) with (x i) in B by ring. eapply Rle_trans; [apply B|].
  - intros q _. replace (cos (z i + q * (x i - z i))) with (cos (z i + q * (x i - z i)) - 0) by ring.
    apply derivable_pt_lim_minus; [apply derivable_pt_lim_sin|apply derivable_pt_lim_const].
  - intros q _. cbn [pow]. rewrite Rmult_1_r. pose proof (COS_bound (z i + q * (x i - z i))). apply Rabs_le. lra.
  - right. cbn [pow INR]. unfold Rdiv. rewrite Rinv_1. ring.
Qed.

Lemma sin_smooth T : smooth T 1 sin_f sin_y.
Proof.
  intros s t i _ _. eapply Rle_trans; [apply (sin_lipschitz (fun _ => True) (sin_y s) (sin_y t) t (1 * Rabs (s - t)) Logic.I)|right; ring].
  intros [].
  pose proof (power_bound (fun u => sin_y u tt - sin_y t tt) (fun u => sin (sin_y u tt)) t (s - t) 1 0 ltac:(lra) ltac:(cbv beta; ring)) as B. cbv beta in B.
  replace (t + (s - t)) with s in B by ring. eapply Rle_trans; [apply B|].
  - intros q _. replace (sin (sin_y (t + q * (s - t)) tt)) with (sin (sin_y (t + q * (s - t)) tt) - 0) by ring.
    apply derivable_pt_lim_minus; [exact (sin_solution (fun _ => True) _ tt Logic.I)|apply derivable_pt_lim_const].
  - intros q _. cbn [pow]. rewrite Rmult_1_r. pose proof (SIN_bound (sin_y (t + q * (s - t)) tt)). apply Rabs_le. lra.
  - right. cbn [pow INR]. unfold Rdiv. rewrite Rinv_1. ring.
Qed.

(** All steppers reach their order on it, for all step widths up to 1. *)
Example C120_example : forall n, exists C, 0 <= C /\ forall dt, 0 < dt <= 1 -> forall s, exists fuel tr r,
  integrate_const (N := RNum 0) rec_obs (plain_step (rk_do_step (N := RNum 0) sin_f n)) fuel s tt (sin_y 0) 0%R 1%R dt = (tr, Ok r)
  /\ forall x' t', In (x', t') (obs_of tr) -> Rabs (x' tt - 2 * atan (exp t')) <= C * dt ^ rk_order n.
Proof.
  intro n. destruct (C120_runs 0 (Rle_refl 0) n unit 1 1 ltac:(lra) ltac:(lra)) as (E & PE & HC).
  set (tb := tab_of (N := RNum 0) n). assert (Pg : 0 <= growth tb 1 1) by (apply (growth_nonneg 0 n); lra).
  exists (exp (growth tb 1 1) * E). split.
  { apply Rmult_le_pos; [left; apply exp_pos|exact PE]. }
  intros dt Hdt s. destruct (const_count 0 0 1 dt ltac:(lra)) as [m Hm].
  destruct (const_pure (N := RNum 0) (rk_do_step (N := RNum 0) sin_f n) (Datatypes.S m) s tt
     (sin_y 0) 0 1 dt m Hm (Nat.lt_succ_diag_r m)) as (tr & R1 & _).
  exists (Datatypes.S m), tr, (fst (after (rk_do_step (N := RNum 0) sin_f n) 0%R dt s (sin_y 0) m), tt,
    snd (after (rk_do_step (N := RNum 0) sin_f n) 0%R dt s (sin_y 0) m), m).
  split; [exact R1|]. intros x' t' Hin.
  assert (Ed : dir dt = 1) by (destruct (dir_cases dt) as [[_ E0]|[E0 _]]; [exact E0|lra]).
  assert (Ht : 0 <= t' <= 1).
  { assert (HT : span 0 0 1 (dir dt) t').
    { refine (proj1 (const_error 0 (Rle_refl 0) n sin_f 0 1 dt ltac:(lra) ltac:(rewrite Ed; lra) (sin_y 0)
        1 1 1 ltac:(lra) ltac:(lra) (sin_lipschitz _) sin_y (sin_solution _) _ 0 (Rle_refl 0) _ _ (Datatypes.S m) s tt tr _ R1 x' t' Hin)).
      - exact (sin_smooth _).
      - intro j. rewrite Rminus_diag_eq, Rabs_R0 by reflexivity. lra.
      - rewrite Rabs_pos_eq; lra. }
    rewrite Ed in HT. destruct HT. lra. }
  assert (B := HC unit sin_f sin_y sin_D 0 1 dt 1 0 ltac:(lra) ltac:(rewrite Ed; lra) ltac:(rewrite Rabs_pos_eq; lra) ltac:(lra) (Rle_refl 0)
    (sin_lipschitz _) (sin_solution _) (sin_taylor _ _) (Datatypes.S m) s tt (sin_y 0) tr
    ltac:(intro j; rewrite Rminus_diag_eq, Rabs_R0 by reflexivity; lra) (or_introl (ex_intro _ _ R1)) x' t' Hin tt).
  eapply Rle_trans; [exact B|]. fold tb. rewrite Rplus_0_l, Rminus_0_r, (Rabs_pos_eq t'), (Rabs_pos_eq dt) by lra.
  replace (exp (growth tb 1 1) * E * dt ^ rk_order n) with (exp (growth tb 1 1) * (E * dt ^ rk_order n)) by ring.
  assert (P4 : 0 <= dt ^ rk_order n) by (apply pow_le; lra).
  assert (P5 : 0 <= E * dt ^ rk_order n) by (apply Rmult_le_pos; lra).
  apply Rmult_le_compat; [left; apply exp_pos|apply Rmult_le_pos; lra| |].
  - destruct (Rle_lt_or_eq_dec (growth tb 1 1 * t') (growth tb 1 1 * 1)) as [Q|Q].
    + apply Rmult_le_compat_l; lra.
    + rewrite Rmult_1_r in Q. left. now apply exp_increasing.
    + rewrite Q, Rmult_1_r. apply Rle_refl.
  - rewrite <- (Rmult_1_r (E * dt ^ rk_order n)) at 2. apply Rmult_le_compat_l; lra.
Qed.

(** The hypotheses of C120_estimate are met on it by runge_kutta_dopri5, in place and out of place. *)
Example C120_estimate_example : exists E, 0 <= E /\ forall al t dt, Rabs dt <= 1 -> exists p,
  rk_err_impl (N := RNum 0) rk_dopri5 al t dt = Some p
  /\ Rabs (fst (run_step (N := RNum 0) sin_f al p t (fun _ => sin_y t)) LErr tt) <= E * Rabs dt ^ 5.
Proof.
  destruct (C120_estimate 0 rk_dopri5 unit 1 1 ltac:(lra) ltac:(lra)) as (E & PE & HC). exists E. split; [exact PE|].
  intros al t dt Hdt. eexists. split; [reflexivity|].
  exact (HC sin_f sin_y sin_D (fun _ => True) (fun _ _ _ _ _ _ => Logic.I) (sin_taylor _ _) (sin_solution _) al t dt (fun _ => sin_y t) _
    Logic.I Logic.I Hdt eq_refl eq_refl tt).
Qed.

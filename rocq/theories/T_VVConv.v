(** C125: velocity_verlet converges; with second order when the force does not depend on the velocity. *)
From Coq Require Import List Arith Bool ZArith Reals Lia Lra FunctionalExtensionality.
From Verif Require Import M_Num M_Sign M_Run M_Plain M_RK M_Symp S_Grid S_Real S_Symp S_RK S_Conv S_Taylor S_VVConv
  P_Run P_R P_Plain P_PlainR P_PlainA P_ConvRun P_Taylor P_VVConv.
Import ListNotations.
Local Open Scope R_scope.

(** Any use of one object (steps of any widths in one direction, resets, resizes, initializations) started near the solution.
    The error at distance a from the start is at most exp(G a) (D + (Lv M hm + C hm^2) a): first order in the
    largest step hm; second order if the force does not depend on the velocity (Lv = 0). *)
Theorem C125_run : forall (eps : R) (I : Type) (T : R -> Prop) (f : (I -> R) -> (I -> R) -> R -> (I -> R)) (L Lv M H D hm sg : R)
    (Y : nat -> R -> I -> R) (s : vv (RNum eps) I) (x : (I -> R) * (I -> R)) (t0 : R) (ops : list (vv_op (RNum eps) I)),
  (forall s u c, T s -> T u -> 0 <= c <= 1 -> T (s + c * (u - s))) ->
  0 <= L -> 0 <= Lv -> 0 <= M -> 0 <= D -> 0 <= hm <= H -> sg = 1 \/ sg = -1 ->
  lipschitz2 T L Lv f -> derivatives T 4 Y -> solution2 T f Y -> (forall k, (2 <= k <= 4)%nat -> deriv_bound T k M Y) ->
  T t0 -> directed T sg hm t0 ops ->
  vv_first s = true \/ vv_cur s = f (fst x) (snd x) t0 ->
  (forall i, Rabs (fst x i - Y 0%nat t0 i) <= D) -> (forall i, Rabs (snd x i - Y 1%nat t0 i) <= D) ->
  forall x' t', In (x', t') (fst (vv_run (N := RNum eps) f s x t0 ops)) ->
  let B := vv_bound (vv_growth L Lv H) D (Lv * M * hm + vv_const L Lv M H * (hm * hm)) (Rabs (t' - t0)) in
  forall i, Rabs (fst x' i - Y 0%nat t' i) <= B /\ Rabs (snd x' i - Y 1%nat t' i) <= B.
Proof.
  intros eps I T f L Lv M H D hm sg Y s x t0 ops Tc HL HLv HM HD Hm Hsg Lip Der Sol Bnd Ht Hdir Hs Hq Hp x' t' Hin B i.
  assert (HH : 0 <= H) by lra.
  pose proof (run_error eps T Tc f L Lv M H HL HLv HM HH Lip Y Der Sol Bnd sg hm D t0 Hsg HD Hm ops s x t0 Ht) as R1.
  assert (Z : sg * (t0 - t0) = 0) by ring. rewrite Z in R1. specialize (R1 (Rle_refl 0)).
  assert (E0 : vv_bound (vv_growth L Lv H) D (Lv * M * hm + vv_const L Lv M H * (hm * hm)) 0 = D).
  { unfold vv_bound. rewrite !Rmult_0_r, exp_0. ring. }
  rewrite E0 in R1.
  assert (C : close eps L Lv M Y D hm s x t0).
  { split; [exact Hq|]. split; [exact Hp|]. destruct Hs as [Hs|Hs]; [now left|right]. intro j. rewrite Hs.
    exact (fresh_acc T f L Lv M HLv HM Lip Y Sol D hm x t0 (proj1 Hm) Ht Hq Hp j). }
  destruct (R1 C Hdir x' t' Hin) as [P Q]. unfold B.
  replace (Rabs (t' - t0)) with (sg * (t' - t0)); [apply Q|].
  destruct Hsg as [->| ->]; [rewrite Rabs_right|rewrite Rabs_left1]; lra.
Qed.
Print Assumptions C125_run.

(** Forces that do not depend on the velocity: second order, with a constant that does not depend on the steps. *)
Theorem C125_second_order : forall (eps : R) (I : Type) (T : R -> Prop) (g : (I -> R) -> R -> (I -> R)) (L M H : R) (Y : nat -> R -> I -> R),
  (forall s u c, T s -> T u -> 0 <= c <= 1 -> T (s + c * (u - s))) -> 0 <= L -> 0 <= M -> 0 <= H ->
  lipschitz T L g -> derivatives T 4 Y -> (forall t i, T t -> Y 2%nat t i = g (Y 0%nat t) t i) -> (forall k, (2 <= k <= 4)%nat -> deriv_bound T k M Y) ->
  exists C, forall hm sg (s : vv (RNum eps) I) t0 (ops : list (vv_op (RNum eps) I)), 0 <= hm <= H -> sg = 1 \/ sg = -1 ->
  T t0 -> directed T sg hm t0 ops -> vv_first s = true ->
  forall x' t', In (x', t') (fst (vv_run (N := RNum eps) (fun q _ t => g q t) s (Y 0%nat t0, Y 1%nat t0) t0 ops)) ->
  forall i, Rabs (fst x' i - Y 0%nat t' i) <= exp (C * Rabs (t' - t0)) * (C * Rabs (t' - t0)) * hm ^ 2
    /\ Rabs (snd x' i - Y 1%nat t' i) <= exp (C * Rabs (t' - t0)) * (C * Rabs (t' - t0)) * hm ^ 2.
Proof.
  intros eps I T g L M H Y Tc HL HM HH Lip Der Sol Bnd. set (G := vv_growth L 0 H). set (K := vv_const L 0 M H).
  exists (Rmax G K). intros hm sg s t0 ops Hm Hsg Ht Hdir Hs x' t' Hin i.
  assert (Z : forall j k, Rabs (Y k t0 j - Y k t0 j) <= 0) by (intros j k; rewrite Rminus_diag_eq, Rabs_R0 by reflexivity; lra).
  assert (Lip2 : lipschitz2 T L 0 (fun q _ t => g q t)).
  { intros q q' p p' t Dq Dp HT Hq _ j. specialize (Lip q q' t Dq HT Hq j). lra. }
  pose proof (C125_run eps I T (fun q _ t => g q t) L 0 M H 0 hm sg Y s (Y 0%nat t0, Y 1%nat t0) t0 ops Tc HL (Rle_refl 0) HM (Rle_refl 0) Hm Hsg
    Lip2 Der Sol Bnd Ht Hdir (or_introl Hs) (fun j => Z j 0%nat) (fun j => Z j 1%nat) x' t' Hin i) as [B1 B2].
  fold G K in B1, B2.
  assert (Bd : vv_bound G 0 (0 * M * hm + K * (hm * hm)) (Rabs (t' - t0)) <= exp (Rmax G K * Rabs (t' - t0)) * (Rmax G K * Rabs (t' - t0)) * hm ^ 2).
  { unfold vv_bound. set (a := Rabs (t' - t0)). assert (Pa : 0 <= a) by apply Rabs_pos. pose proof (Rmax_l G K) as M1. pose proof (Rmax_r G K) as M2.
    assert (PK : 0 <= K). { unfold K, vv_const. assert (0 <= H * L) by now apply Rmult_le_pos. assert (0 <= (0 * M / 2 + M / 6) * (1 + H * L / 2)) by (apply Rmult_le_pos; lra). lra. }
    assert (P2 : 0 <= hm * hm) by (apply Rmult_le_pos; lra).
    replace (exp (Rmax G K * a) * (Rmax G K * a) * hm ^ 2) with (exp (Rmax G K * a) * (Rmax G K * a * (hm * hm))) by ring.
    apply Rmult_le_compat; [left; apply exp_pos| | |].
    - replace (0 + (0 * M * hm + K * (hm * hm)) * a) with (K * a * (hm * hm)) by ring. apply Rmult_le_pos; [now apply Rmult_le_pos|exact P2].
    - assert (Q : G * a <= Rmax G K * a) by now apply Rmult_le_compat_r. destruct Q as [Q| ->]; [left; now apply exp_increasing|apply Rle_refl].
    - replace (0 + (0 * M * hm + K * (hm * hm)) * a) with (K * a * (hm * hm)) by ring. apply Rmult_le_compat_r; [exact P2|]. now apply Rmult_le_compat_r. }
  split; eapply Rle_trans; eassumption.
Qed.
Print Assumptions C125_second_order.

(** The same for the observations of integrate_n_steps and integrate_const. *)
Lemma after_error (eps : R) (I : Type) (T : R -> Prop) (f : (I -> R) -> (I -> R) -> R -> (I -> R)) (L Lv M H D : R)
    (Y : nat -> R -> I -> R) (s : vv (RNum eps) I) (x : (I -> R) * (I -> R)) (t0 dt : R) (n : nat) :
  (forall s u c, T s -> T u -> 0 <= c <= 1 -> T (s + c * (u - s))) ->
  0 <= L -> 0 <= Lv -> 0 <= M -> 0 <= D -> Rabs dt <= H ->
  lipschitz2 T L Lv f -> derivatives T 4 Y -> solution2 T f Y -> (forall k, (2 <= k <= 4)%nat -> deriv_bound T k M Y) ->
  (forall k, (k <= n)%nat -> T (t0 + INR k * dt)) -> vv_first s = true ->
  (forall i, Rabs (fst x i - Y 0%nat t0 i) <= D) -> (forall i, Rabs (snd x i - Y 1%nat t0 i) <= D) ->
  let r := after (N := RNum eps) (vv_stp f) t0 dt s x n in
  close eps L Lv M Y (vv_bound (vv_growth L Lv H) D (Lv * M * Rabs dt + vv_const L Lv M H * (Rabs dt * Rabs dt)) (INR n * Rabs dt)) (Rabs dt)
    (fst r) (snd r) (t0 + INR n * dt).
Proof.
  intros Tc HL HLv HM HD Hm Lip Der Sol Bnd. pose proof (Rabs_pos dt) as Pd. assert (HH : 0 <= H) by lra.
  revert s x. induction n as [|n IH]; intros s x HT Hs Hq Hp.
  - cbn [after fst snd INR]. rewrite !Rmult_0_l, Rplus_0_r. unfold vv_bound. rewrite !Rmult_0_r, exp_0.
    replace (1 * (D + 0)) with D by ring. split; [exact Hq|]. split; [exact Hp|]. now left.
  - specialize (IH s x ltac:(intros k Hk; apply HT; lia) Hs Hq Hp). cbv zeta in IH.
    assert (Es : t0 + INR (S n) * dt = t0 + INR n * dt + dt) by (rewrite S_INR; ring).
    cbn [after]. destruct (after (N := RNum eps) (vv_stp f) t0 dt s x n) as [s' x']. cbn [fst snd] in IH.
    pose proof (close_bound eps T Tc f L Lv M H HL HLv HM HH Lip Y Der Sol Bnd D (Rabs dt) (INR n * Rabs dt) s' None x' (t0 + INR n * dt) dt HD
      (Rmult_le_pos _ _ (pos_INR n) Pd) (conj Pd Hm) (HT n ltac:(lia)) ltac:(rewrite <- Es; apply HT; lia) (Rle_refl _) IH) as B.
    cbv zeta in *. rewrite <- Es in B. replace (INR n * Rabs dt + Rabs dt) with (INR (S n) * Rabs dt) in B by (rewrite S_INR; ring).
    assert (Eg : @grid (RNum eps) t0 dt n = (t0 + INR n * dt)%R) by apply grid_R.
    exact (eq_ind_r (fun u => close eps L Lv M Y _ (Rabs dt) (fst (vv_stp f s' x' u dt)) (snd (vv_stp f s' x' u dt)) _) B Eg).
Qed.

Theorem C125_integrate : forall (eps : R) (I W : Type) (f : (I -> R) -> (I -> R) -> R -> (I -> R)) (L Lv M H D t0 tend dt : R)
    (Y : nat -> R -> I -> R) (s : vv (RNum eps) I) (w : W) (x : (I -> R) * (I -> R)) fuel tr,
  let T := span eps t0 tend (dir dt) in
  let stp := plain_step (vv_stp f) in
  0 <= eps -> dt <> 0 -> 0 <= dir dt * (tend - t0) ->
  0 <= L -> 0 <= Lv -> 0 <= M -> 0 <= D -> Rabs dt <= H ->
  lipschitz2 T L Lv f -> derivatives T 4 Y -> solution2 T f Y -> (forall k, (2 <= k <= 4)%nat -> deriv_bound T k M Y) ->
  vv_first s = true -> (forall i, Rabs (fst x i - Y 0%nat t0 i) <= D) -> (forall i, Rabs (snd x i - Y 1%nat t0 i) <= D) ->
  (exists r, integrate_const (N := RNum eps) rec_obs stp fuel s w x t0 tend dt = (tr, Ok r)) \/
  (exists r n, integrate_n_steps (N := RNum eps) rec_obs stp s w x t0 dt n = (tr, Ok r) /\ dir dt * (t0 + INR n * dt - tend) <= eps) ->
  forall x' t', In (x', t') (obs_of tr) ->
  let B := vv_bound (vv_growth L Lv H) D (Lv * M * Rabs dt + vv_const L Lv M H * (Rabs dt * Rabs dt)) (Rabs (t' - t0)) in
  forall i, Rabs (fst x' i - Y 0%nat t' i) <= B /\ Rabs (snd x' i - Y 1%nat t' i) <= B.
Proof.
  intros eps I W f L Lv M H D t0 tend dt Y s w x fuel tr T stp He Hd Hdir HL HLv HM HD Hm Lip Der Sol Bnd Hs Hq Hp Hrun x' t' Hin B i.
  assert (G : exists m, (m = O \/ dir dt * (t0 + INR m * dt - tend) <= eps) /\
    obs_of tr = map (fun k => (snd (after (N := RNum eps) (vv_stp f) t0 dt s x k), @grid (RNum eps) t0 dt k)) (seq 0 (S m))).
  { destruct Hrun as [[[r0 m] E]|(r & n & E & Hn)].
    - pose proof (integrate_const_ok_inv (N := RNum eps) _ _ _ _ _ _ _ _ _ _ _ _ E) as [Hf Hk].
      destruct (const_pure (N := RNum eps) (vv_stp f) fuel s w x t0 tend dt m Hf Hk) as (tr2 & E2 & Ho & _).
      pose proof (eq_trans (eq_sym E) E2) as E3. apply (f_equal fst) in E3. cbn [fst] in E3. subst tr2.
      exists m. split; [|exact Ho]. destruct m as [|m]; [now left|right].
      apply (const_count_before eps t0 tend dt (S m) (S m) Hf). lia.
    - destruct (n_steps_pure (N := RNum eps) (vv_stp f) s w x t0 dt n) as (tr2 & E2 & Ho & _).
      pose proof (eq_trans (eq_sym E) E2) as E3. apply (f_equal fst) in E3. cbn [fst] in E3. subst tr2.
      exists n. split; [right; exact Hn|exact Ho]. }
  destruct G as (m & HN & Ho). rewrite Ho in Hin. apply in_map_iff in Hin as (k & Ek & Hk). apply in_seq in Hk.
  assert (Ex : x' = snd (after (N := RNum eps) (vv_stp f) t0 dt s x k)) by (apply (f_equal fst) in Ek; symmetry; exact Ek).
  assert (Et : t' = t0 + INR k * dt) by (apply (f_equal snd) in Ek; cbn [snd] in Ek; rewrite <- Ek; apply grid_R).
  pose proof (after_error eps I T f L Lv M H D Y s x t0 dt k (span_conv eps t0 tend (dir dt)) HL HLv HM HD Hm Lip Der Sol Bnd
    ltac:(intros q Hqk; apply (grid_span eps He t0 tend dt Hdir m HN); lia) Hs Hq Hp) as (A1 & A2 & _).
  unfold B. rewrite Et, Ex. replace (Rabs (t0 + INR k * dt - t0)) with (INR k * Rabs dt).
  - split; [apply A1|apply A2].
  - replace (t0 + INR k * dt - t0) with (INR k * dt) by ring. rewrite Rabs_mult, (Rabs_pos_eq (INR k)) by apply pos_INR. reflexivity.
Qed.
Print Assumptions C125_integrate.

(** ** Examples *)
Definition cos_Y (k : nat) (t : R) (_ : unit) : R :=
  match k with 0%nat => cos t | 1%nat => - sin t | 2%nat => - cos t | 3%nat => sin t | _ => cos t end.
Definition osc (q _ : unit -> R) (_ : R) (_ : unit) : R := - q tt.
Lemma cos_der T : derivatives T 4 cos_Y.
Proof.
  intros k t i Hk _. destruct k as [|[|[|[|k]]]]; [| | | |lia]; cbn [cos_Y].
  - apply derivable_pt_lim_cos.
  - apply (derivable_pt_lim_opp sin). apply derivable_pt_lim_sin.
  - replace (sin t) with (- - sin t) by ring. apply (derivable_pt_lim_opp cos). apply derivable_pt_lim_cos.
  - apply derivable_pt_lim_sin.
Qed.
Lemma cos_bnd T k : deriv_bound T k 1 cos_Y.
Proof.
  intros t i _. pose proof (SIN_bound t). pose proof (COS_bound t).
  destruct k as [|[|[|[|k]]]]; cbn [cos_Y]; rewrite ?Rabs_Ropp; apply Rabs_le; lra.
Qed.
Lemma osc_lip T : lipschitz2 T 1 0 osc.
Proof.
  intros q q' p p' t Dq Dp _ Hq _ i. unfold osc. replace (- q tt - - q' tt) with (- (q tt - q' tt)) by ring.
  rewrite Rabs_Ropp. specialize (Hq tt). lra.
Qed.
Lemma osc_sol T : solution2 T osc cos_Y. Proof. intros t i _. reflexivity. Qed.

(** The oscillator x'' = -x, x(0) = 1, x'(0) = 0 up to the time 1: second order. *)
Example C125_example : forall (dt : R) (a1 a2 : unit -> R) tr r n, 0 < dt <= 1 ->
  integrate_n_steps (N := RNum 0) rec_obs (plain_step (vv_stp osc)) (vv_new (N := RNum 0) a1 a2) tt (fun _ => 1, fun _ => 0) 0 dt n = (tr, Ok r) ->
  INR n * dt <= 1 -> forall x' t', In (x', t') (obs_of tr) -> 0 <= t' <= 1 ->
  Rabs (fst x' tt - cos t') <= exp (13 / 4) * (2 / 3 * (dt * dt)) /\ Rabs (snd x' tt + sin t') <= exp (13 / 4) * (2 / 3 * (dt * dt)).
Proof.
  intros dt a1 a2 tr r n Hdt E Hn x' t' Hin Ht.
  assert (Ed : dir dt = 1) by (destruct (dir_cases dt) as [[_ ->]|[Q _]]; [reflexivity|lra]).
  assert (Ea : Rabs dt = dt) by (apply Rabs_pos_eq; lra).
  pose proof (C125_integrate 0 unit unit osc 1 0 1 1 0 0 1 dt cos_Y (vv_new (N := RNum 0) a1 a2) tt (fun _ => 1, fun _ => 0) O tr) as B.
  cbv zeta in B. rewrite Ed, Ea in B. specialize (B (Rle_refl 0) ltac:(lra) ltac:(lra) ltac:(lra) (Rle_refl 0) ltac:(lra) (Rle_refl 0) ltac:(lra)
    (osc_lip _) (cos_der _) (osc_sol _) (fun k _ => cos_bnd _ k) eq_refl).
  assert (Z : vv_bound (vv_growth 1 0 1) 0 (0 * 1 * dt + vv_const 1 0 1 1 * (dt * dt)) (Rabs (t' - 0)) <= exp (13 / 4) * (2 / 3 * (dt * dt))).
  { rewrite Rminus_0_r, (Rabs_pos_eq t') by lra. unfold vv_bound, vv_growth, vv_const.
    assert (P2 : 0 <= dt * dt) by (apply Rmult_le_pos; lra).
    assert (P3 : 2 / 3 * (dt * dt) * t' <= 2 / 3 * (dt * dt) * 1) by (apply Rmult_le_compat_l; lra).
    replace (1 + (1 + 0) * (1 + 1 + 1 * 1 * (1 + 0) / 4)) with (13 / 4) by field.
    apply Rmult_le_compat; [left; apply exp_pos| | |].
    - replace (0 + (0 * 1 * dt + ((0 * 1 / 2 + 1 / 6) * (1 + 1 * 1 / 2) + 5 * 1 / 12) * (dt * dt)) * t') with (2 / 3 * (dt * dt) * t') by field.
      apply Rmult_le_pos; lra.
    - destruct (Rle_lt_or_eq_dec (13 / 4 * t') (13 / 4)) as [Q|Q]; [lra|left; now apply exp_increasing|rewrite Q; apply Rle_refl].
    - replace (0 + (0 * 1 * dt + ((0 * 1 / 2 + 1 / 6) * (1 + 1 * 1 / 2) + 5 * 1 / 12) * (dt * dt)) * t') with (2 / 3 * (dt * dt) * t') by field. lra. }
  assert (B1 := fun h1 h2 h3 => B h1 h2 (or_intror (ex_intro _ r (ex_intro _ n (conj E h3)))) x' t' Hin tt). clear B.
  cbn [fst snd cos_Y] in B1. rewrite cos_0, sin_0 in B1.
  destruct B1 as [B2 B3].
  - intros _. rewrite Rminus_diag_eq, Rabs_R0 by reflexivity. apply Rle_refl.
  - intros _. rewrite Ropp_0, Rminus_diag_eq, Rabs_R0 by reflexivity. apply Rle_refl.
  - lra.
  - replace (snd x' tt + sin t') with (snd x' tt - - sin t') by ring. split; eapply Rle_trans; eassumption.
Qed.

(** A force depending on the velocity: x'' = -x', x(0) = -1, x'(0) = 1.  The hypotheses hold with Lv = 1 ... *)
Definition drag (_ p : unit -> R) (_ : R) (_ : unit) : R := - p tt.
Definition drag_Y (k : nat) (t : R) (_ : unit) : R := (- (1)) ^ S k * exp (- t).
Lemma drag_der T m : derivatives T m drag_Y.
Proof.
  intros k t i _ _. unfold drag_Y.
  replace ((- (1)) ^ S (S k) * exp (- t)) with ((- (1)) ^ S k * (exp (- t) * - (1))) by (cbn [pow]; ring).
  apply (derivable_pt_lim_scal (fun s => exp (- s))). apply (derivable_pt_lim_comp (fun s => - s) exp).
  - apply (derivable_pt_lim_opp id). apply derivable_pt_lim_id.
  - apply derivable_pt_lim_exp.
Qed.
Lemma drag_lip T : lipschitz2 T 0 1 drag.
Proof.
  intros q q' p p' t Dq Dp _ _ Hp i. unfold drag. replace (- p tt - - p' tt) with (- (p tt - p' tt)) by ring.
  rewrite Rabs_Ropp. specialize (Hp tt). lra.
Qed.
Lemma drag_sol T : solution2 T drag drag_Y.
Proof. intros t i _. unfold drag, drag_Y. cbn [pow]. ring. Qed.
Lemma drag_bnd k : deriv_bound (fun t => 0 <= t) k 1 drag_Y.
Proof.
  intros t i Ht. unfold drag_Y. rewrite Rabs_mult, <- RPow_abs, Rabs_Ropp, Rabs_R1, pow1, Rmult_1_l, Rabs_pos_eq by (left; apply exp_pos).
  rewrite <- exp_0. destruct Ht as [Ht|<-]; [left; apply exp_increasing; lra|right; f_equal; ring].
Qed.
Definition drag_x : (unit -> R) * (unit -> R) := (fun _ => - (1), fun _ => 1).
Definition drag_ops : list (vv_op (RNum 0) unit) := [OStep (N := RNum 0) None (1 / 2)%R; OReset; OStep (N := RNum 0) None (1 / 4)%R].
Example C125_drag : forall (a1 a2 : unit -> R) x' t',
  In (x', t') (fst (vv_run (N := RNum 0) drag (vv_new (N := RNum 0) a1 a2) drag_x 0%R drag_ops)) ->
  let B := vv_bound (vv_growth 0 1 1) 0 (1 * 1 * (1 / 2) + vv_const 0 1 1 1 * (1 / 2 * (1 / 2))) (Rabs (t' - 0)) in
  Rabs (fst x' tt + exp (- t')) <= B /\ Rabs (snd x' tt - exp (- t')) <= B.
Proof.
  intros a1 a2 x' t' Hin B.
  pose proof (C125_run 0 unit (fun t => 0 <= t) drag 0 1 1 1 0 (1 / 2) 1 drag_Y (vv_new (N := RNum 0) a1 a2) drag_x 0 drag_ops) as Q.
  specialize (Q ltac:(intros s u c Hs Hu Hc; nra) ltac:(lra) ltac:(lra) ltac:(lra) ltac:(lra) ltac:(lra) ltac:(auto) (drag_lip _) (drag_der _ _) (drag_sol _) (fun k _ => drag_bnd k)).
  specialize (Q ltac:(lra) ltac:(cbn [directed drag_ops]; repeat split; lra) ltac:(left; reflexivity)).
  cbn [fst snd drag_x] in Q. unfold drag_Y in Q. rewrite Ropp_0, exp_0 in Q. cbn [pow] in Q.
  assert (Z1 : forall i : unit, Rabs (- (1) - - (1) * 1 * 1) <= 0).
  { intros _. replace (- (1) - - (1) * 1 * 1) with 0 by ring. rewrite Rabs_R0. lra. }
  assert (Z2 : forall i : unit, Rabs (1 - - (1) * (- (1) * 1) * 1) <= 0).
  { intros _. replace (1 - - (1) * (- (1) * 1) * 1) with 0 by ring. rewrite Rabs_R0. lra. }
  specialize (Q Z1 Z2 x' t' Hin tt). fold B in Q.
  replace (fst x' tt + exp (- t')) with (fst x' tt - - (1) * 1 * exp (- t')) by ring.
  replace (snd x' tt - exp (- t')) with (snd x' tt - - (1) * (- (1) * 1) * exp (- t')) by ring. exact Q.
Qed.

(** ... and one step from the solution is not accurate to third order: without second order in general.  The
    acceleration at the end of the step is computed with the old velocity (velocity_verlet.hpp:120). *)
Theorem C125_velocity_sharp : forall (a1 a2 : unit -> R), ~ exists C, forall h, 0 < h <= 1 ->
  Rabs (snd (snd (vv_stp (eps := 0) drag (vv_new (N := RNum 0) a1 a2) (drag_Y 0 0, drag_Y 1 0) 0 h)) tt - drag_Y 1 h tt) <= C * h ^ 3.
Proof.
  intros a1 a2 [C HC].
  assert (E1 : forall h, snd (snd (vv_stp (eps := 0) drag (vv_new (N := RNum 0) a1 a2) (drag_Y 0 0, drag_Y 1 0) 0 h)) tt = 1 - h).
  { intro h. unfold vv_stp, vv_do_step, vv_new, vv_init_acc, vv_core, vv_set_cur, vv_cur, vv_pout, scale_sum, drag, drag_Y.
    cbn. rewrite Ropp_0, exp_0. field. }
  assert (LB : forall h, 0 <= h -> h <= 1 -> h ^ 2 / 2 - h ^ 3 / 6 <= exp (- h) - (1 - h)).
  { intros h H0 H1.
    pose proof (taylor_gen (I := unit) (fun t => 0 <= t) ltac:(intros s u c Hs Hu Hc; nra) 3 (fun k => drag_Y (S k)) 1 0 h ltac:(lra)
      (fun k t i _ Ht => drag_der (fun t => 0 <= t) (S (S k)) (S k) t i (Nat.lt_succ_diag_r _) Ht) (drag_bnd 4) ltac:(lra) ltac:(lra) tt) as B.
    rewrite Rplus_0_l in B. unfold drag_Y, S_RK.sumn in B. cbn [seq map S_RK.rsum fold_right fact Nat.mul Nat.add INR pow] in B.
    rewrite Ropp_0, exp_0, (Rabs_pos_eq h) in B by lra.
    assert (B2 := Rle_trans _ _ _ (Rle_abs _) (Rle_trans _ _ _ (Req_le _ _ (Rabs_Ropp _)) B)). cbn in B2. cbn [pow]. lra. }
  set (h := / (2 * (Rabs C + 2))).
  pose proof (Rabs_pos C) as PC. assert (Hh : 0 < h) by (apply Rinv_0_lt_compat; lra).
  assert (Hh2 : h * (2 * (Rabs C + 2)) = 1) by (unfold h; field; lra).
  assert (H1 : h <= 1) by nra.
  specialize (HC h (conj Hh H1)). rewrite E1 in HC. specialize (LB h ltac:(lra) H1).
  unfold drag_Y in HC. replace ((- (1)) ^ 2) with 1 in HC by ring. rewrite Rmult_1_l in HC.
  assert (B := Rle_trans _ _ _ (Rle_abs _) (Rle_trans _ _ _ (Req_le _ _ (Rabs_Ropp _)) HC)).
  assert (P3 : 0 < h ^ 3) by (apply pow_lt; exact Hh). assert (P2 : 0 < h ^ 2) by (apply pow_lt; exact Hh).
  pose proof (Rmult_le_compat_r (h ^ 3) C (Rabs C) ltac:(lra) (Rle_abs C)) as Q.
  assert (Q2 : h ^ 2 / 2 <= (Rabs C + 1 / 6) * h ^ 3) by lra.
  assert (Q3 : h ^ 2 / 2 = (Rabs C + 2) * h ^ 3) by (replace (h ^ 3) with (h ^ 2 * h) by ring; nra). nra.
Qed.
Print Assumptions C125_velocity_sharp.

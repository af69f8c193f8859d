(** Stability and convergence of the integrate functions with the explicit Runge-Kutta steppers (C114, C115). *)
From Coq Require Import List Arith ZArith Reals Lia Lra.
From Verif Require Import M_Num M_Sign M_Run M_Plain M_Controlled S_Grid M_RK S_RK M_CtrlRK S_Real S_CtrlRK M_Integrate S_Integrate S_Conv
  P_R P_Plain P_PlainR P_PlainA P_Integrate P_Conv P_ConvRun T_Integrate.
Import ListNotations.
Local Open Scope R_scope.

(** ** C114: stability.  Two runs of integrate_const with the same Runge-Kutta stepper, whatever is left over in
    the steppers' memory, from initial states that differ by at most [D] in every component: both make the same
    number of observations at the same times, and the states observed at time t differ by at most
    exp( growth * |t - t0| ) * D, if the system is Lipschitz in the state. *)
Theorem C114_const : forall eps, 0 <= eps -> forall I W (n : rk_name) (f : (I -> R) -> R -> (I -> R)) t0 tend dt L H D,
  dt <> 0 -> 0 <= dir dt * (tend - t0) -> 0 <= L -> Rabs dt <= H -> 0 <= D -> lipschitz (span eps t0 tend (dir dt)) L f ->
  forall fuel s1 s2 (w1 w2 : W) (x z : I -> R) tr1 tr2 r1 r2, (forall j, Rabs (x j - z j) <= D) ->
  integrate_const (N := RNum eps) rec_obs (plain_step (rk_do_step (N := RNum eps) f n)) fuel s1 w1 x t0 tend dt = (tr1, Ok r1) ->
  integrate_const (N := RNum eps) rec_obs (plain_step (rk_do_step (N := RNum eps) f n)) fuel s2 w2 z t0 tend dt = (tr2, Ok r2) ->
  Forall2 (fun p q => snd p = snd q /\ forall j, Rabs (fst p j - fst q j)
      <= exp (growth (tab_of (N := RNum eps) n) L H * Rabs (snd p - t0)) * D)
    (obs_of tr1) (obs_of tr2).
Proof.
  intros eps He I W n f t0 tend dt L H D Hd Hdir HL0 HH HD HL fuel s1 s2 w1 w2 x z tr1 tr2 [r1 m1] [r2 m2] Hx E1 E2.
  pose proof (integrate_const_ok_inv (N := RNum eps) _ _ _ _ _ _ _ _ _ _ _ _ E1) as [Hf Hm].
  destruct (const_pure (N := RNum eps) (rk_do_step (N := RNum eps) f n) fuel s1 w1 x t0 tend dt m1 Hf Hm) as (q1 & F1 & O1 & _).
  destruct (const_pure (N := RNum eps) (rk_do_step (N := RNum eps) f n) fuel s2 w2 z t0 tend dt m1 Hf Hm) as (q2 & F2 & O2 & _).
  rewrite E1 in F1. rewrite E2 in F2. apply (f_equal fst) in F1, F2. cbn [fst] in F1, F2. subst q1 q2. rewrite O1, O2.
  assert (HT : forall k, (k <= m1)%nat -> span eps t0 tend (dir dt) (t0 + INR k * dt)).
  { apply grid_span; auto. destruct m1 as [|m]; [now left|right].
    apply (const_count_before eps t0 tend dt (Datatypes.S m) (Datatypes.S m) Hf). lia. }
  assert (B := after_stable eps n f L H t0 dt D HL0 HH HD _ (span_conv eps t0 tend (dir dt)) HL m1 s1 s2 x z HT Hx).
  assert (G : forall k, In k (seq 0 (Datatypes.S m1)) -> (k <= m1)%nat) by (intros k Hk; apply in_seq in Hk; lia).
  revert G. generalize (seq 0 (Datatypes.S m1)) as l. induction l as [|k l IH]; intro G; [constructor|].
  cbn [map]. constructor; [|apply IH; intros; apply G; now right]. cbn [fst snd]. split; [reflexivity|]. intro j.
  rewrite grid_R. replace (t0 + INR k * dt - t0) with (INR k * dt) by ring. rewrite Rabs_mult, (Rabs_pos_eq (INR k)) by apply pos_INR.
  apply B. apply G. now left.
Qed.
Print Assumptions C114_const.

Theorem C114_n_steps : forall eps I W (n : rk_name) (f : (I -> R) -> R -> (I -> R)) t0 dt N L H D,
  0 <= L -> Rabs dt <= H -> 0 <= D -> lipschitz (fun _ => True) L f ->
  forall s1 s2 (w1 w2 : W) (x z : I -> R), (forall j, Rabs (x j - z j) <= D) ->
  exists tr1 tr2 s1' s2' (x' z' : I -> R) (t' : R),
  integrate_n_steps (N := RNum eps) rec_obs (plain_step (rk_do_step (N := RNum eps) f n)) s1 w1 x t0 dt N = (tr1, Ok (s1', w1, x', t'))
  /\ integrate_n_steps (N := RNum eps) rec_obs (plain_step (rk_do_step (N := RNum eps) f n)) s2 w2 z t0 dt N = (tr2, Ok (s2', w2, z', t'))
  /\ forall j, Rabs (x' j - z' j) <= exp (growth (tab_of (N := RNum eps) n) L H * Rabs (t' - t0)) * D.
Proof.
  intros eps I W n f t0 dt N L H D HL0 HH HD HL s1 s2 w1 w2 x z Hx.
  destruct (n_steps_pure (N := RNum eps) (rk_do_step (N := RNum eps) f n) s1 w1 x t0 dt N) as (tr1 & E1 & _).
  destruct (n_steps_pure (N := RNum eps) (rk_do_step (N := RNum eps) f n) s2 w2 z t0 dt N) as (tr2 & E2 & _).
  do 7 eexists. split; [exact E1|]. split; [exact E2|]. intro j. rewrite grid_R.
  replace (t0 + INR N * dt - t0) with (INR N * dt) by ring. rewrite Rabs_mult, (Rabs_pos_eq (INR N)) by apply pos_INR.
  exact (after_stable eps n f L H t0 dt D HL0 HH HD (fun _ => True) (fun _ _ _ _ _ _ => Logic.I) HL N s1 s2 x z
    (fun _ _ => Logic.I) Hx N (Nat.le_refl N) j).
Qed.
Print Assumptions C114_n_steps.

(** ** C115: global error.  For every explicit Runge-Kutta stepper, every Lipschitz system with a solution [y] whose
    derivative is Lipschitz in time, and an initial error of at most [D]: every state the observer sees at a time t' is
    within exp( growth * |t' - t0| ) * ( D + local_const * h * |t' - t0| ) of y(t'), where h is the largest step. *)
Theorem C115_const : forall eps, 0 <= eps -> forall I W (n : rk_name) (f : (I -> R) -> R -> (I -> R)) t0 tend dt L H K y D,
  dt <> 0 -> 0 <= dir dt * (tend - t0) -> 0 <= L -> 0 <= K -> Rabs dt <= H -> 0 <= D ->
  lipschitz (span eps t0 tend (dir dt)) L f -> solution (span eps t0 tend (dir dt)) f y -> smooth (span eps t0 tend (dir dt)) K f y ->
  forall fuel s (w : W) x tr r, (forall j, Rabs (x j - y t0 j) <= D) ->
  integrate_const (N := RNum eps) rec_obs (plain_step (rk_do_step (N := RNum eps) f n)) fuel s w x t0 tend dt = (tr, Ok r) ->
  forall x' t', In (x', t') (obs_of tr) -> forall i,
  Rabs (x' i - y t' i) <= exp (growth (tab_of (N := RNum eps) n) L H * Rabs (t' - t0))
    * (D + local_const (tab_of (N := RNum eps) n) L H K * Rabs dt * Rabs (t' - t0)).
Proof.
  intros eps He I W n f t0 tend dt L H K y D Hd Hdir HL0 HK0 HH HD HL Hs Hk fuel s w x tr r Hx E.
  intros x' t' Hin. exact (proj2 (const_error eps He n f t0 tend dt Hd Hdir x L H K HL0 HK0 HL y Hs Hk D HD Hx HH fuel s w tr r E x' t' Hin)).
Qed.
Print Assumptions C115_const.

Theorem C115_adaptive_plain : forall eps, 0 <= eps -> forall I W (n : rk_name) (f : (I -> R) -> R -> (I -> R)) t0 tend dt L H K y D,
  dt <> 0 -> 0 <= dir dt * (tend - t0) -> 0 <= L -> 0 <= K -> Rabs dt <= H -> 0 <= D ->
  lipschitz (span eps t0 tend (dir dt)) L f -> solution (span eps t0 tend (dir dt)) f y -> smooth (span eps t0 tend (dir dt)) K f y ->
  forall fuel s (w : W) x tr r, (forall j, Rabs (x j - y t0 j) <= D) ->
  integrate_adaptive_plain (N := RNum eps) rec_obs (plain_step (rk_do_step (N := RNum eps) f n)) fuel s w x t0 tend dt = (tr, Ok r) ->
  forall x' t', In (x', t') (obs_of tr) -> forall i,
  Rabs (x' i - y t' i) <= exp (growth (tab_of (N := RNum eps) n) L H * Rabs (t' - t0))
    * (D + local_const (tab_of (N := RNum eps) n) L H K * Rabs dt * Rabs (t' - t0)).
Proof.
  intros eps He I W n f t0 tend dt L H K y D Hd Hdir HL0 HK0 HH HD HL Hs Hk fuel s w x tr r Hx E.
  intros x' t' Hin. exact (proj2 (adaptive_error eps He n f t0 tend dt Hd Hdir x L H K HL0 HK0 HL y Hs Hk D HD Hx HH fuel s w tr r E x' t' Hin)).
Qed.
Print Assumptions C115_adaptive_plain.

(** The controlled integration with a step limit: the steps may be accepted or rejected in any way, by any tolerances, and
    the observer may throw; the bound uses only the limit. *)
Theorem C115_controlled : forall eps, 0 <= eps -> forall I W (idx : list I) (n : rk_name) (f : (I -> R) -> R -> (I -> R))
  abs rel max_dt t0 tend dt L H K y D,
  0 < abs -> 0 <= rel -> (0 < rk_error_order n)%nat -> agrees dt max_dt -> max_dt <> 0 -> Rabs max_dt + eps <= H ->
  dt <> 0 -> 0 <= dir dt * (tend - t0) -> 0 <= L -> 0 <= K -> 0 <= D ->
  lipschitz (span eps t0 tend (dir dt)) L f -> solution (span eps t0 tend (dir dt)) f y -> smooth (span eps t0 tend (dir dt)) K f y ->
  forall (g : W -> (I -> R) -> R -> res W) fuel c w x tr r, (forall j, Rabs (x j - y t0 j) <= D) ->
  integrate_adaptive_ctrl (N := RNum eps) (ctrl_step (made_explicit (N := RNum eps) idx rpow f n abs rel max_dt))
    (user_obs g) (Datatypes.S fuel) c w x t0 tend dt = (tr, r) ->
  forall x' t', In (x', t') (obs_of tr) -> forall i,
  Rabs (x' i - y t' i) <= exp (growth (tab_of (N := RNum eps) n) L H * Rabs (t' - t0))
    * (D + local_const (tab_of (N := RNum eps) n) L H K * (Rabs max_dt + eps) * Rabs (t' - t0)).
Proof.
  intros eps He I W idx n f abs rel max_dt t0 tend dt L H K y D Ha Hr Ho Hag Hm HmH Hd Hdir HL0 HK0 HD HL Hs Hk g fuel c w x tr r Hx E.
  destruct (C112_explicit eps He I W idx f abs rel max_dt Ha Hr n g fuel c w x t0 tend dt tr r Ho Hd Hag E) as ((l & El) & Hl & _).
  rewrite El in *.
  intros x' t' Hin. exact (proj2 (good_error eps He n f t0 tend dt Hdir x L H K HL0 HK0 HL y Hs Hk D HD Hx idx abs rel max_dt l Hm HmH Hl x' t' Hin)).
Qed.
Print Assumptions C115_controlled.

Theorem C115_dopri5 : forall eps, 0 <= eps -> forall I W (idx : list I) (f : (I -> R) -> R -> (I -> R))
  abs rel max_dt t0 tend dt L H K y D,
  0 < abs -> 0 <= rel -> agrees dt max_dt -> max_dt <> 0 -> Rabs max_dt + eps <= H ->
  dt <> 0 -> 0 <= dir dt * (tend - t0) -> 0 <= L -> 0 <= K -> 0 <= D ->
  lipschitz (span eps t0 tend (dir dt)) L f -> solution (span eps t0 tend (dir dt)) f y -> smooth (span eps t0 tend (dir dt)) K f y ->
  forall rs (g : W -> (I -> R) -> R -> res W) fuel c w x tr r, (forall j, Rabs (x j - y t0 j) <= D) -> cf_first c = true ->
  integrate_adaptive_ctrl (N := RNum eps) (ctrl_step (made_dopri5 (N := RNum eps) idx rpow f abs rel max_dt rs))
    (user_obs g) (Datatypes.S fuel) c w x t0 tend dt = (tr, r) ->
  forall x' t', In (x', t') (obs_of tr) -> forall i,
  Rabs (x' i - y t' i) <= exp (growth (dopri5_tab7 (N := RNum eps)) L H * Rabs (t' - t0))
    * (D + local_const (dopri5_tab7 (N := RNum eps)) L H K * (Rabs max_dt + eps) * Rabs (t' - t0)).
Proof.
  intros eps He I W idx f abs rel max_dt t0 tend dt L H K y D Ha Hr Hag Hm HmH Hd Hdir HL0 HK0 HD HL Hs Hk rs g fuel c w x tr r Hx Hc E.
  destruct (C112_dopri5 eps He I W idx f abs rel max_dt Ha Hr rs g fuel c w x t0 tend dt tr r Hc Hd Hag E) as ((l & El) & Hl & _).
  rewrite El in *.
  intros x' t' Hin. exact (proj2 (good_error eps He rk_dopri5 f t0 tend dt Hdir x L H K HL0 HK0 HL y Hs Hk D HD Hx idx abs rel max_dt l Hm HmH Hl x' t' Hin)).
Qed.
Print Assumptions C115_dopri5.

(** A common bound turned into a limit. *)
Lemma small_step (Lam C Tm e : R) : 0 <= Lam -> 0 <= C -> 0 <= Tm -> 0 < e ->
  exists d, 0 < d <= 1 /\ forall h b, 0 <= h <= d -> 0 <= b <= Tm -> exp (Lam * b) * (0 + C * h * b) <= e.
Proof.
  intros H1 H2 H3 He. set (B := exp (Lam * Tm) * (C * Tm)).
  assert (PB : 0 <= B) by (apply Rmult_le_pos; [left; apply exp_pos|nra]).
  assert (P1 : 0 < e / (B + 1)) by (apply Rdiv_lt_0_compat; lra).
  exists (Rmin 1 (e / (B + 1))). split.
  - split; [apply Rmin_glb_lt; lra|apply Rmin_l].
  - intros h b [Ph Hh] [Pb Hb]. pose proof (Rle_trans _ _ _ Hh (Rmin_r _ _)) as Hh2.
    assert (HX : exp (Lam * b) <= exp (Lam * Tm)).
    { destruct (Rle_lt_or_eq_dec (Lam * b) (Lam * Tm)) as [Q|Q]; [now apply Rmult_le_compat_l|left; now apply exp_increasing|].
      rewrite Q. lra. }
    assert (Q1 : C * h * b <= C * Tm * h) by (assert (0 <= C * h) by nra; nra).
    assert (Q2 : exp (Lam * b) * (0 + C * h * b) <= exp (Lam * Tm) * (C * Tm * h)).
    { apply Rmult_le_compat; [left; apply exp_pos| |exact HX|lra]. assert (0 <= C * h) by nra. nra. }
    assert (Q3 : B * h <= B * (e / (B + 1))) by (apply Rmult_le_compat_l; assumption).
    assert (Q4 : B * (e / (B + 1)) <= (B + 1) * (e / (B + 1))) by (apply Rmult_le_compat_r; lra).
    replace ((B + 1) * (e / (B + 1))) with e in Q4 by (field; lra).
    unfold B in *. replace (exp (Lam * Tm) * (C * Tm * h)) with (exp (Lam * Tm) * (C * Tm) * h) in Q2 by ring. lra.
Qed.

Lemma span_width eps t0 tend sg t : sg = 1 \/ sg = -1 -> 0 <= eps -> span eps t0 tend sg t -> 0 <= sg * (tend - t0) ->
  Rabs (t - t0) <= Rabs (tend - t0) + eps.
Proof.
  intros Hs He [A B] Hd. destruct Hs as [-> | ->].
  - rewrite !Rabs_pos_eq by lra. lra.
  - rewrite !Rabs_left1 by lra. lra.
Qed.

(** The limit: started on the solution, integrate_const (and integrate_adaptive) come within any e > 0 of the solution at every
    observation, if only the step width is small enough. *)
Theorem C115_const_converges : forall eps, 0 <= eps -> forall I W (n : rk_name) (f : (I -> R) -> R -> (I -> R)) t0 tend sg L K y,
  sg = 1 \/ sg = -1 -> 0 <= sg * (tend - t0) -> 0 <= L -> 0 <= K ->
  lipschitz (span eps t0 tend sg) L f -> solution (span eps t0 tend sg) f y -> smooth (span eps t0 tend sg) K f y ->
  forall e, 0 < e -> exists d, 0 < d /\ forall dt, 0 < sg * dt <= d ->
  (forall s (w : W), exists fuel tr r,
    integrate_const (N := RNum eps) rec_obs (plain_step (rk_do_step (N := RNum eps) f n)) fuel s w (y t0) t0 tend dt = (tr, Ok r))
  /\ forall fuel s (w : W) tr r,
    integrate_const (N := RNum eps) rec_obs (plain_step (rk_do_step (N := RNum eps) f n)) fuel s w (y t0) t0 tend dt = (tr, Ok r)
    \/ (exists r2, integrate_adaptive_plain (N := RNum eps) rec_obs (plain_step (rk_do_step (N := RNum eps) f n)) fuel s w (y t0) t0 tend dt
         = (tr, Ok r2)) ->
    forall x' t', In (x', t') (obs_of tr) -> forall i, Rabs (x' i - y t' i) <= e.
Proof.
  intros eps He I W n f t0 tend sg L K y Hsg Hdir HL0 HK0 HL Hs Hk e Hpe.
  set (tb := tab_of (N := RNum eps) n).
  assert (Pg : 0 <= growth tb L 1) by (apply growth_nonneg; lra).
  assert (Pl : 0 <= local_const tb L 1 K) by (apply local_nonneg; lra).
  destruct (small_step (growth tb L 1) (local_const tb L 1 K) (Rabs (tend - t0) + eps) e Pg Pl
     ltac:(pose proof (Rabs_pos (tend - t0)); lra) Hpe) as (d & Hd & Hb).
  exists d. split; [lra|]. intros dt Hdt.
  assert (Esg : dir dt = sg).
  { destruct (dir_cases dt) as [[P E]|[P E]]; rewrite E; destruct Hsg as [-> | ->]; lra. }
  assert (Hdt0 : dt <> 0) by (intros ->; lra).
  assert (Hab : Rabs dt = sg * dt) by (rewrite <- dir_abs, Esg; reflexivity).
  assert (F : forall x' t' (l : list ((I -> R) * R)), In (x', t') l ->
     (forall x1 t1, In (x1, t1) l -> span eps t0 tend sg t1) ->
     (forall i, Rabs (x' i - y t' i) <= exp (growth tb L 1 * Rabs (t' - t0)) * (0 + local_const tb L 1 K * Rabs dt * Rabs (t' - t0))) ->
     forall i, Rabs (x' i - y t' i) <= e).
  { intros x' t' l Hin Hsp HB i. eapply Rle_trans; [apply HB|]. apply Hb.
    - rewrite Hab. lra.
    - split; [apply Rabs_pos|]. apply (span_width eps t0 tend sg); auto. exact (Hsp x' t' Hin). }
  split.
  - intros s w. destruct (const_count eps t0 tend dt Hdt0) as [m Hm].
    destruct (const_pure (N := RNum eps) (rk_do_step (N := RNum eps) f n) (Datatypes.S m) s w (y t0) t0 tend dt m Hm (Nat.lt_succ_diag_r m))
      as (tr & E & _). eauto.
  - intros fuel s w tr r Hrun x' t' Hin.
    assert (Hy : forall j, Rabs (y t0 j - y t0 j) <= 0) by (intro j; rewrite Rminus_diag_eq, Rabs_R0 by reflexivity; lra).
    rewrite <- Esg in HL, Hs, Hk.
    apply (F x' t' (obs_of tr) Hin).
    + rewrite <- Esg. destruct Hrun as [E|[r2 E]]; intros x1 t1 H1.
      * exact (proj1 (const_error eps He n f t0 tend dt Hdt0 ltac:(rewrite Esg; exact Hdir) (y t0) L 1 K HL0 HK0 HL y Hs Hk 0 (Rle_refl 0) Hy
          ltac:(lra) fuel s w tr r E x1 t1 H1)).
      * exact (proj1 (adaptive_error eps He n f t0 tend dt Hdt0 ltac:(rewrite Esg; exact Hdir) (y t0) L 1 K HL0 HK0 HL y Hs Hk 0 (Rle_refl 0) Hy
          ltac:(lra) fuel s w tr r2 E x1 t1 H1)).
    + destruct Hrun as [E|[r2 E]].
      * exact (proj2 (const_error eps He n f t0 tend dt Hdt0 ltac:(rewrite Esg; exact Hdir) (y t0) L 1 K HL0 HK0 HL y Hs Hk 0 (Rle_refl 0) Hy
          ltac:(lra) fuel s w tr r E x' t' Hin)).
      * exact (proj2 (adaptive_error eps He n f t0 tend dt Hdt0 ltac:(rewrite Esg; exact Hdir) (y t0) L 1 K HL0 HK0 HL y Hs Hk 0 (Rle_refl 0) Hy
          ltac:(lra) fuel s w tr r2 E x' t' Hin)).
Qed.
Print Assumptions C115_const_converges.

Theorem C115_dopri5_converges : forall eps, 0 <= eps -> forall I W (idx : list I) (f : (I -> R) -> R -> (I -> R)) t0 tend sg L K y,
  sg = 1 \/ sg = -1 -> 0 <= sg * (tend - t0) -> 0 <= L -> 0 <= K ->
  lipschitz (span eps t0 tend sg) L f -> solution (span eps t0 tend sg) f y -> smooth (span eps t0 tend sg) K f y ->
  forall e, 0 < e -> exists d, 0 < d /\ forall abs rel max_dt dt, 0 < abs -> 0 <= rel ->
  0 < sg * dt -> 0 < sg * max_dt -> Rabs max_dt + eps <= d ->
  forall rs (g : W -> (I -> R) -> R -> res W) fuel c w tr r, cf_first c = true ->
  integrate_adaptive_ctrl (N := RNum eps) (ctrl_step (made_dopri5 (N := RNum eps) idx rpow f abs rel max_dt rs))
    (user_obs g) (Datatypes.S fuel) c w (y t0) t0 tend dt = (tr, r) ->
  forall x' t', In (x', t') (obs_of tr) -> forall i, Rabs (x' i - y t' i) <= e.
Proof.
  intros eps He I W idx f t0 tend sg L K y Hsg Hdir HL0 HK0 HL Hs Hk e Hpe.
  set (tb := dopri5_tab7 (N := RNum eps)).
  assert (Pg : 0 <= growth tb L 1) by (apply (growth_nonneg eps rk_dopri5); lra).
  assert (Pl : 0 <= local_const tb L 1 K) by (apply (local_nonneg eps rk_dopri5); lra).
  destruct (small_step (growth tb L 1) (local_const tb L 1 K) (Rabs (tend - t0) + eps) e Pg Pl
     ltac:(pose proof (Rabs_pos (tend - t0)); lra) Hpe) as (d & Hd & Hb).
  exists d. split; [lra|]. intros abs rel max_dt dt Ha Hr Hdt Hmx Hmd rs g fuel c w tr r Hc E x' t' Hin i.
  assert (Esg : dir dt = sg).
  { destruct (dir_cases dt) as [[P E1]|[P E1]]; rewrite E1; destruct Hsg as [-> | ->]; lra. }
  assert (Hdt0 : dt <> 0) by (intros ->; lra).
  assert (Hm0 : max_dt <> 0) by (intros ->; lra).
  assert (Hag : agrees dt max_dt) by (right; rewrite Esg; exact Hmx).
  assert (Hy : forall j, Rabs (y t0 j - y t0 j) <= 0) by (intro j; rewrite Rminus_diag_eq, Rabs_R0 by reflexivity; lra).
  rewrite <- Esg in HL, Hs, Hk, Hdir.
  destruct (C112_dopri5 eps He I W idx f abs rel max_dt Ha Hr rs g fuel c w (y t0) t0 tend dt tr r Hc Hdt0 Hag E) as ((l & El) & Hl & _).
  rewrite El in *.
  destruct (good_error eps He rk_dopri5 f t0 tend dt Hdir (y t0) L 1 K HL0 HK0 HL y Hs Hk 0 (Rle_refl 0) Hy idx abs rel max_dt l Hm0
    ltac:(lra) Hl x' t' Hin) as [HT HB].
  eapply Rle_trans; [apply HB|]. apply Hb.
  - pose proof (Rabs_pos max_dt). lra.
  - split; [apply Rabs_pos|]. rewrite Esg in *. apply (span_width eps t0 tend sg); auto.
Qed.
Print Assumptions C115_dopri5_converges.

(** Example: x' = x, solution exp, on [0,1]. *)
Lemma exp_problem : let f := fun (x : unit -> R) (_ : R) => x in let y := fun t (_ : unit) => exp t in
  lipschitz (span 0 0 1 1) 1 f /\ solution (span 0 0 1 1) f y /\ smooth (span 0 0 1 1) 3 f y.
Proof.
  cbv zeta. split; [|split].
  - intros x z t D _ H i. rewrite Rmult_1_l. apply H.
  - intros t i _. apply derivable_pt_lim_exp.
  - intros s t i [A1 A2] [B1 B2].
    assert (G : forall a b, 0 <= a -> a < b -> b <= 1 -> Rabs (exp b - exp a) <= 3 * Rabs (b - a)).
    { intros a b Ha Hab Hb.
      destruct (MVT_cor2 exp exp a b Hab (fun c _ => derivable_pt_lim_exp c)) as (c & E & Hc). rewrite E, Rabs_mult.
      apply Rmult_le_compat_r; [apply Rabs_pos|]. rewrite Rabs_pos_eq by (left; apply exp_pos).
      eapply Rle_trans; [left; apply (exp_increasing c 1); lra|apply exp_le_3]. }
    destruct (Rtotal_order s t) as [C|[->|C]].
    + rewrite <- (Rabs_Ropp (exp s - exp t)), <- (Rabs_Ropp (s - t)), !Ropp_minus_distr. apply G; lra.
    + rewrite !Rminus_diag_eq, Rabs_R0 by reflexivity. lra.
    + apply G; lra.
Qed.

Example C115_example : exists d, 0 < d /\ forall dt, 0 < dt <= d -> forall s,
  exists fuel tr r, integrate_const (N := RNum 0) rec_obs (plain_step (rk_do_step (N := RNum 0) (fun (x : unit -> R) (_ : R) => x) rk_rk4))
     fuel s tt (fun _ => exp 0) 0 1 dt = (tr, Ok r)
  /\ forall x' t', In (x', t') (obs_of tr) -> Rabs (x' tt - exp t') <= 1 / 1000.
Proof.
  destruct exp_problem as (H1 & H2 & H3).
  destruct (C115_const_converges 0 (Rle_refl 0) unit unit rk_rk4 _ 0 1 1 1 3 _ (or_introl eq_refl) ltac:(lra) ltac:(lra) ltac:(lra)
    H1 H2 H3 (1 / 1000) ltac:(lra)) as (d & Hd & Hr).
  exists d. split; [exact Hd|]. intros dt Hdt s. destruct (Hr dt ltac:(lra)) as [Ex Al].
  destruct (Ex s tt) as (fuel & tr & r & E). exists fuel, tr, r. split; [exact E|].
  intros x' t' Hin. exact (Al fuel s tt tr r (or_introl E) x' t' Hin tt).
Qed.

Example C114_example : forall s, let f := fun (x : unit -> R) (_ : R) => x in exists fuel tr1 tr2 r1 r2,
  integrate_const (N := RNum 0) rec_obs (plain_step (rk_do_step (N := RNum 0) f rk_rk4)) fuel s tt (fun _ => 1) 0%R 1%R (1/2)%R = (tr1, Ok r1)
  /\ integrate_const (N := RNum 0) rec_obs (plain_step (rk_do_step (N := RNum 0) f rk_rk4)) fuel s tt (fun _ => 3) 0%R 1%R (1/2)%R = (tr2, Ok r2)
  /\ Forall2 (fun p q => snd p = snd q /\ forall j, Rabs (fst p j - fst q j)
      <= exp (growth (tab_of (N := RNum 0) rk_rk4) 1 1 * Rabs (snd p - 0)) * 2) (obs_of tr1) (obs_of tr2).
Proof.
  intros s f. destruct (const_count 0 0 1 (1/2) ltac:(lra)) as [m Hm].
  destruct (const_pure (N := RNum 0) (rk_do_step (N := RNum 0) f rk_rk4) (Datatypes.S m) s tt (fun _ => 1) 0 1 (1/2)%R m Hm (Nat.lt_succ_diag_r m)) as (tr1 & E1 & _).
  destruct (const_pure (N := RNum 0) (rk_do_step (N := RNum 0) f rk_rk4) (Datatypes.S m) s tt (fun _ => 3) 0 1 (1/2)%R m Hm (Nat.lt_succ_diag_r m)) as (tr2 & E2 & _).
  do 5 eexists. split; [exact E1|]. split; [exact E2|].
  assert (Ed : dir (1 / 2) = 1) by (destruct (dir_cases (1 / 2)) as [[_ E]|[E _]]; [exact E|lra]).
  refine (C114_const 0 (Rle_refl 0) unit unit rk_rk4 f 0 1 (1/2) 1 1 2 ltac:(lra) ltac:(rewrite Ed; lra) ltac:(lra)
    ltac:(rewrite Rabs_pos_eq; lra) ltac:(lra) _ _ s s tt tt _ _ tr1 tr2 _ _ _ E1 E2).
  - rewrite Ed. apply exp_problem.
  - intros j. rewrite Rabs_left; lra.
Qed.

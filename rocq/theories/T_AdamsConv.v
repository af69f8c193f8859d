(** C126: the Adams-Bashforth and Adams-Bashforth-Moulton steppers converge with order k on nonlinear systems. *)
From Coq Require Import List Arith Bool ZArith QArith Reals Lia Lra FunctionalExtensionality.
From Verif Require Import M_Num M_Sign M_Run M_Plain M_RK M_Midpoint M_Adams S_Grid S_Real S_RK S_Conv S_BSeries S_Adams S_Taylor S_AdamsConv X_Inst
  P_Run P_R P_Plain P_PlainR P_Poly P_RK P_RKOrder P_RKNamed P_RKAll P_RKMem P_Adams P_AdamsR P_Conv P_ConvRun P_ConvOrd P_Taylor P_AdamsConv T_Butcher.
Import ListNotations.
Local Open Scope R_scope.

(** One starting step. *)
Lemma start_error (eps : R) (I : Type) (T : R -> Prop) (f : (I -> R) -> R -> (I -> R)) n (y : R -> I -> R) (L H E : R) p :
  (forall s u c, T s -> T u -> 0 <= c <= 1 -> T (s + c * (u - s))) -> 0 <= L -> 0 <= H -> lipschitz T L f ->
  consistent (tab_of (N := RNum eps) n) f y T H E p ->
  forall is io x t h b is' out, 0 <= b -> T t -> T (t + h) -> Rabs h <= H -> (forall j, Rabs (x j - y t j) <= b) ->
  rk_istep (N := RNum eps) f n is io x (f x t) t h = Ok (is', out) ->
  forall i, Rabs (out i - y (t + h) i) <= (1 + Rabs h * growth (tab_of (N := RNum eps) n) L H) * b + E * Rabs h ^ S p.
Proof.
  intros Tc HL HH Lip Con is io x t h b is' out Hb Ht Hth Hh Hx Ei. 
  apply (local_ord eps n T Tc f L H E p HL HH Lip y Con x t h b out Hb Ht Hth Hh Hx).
  unfold rk_istep in Ei. injection Ei as _ <-.
  pose proof (named_step eps f n (mkAlias io false) t h (upd (upd is LIn x) LDx (f x t))) as R1. rewrite run_step_exec in R1.
  set (m0 := upd (upd is LIn x) LDx (f x t)) in *.
  pose proof (named_memory (RNum eps) I f (mkAlias io false) n t h (wr (mkAlias io false) m0 LDx (f (m0 LIn) t)) m0) as Mm.
  specialize (Mm eq_refl eq_refl). exact (eq_ind _ (fun v => rk_result eps (tab_of n) f x t h v) R1 _ (proj1 Mm)).
Qed.

(** Both drivers perform the commands of the grid on [m] steps that stay within the span. *)
Lemma drivers (eps : R) (S W X : Type) (stp : S -> W -> X -> R -> R -> M (ev X R) (S * W * X)) (Inv : nat -> S -> X -> Prop) (t0 tend dt : R) fuel s w x tr :
  0 <= eps -> 0 <= dir dt * (tend - t0) ->
  (exists r, integrate_const (N := RNum eps) rec_obs stp fuel s w x t0 tend dt = (tr, Ok r)) \/
  (exists r n, integrate_n_steps (N := RNum eps) rec_obs stp s w x t0 dt n = (tr, r) /\ dir dt * (t0 + INR n * dt - tend) <= eps) ->
  (forall k s w x, span eps t0 tend (dir dt) (t0 + INR k * dt) -> span eps t0 tend (dir dt) (t0 + INR (Datatypes.S k) * dt) -> Inv k s x ->
     forall tr r, stp s w x (t0 + INR k * dt) dt = (tr, r) -> obs_of tr = [] /\ forall s' w' x', r = Ok (s', w', x') -> Inv (Datatypes.S k) s' x') ->
  Inv O s x -> forall x' t', In (x', t') (obs_of tr) -> exists k s', t' = t0 + INR k * dt /\ Inv k s' x'.
Proof.
  intros He Hdir Hrun Hst HI x' t' Hin.
  assert (G : exists m tr1 r1, (m = O \/ dir dt * (t0 + INR m * dt - tend) <= eps) /\
    S_Grid.exec (N := RNum eps) rec_obs stp (grid_schedule (N := RNum eps) t0 dt m) s w x = (tr1, r1) /\ obs_of tr1 = obs_of tr).
  { destruct Hrun as [[[r0 m] E]|(r & n & E & Hn)].
    - pose proof (integrate_const_ok_inv (N := RNum eps) _ _ _ _ _ _ _ _ _ _ _ _ E) as [Hf Hk].
      rewrite (integrate_const_exec (N := RNum eps) _ _ _ _ _ _ _ _ _ _ Hf Hk) in E.
      destruct (S_Grid.exec _ _ _ s w x) as [tr1 r1] eqn:Ex. exists m, tr1, r1. split; [|split; [exact Ex|]].
      + destruct m as [|m]; [now left|right]. apply (const_count_before eps t0 tend dt (Datatypes.S m) (Datatypes.S m) Hf). lia.
      + unfold bind, ret in E. destruct r1 as [[[s1 w1] x1]| | |]; [rewrite app_nil_r in E| | |]; apply (f_equal fst) in E; cbn [fst] in E; now rewrite E.
    - rewrite (integrate_n_steps_exec (N := RNum eps)) in E.
      destruct (S_Grid.exec _ _ _ s w x) as [tr1 r1] eqn:Ex. exists n, tr1, r1. split; [now right|]. split; [exact Ex|].
      unfold bind, ret in E. destruct r1 as [[[s1 w1] x1]| | |]; [rewrite app_nil_r in E| | |]; apply (f_equal fst) in E; cbn [fst] in E; now rewrite E. }
  destruct G as (m & tr1 & r1 & Hm & Ex & Ho). rewrite <- Ho in Hin.
  pose proof (grid_span eps He t0 tend dt Hdir m Hm) as GS.
  destruct (sched_inv (N := RNum eps) stp t0 dt m Inv) with (m := m) (k := O) (s := s) (w := w) (x := x) (tr := tr1) (r := r1) (x' := x') (t' := t')
    as (j & s' & Hj & Et & HJ); [|lia|exact HI|exact Ex|exact Hin|].
  - intros k s1 w1 x1 Hk H1 tr' r' Es. pose proof (grid_R eps t0 dt k) as Eg.
    apply (Hst k s1 w1 x1 (GS k ltac:(lia)) (GS (Datatypes.S k) ltac:(lia)) H1 tr' r').
    exact (eq_ind _ (fun u => stp s1 w1 x1 u dt = (tr', r')) Es _ Eg).
  - exists j, s'. split; [rewrite Et; apply grid_R|exact HJ].
Qed.

Lemma bnd_final (K : nat) (E0 D G C u a : R) k : 0 <= E0 -> a = INR k * u ->
  lmm_bound G D (INR (Nat.min k (K - 1)) * E0) C (INR k * u) <= lmm_bound G D (INR (K - 1) * E0) C a.
Proof.
  intros HE ->. unfold lmm_bound. apply Rmult_le_compat_l; [left; apply exp_pos|].
  assert (INR (Nat.min k (K - 1)) * E0 <= INR (K - 1) * E0) by (apply Rmult_le_compat_r; [exact HE|apply le_INR; lia]). lra.
Qed.
Lemma grid_dist t0 dt k : Rabs (t0 + INR k * dt - t0) = INR k * Rabs dt.
Proof. replace (t0 + INR k * dt - t0) with (INR k * dt) by ring. rewrite Rabs_mult, (Rabs_pos_eq (INR k)) by apply pos_INR. reflexivity. Qed.

(** A fresh or reset adams_bashforth< k > (k <= 8) started by a Runge-Kutta stepper of order p (consistent along the solution):
    the observed states of integrate_const and integrate_n_steps are within
    exp(G a) (D + (k-1) E |dt|^(p+1) + M c |dt|^k a), a = |t'-t0|, of the solution. *)
Theorem C126_adams_bashforth : forall (eps : R) (I W : Type) (K : nat) n (f : (I -> R) -> R -> (I -> R)) (L M H E D t0 tend dt : R)
    (Y : nat -> R -> I -> R) (s : ab (RNum eps) I (rkmem (RNum eps) I)) (w : W) (x : I -> R) fuel tr,
  let T := span eps t0 tend (dir dt) in
  let stp := res_step (ab_do_step (N := RNum eps) K f (rk_istep (N := RNum eps) f n) false true) in
  (1 <= K <= 8)%nat -> 0 <= eps -> 0 <= dir dt * (tend - t0) -> 0 <= L -> 0 <= M -> 0 <= D -> 0 <= E -> Rabs dt <= H ->
  lipschitz T L f -> derivatives T (S K) Y -> (forall t i, T t -> Y 1%nat t i = f (Y 0%nat t) t i) -> deriv_bound T (S K) M Y ->
  consistent (tab_of (N := RNum eps) n) f (Y 0%nat) T H E (rk_order n) ->
  rb_wf K (ab_buf s) -> ab_init s = O -> (forall i, Rabs (x i - Y 0%nat t0 i) <= D) ->
  (exists r, integrate_const (N := RNum eps) rec_obs stp fuel s w x t0 tend dt = (tr, Ok r)) \/
  (exists r n, integrate_n_steps (N := RNum eps) rec_obs stp s w x t0 dt n = (tr, r) /\ dir dt * (t0 + INR n * dt - tend) <= eps) ->
  let wB := ab_coef (N := RNum eps) K in
  forall x' t', In (x', t') (obs_of tr) -> forall i, Rabs (x' i - Y 0%nat t' i) <=
    lmm_bound (Rmax (growth (tab_of (N := RNum eps) n) L H) (rule_size wB * L)) D (INR (K - 1) * (E * Rabs dt ^ S (rk_order n)))
      (M * rule_const wB (ab_nodes K) K * Rabs dt ^ K) (Rabs (t' - t0)).
Proof.
  intros eps I W K n f L M H E D t0 tend dt Y s w x fuel tr T stp HK He Hdir HL HM HD HE Hh Lip Der Sol Bnd Con Wf Hi Hx Hrun wB x' t' Hin i.
  pose proof (Rabs_pos dt) as Pd. assert (HH : 0 <= H) by lra.
  pose proof (span_conv eps t0 tend (dir dt)) as Tc.
  set (La := growth (tab_of (N := RNum eps) n) L H). set (E0 := E * Rabs dt ^ S (rk_order n)).
  assert (HE0 : 0 <= E0) by (apply Rmult_le_pos; [exact HE|now apply pow_le]).
  assert (HLa : 0 <= La) by (now apply (growth_nonneg eps n)).
  pose (istep := fun g : (I -> R) -> R -> (I -> R) => rk_istep (N := RNum eps) (I := I) g n).
  destruct (drivers eps _ W _ stp (ab_inv eps T K L D Y t0 dt E0 (g_ab eps K L La) (c_ab eps K M)) t0 tend dt fuel s w x tr He Hdir Hrun)
    with (x' := x') (t' := t') as (k & s' & Et & HJ); [| |exact Hin|].
  - intros k s1 w1 x1 T1 T2 H1 tr' r' Es. unfold stp, res_step in Es. injection Es as <- <-. split; [reflexivity|].
    intros s2 w2 x2 E2. destruct (ab_do_step (N := RNum eps) K f (rk_istep (N := RNum eps) f n) false true s1 x1 (t0 + INR k * dt)%R dt) as [[[s3 x3] lg]| | |] eqn:Ea; cbn in E2; try discriminate E2.
    injection E2 as <- _ <-.
    apply (ab_inv_step eps T Tc f K HK L M D HL HM HD Lip Y Der Sol Bnd t0 dt istep La E0 HLa HE0) with (io := true) (log := lg) (s := s1) (x := x1); auto.
    intros is io y t b is' out Pb Tt Tth Hy Ei. exact (start_error eps I T f n (Y 0%nat) L H E _ Tc HL HH Lip Con is io y t dt b is' out Pb Tt Tth Hh Hy Ei).
  - now apply (ab_inv_start eps T K HK L D).
  - subst t'. destruct HJ as (l & _ & _ & _ & B). eapply Rle_trans; [apply B|]. unfold bnd. apply bnd_final; [exact HE0|]. apply grid_dist.
Qed.
Print Assumptions C126_adams_bashforth.

(** adams_bashforth_moulton< k >: the predictor is corrected once; the corrector of k points has order k. *)
Theorem C126_adams_bashforth_moulton : forall (eps : R) (I W : Type) (K : nat) n (f : (I -> R) -> R -> (I -> R)) (L M H E D t0 tend dt : R)
    (Y : nat -> R -> I -> R) (s : abm (RNum eps) I (rkmem (RNum eps) I)) (w : W) (x : I -> R) fuel tr,
  let T := span eps t0 tend (dir dt) in
  let stp := res_step (abm_do_step (N := RNum eps) K f (rk_istep (N := RNum eps) f n) false true) in
  (1 <= K <= 8)%nat -> 0 <= eps -> 0 <= dir dt * (tend - t0) -> 0 <= L -> 0 <= M -> 0 <= D -> 0 <= E -> Rabs dt <= H ->
  lipschitz T L f -> derivatives T (S K) Y -> (forall t i, T t -> Y 1%nat t i = f (Y 0%nat t) t i) -> deriv_bound T (S K) M Y ->
  consistent (tab_of (N := RNum eps) n) f (Y 0%nat) T H E (rk_order n) ->
  rb_wf K (ab_buf (abm_ab s)) -> ab_init (abm_ab s) = O -> (forall i, Rabs (x i - Y 0%nat t0 i) <= D) ->
  (exists r, integrate_const (N := RNum eps) rec_obs stp fuel s w x t0 tend dt = (tr, Ok r)) \/
  (exists r n, integrate_n_steps (N := RNum eps) rec_obs stp s w x t0 dt n = (tr, r) /\ dir dt * (t0 + INR n * dt - tend) <= eps) ->
  let wB := ab_coef (N := RNum eps) K in
  let wM := am_coef (N := RNum eps) K in
  forall x' t', In (x', t') (obs_of tr) -> forall i, Rabs (x' i - Y 0%nat t' i) <=
    lmm_bound (Rmax (growth (tab_of (N := RNum eps) n) L H) (rule_size wM * L * (1 + H * (rule_size wB * L)))) D (INR (K - 1) * (E * Rabs dt ^ S (rk_order n)))
      (M * (rule_const wM (am_nodes K) K + H * (rule_size wM * L) * rule_const wB (ab_nodes K) K) * Rabs dt ^ K) (Rabs (t' - t0)).
Proof.
  intros eps I W K n f L M H E D t0 tend dt Y s w x fuel tr T stp HK He Hdir HL HM HD HE Hh Lip Der Sol Bnd Con Wf Hi Hx Hrun wB wM x' t' Hin i.
  pose proof (Rabs_pos dt) as Pd. assert (HH : 0 <= H) by lra.
  pose proof (span_conv eps t0 tend (dir dt)) as Tc.
  set (La := growth (tab_of (N := RNum eps) n) L H). set (E0 := E * Rabs dt ^ S (rk_order n)).
  assert (HE0 : 0 <= E0) by (apply Rmult_le_pos; [exact HE|now apply pow_le]).
  assert (HLa : 0 <= La) by (now apply (growth_nonneg eps n)).
  pose (istep := fun g : (I -> R) -> R -> (I -> R) => rk_istep (N := RNum eps) (I := I) g n).
  destruct (drivers eps _ W _ stp (fun k s x => ab_inv eps T K L D Y t0 dt E0 (g_abm eps K L H La) (c_abm eps K L M H) k (abm_ab s) x) t0 tend dt fuel s w x tr He Hdir Hrun)
    with (x' := x') (t' := t') as (k & s' & Et & HJ); [| |exact Hin|].
  - intros k s1 w1 x1 T1 T2 H1 tr' r' Es. unfold stp, res_step in Es. injection Es as <- <-. split; [reflexivity|].
    intros s2 w2 x2 E2. destruct (abm_do_step (N := RNum eps) K f (rk_istep (N := RNum eps) f n) false true s1 x1 (t0 + INR k * dt)%R dt) as [[[s3 x3] lg]| | |] eqn:Ea; cbn in E2; try discriminate E2.
    injection E2 as <- _ <-.
    apply (abm_inv_step eps T Tc f K HK L M H D HL HM HD Lip Y Der Sol Bnd t0 dt Hh istep La E0 HLa HE0) with (io := true) (log := lg) (s := s1) (x := x1); auto.
    intros is io y t b is' out Pb Tt Tth Hy Ei. exact (start_error eps I T f n (Y 0%nat) L H E _ Tc HL HH Lip Con is io y t dt b is' out Pb Tt Tth Hh Hy Ei).
  - now apply (ab_inv_start eps T K HK L D).
  - subst t'. destruct HJ as (l & _ & _ & _ & B). eapply Rle_trans; [apply B|]. unfold bnd. apply bnd_final; [exact HE0|]. apply grid_dist.
Qed.
Print Assumptions C126_adams_bashforth_moulton.

(** Systems with derivatives bounded by M along the solution, started on the solution: order k in the step for every
    starting stepper with order() >= k-1, with a constant that depends on k, the starting stepper, L, M and the largest step H only. *)
Lemma bound_simple (G C E0 c u a : R) (q K : nat) : 0 <= u -> 0 <= a -> G <= C -> E0 <= C -> 0 <= c <= C -> 0 <= E0 ->
  lmm_bound G 0 (E0 * u ^ q) (c * u ^ K) a <= exp (C * a) * (C * (u ^ q + a * u ^ K)).
Proof.
  intros Hu Ha HG HE Hc HE0. unfold lmm_bound. pose proof (pow_le u q Hu) as P1. pose proof (pow_le u K Hu) as P2.
  assert (Q1 : E0 * u ^ q <= C * u ^ q) by now apply Rmult_le_compat_r.
  assert (P3 : 0 <= u ^ K * a) by now apply Rmult_le_pos.
  assert (Q2 : c * (u ^ K * a) <= C * (u ^ K * a)) by (apply Rmult_le_compat_r; [exact P3|apply Hc]).
  assert (R1 : 0 <= E0 * u ^ q) by now apply Rmult_le_pos. assert (R2 : 0 <= c * (u ^ K * a)) by (apply Rmult_le_pos; [apply Hc|exact P3]).
  apply Rmult_le_compat; [left; apply exp_pos|lra| |lra].
  destruct (Rle_lt_or_eq_dec (G * a) (C * a)) as [Q| ->]; [now apply Rmult_le_compat_r|left; now apply exp_increasing|apply Rle_refl].
Qed.

Theorem C126_order : forall (eps : R) (I : Type) (K : nat) n (L M H : R), (1 <= K <= 8)%nat -> 0 <= eps -> 0 <= L -> 0 <= M -> 0 <= H ->
  exists C, 0 <= C /\ forall (W : Type) (f : (I -> R) -> R -> (I -> R)) F (Y : nat -> R -> I -> R) (t0 tend dt : R),
  let T := span eps t0 tend (dir dt) in
  0 <= dir dt * (tend - t0) -> Rabs dt <= H -> lipschitz T L f ->
  derivatives T (S K) Y -> (forall t i, T t -> Y 1%nat t i = f (Y 0%nat t) t i) -> deriv_bound T (S K) M Y ->
  taylor (rk_order n) M (fun v => exists t, T t /\ v = point (Y 0%nat t) t) (autonomous f) F ->
  forall (w : W) fuel tr,
  (exists s, rb_wf K (ab_buf s) /\ ab_init s = O /\
     let stp := res_step (ab_do_step (N := RNum eps) K f (rk_istep (N := RNum eps) f n) false true) in
     ((exists r, integrate_const (N := RNum eps) rec_obs stp fuel s w (Y 0%nat t0) t0 tend dt = (tr, Ok r)) \/
      (exists r n, integrate_n_steps (N := RNum eps) rec_obs stp s w (Y 0%nat t0) t0 dt n = (tr, r) /\ dir dt * (t0 + INR n * dt - tend) <= eps)))
  \/ (exists s, rb_wf K (ab_buf (abm_ab s)) /\ ab_init (abm_ab s) = O /\
     let stp := res_step (abm_do_step (N := RNum eps) K f (rk_istep (N := RNum eps) f n) false true) in
     ((exists r, integrate_const (N := RNum eps) rec_obs stp fuel s w (Y 0%nat t0) t0 tend dt = (tr, Ok r)) \/
      (exists r n, integrate_n_steps (N := RNum eps) rec_obs stp s w (Y 0%nat t0) t0 dt n = (tr, r) /\ dir dt * (t0 + INR n * dt - tend) <= eps))) ->
  forall x' t', In (x', t') (obs_of tr) -> forall i,
  Rabs (x' i - Y 0%nat t' i) <= exp (C * Rabs (t' - t0)) * (C * (Rabs dt ^ S (rk_order n) + Rabs (t' - t0) * Rabs dt ^ K)).
Proof.
  intros eps I K n L M H HK He HL HM HH.
  destruct (C120_step eps n I M H HM HH) as (E & PE & B).
  set (tb := tab_of (N := RNum eps) n). set (wB := ab_coef (N := RNum eps) K). set (wM := am_coef (N := RNum eps) K).
  set (G1 := Rmax (growth tb L H) (rule_size wB * L)). set (G2 := Rmax (growth tb L H) (rule_size wM * L * (1 + H * (rule_size wB * L)))).
  set (C1 := M * rule_const wB (ab_nodes K) K). set (C2 := M * (rule_const wM (am_nodes K) K + H * (rule_size wM * L) * rule_const wB (ab_nodes K) K)).
  set (E0 := INR (K - 1) * E).
  assert (P0 : 0 <= E0) by (apply Rmult_le_pos; [apply pos_INR|exact PE]).
  assert (P1 : 0 <= C1) by (apply Rmult_le_pos; [exact HM|apply rule_const_nonneg]).
  assert (P2 : 0 <= C2).
  { apply Rmult_le_pos; [exact HM|]. pose proof (rule_const_nonneg wM (am_nodes K) K). pose proof (rule_const_nonneg wB (ab_nodes K) K) as Q.
    pose proof (rule_size_nonneg wM) as Q2. assert (0 <= H * (rule_size wM * L) * rule_const wB (ab_nodes K) K); [|lra].
    apply Rmult_le_pos; [apply Rmult_le_pos; [exact HH|now apply Rmult_le_pos]|exact Q]. }
  exists (Rmax E0 (Rmax (Rmax G1 G2) (Rmax C1 C2))). set (C := Rmax E0 _).
  assert (L0 : E0 <= C) by apply Rmax_l.
  assert (L1 : G1 <= C) by (eapply Rle_trans; [|apply Rmax_r]; eapply Rle_trans; [|apply Rmax_l]; apply Rmax_l).
  assert (L2 : G2 <= C) by (eapply Rle_trans; [|apply Rmax_r]; eapply Rle_trans; [|apply Rmax_l]; apply Rmax_r).
  assert (L3 : C1 <= C) by (eapply Rle_trans; [|apply Rmax_r]; eapply Rle_trans; [|apply Rmax_r]; apply Rmax_l).
  assert (L4 : C2 <= C) by (eapply Rle_trans; [|apply Rmax_r]; eapply Rle_trans; [|apply Rmax_r]; apply Rmax_r).
  clearbody C. split; [lra|].
  intros W f F Y t0 tend dt T Hdir Hh Lip Der Sol Bnd Tay w fuel tr Hrun x' t' Hin i.
  assert (S1 : solution T f (Y 0%nat)). { intros t j Ht. rewrite <- (Sol t j Ht). apply (Der 0%nat t j); [lia|exact Ht]. }
  pose proof (B f (Y 0%nat) F T (span_conv eps t0 tend (dir dt)) Tay S1) as Con.
  assert (Z : forall j, Rabs (Y 0%nat t0 j - Y 0%nat t0 j) <= 0) by (intro j; rewrite Rminus_diag_eq, Rabs_R0 by reflexivity; lra).
  destruct Hrun as [(s & Wf & Hi & Hrun)|(s & Wf & Hi & Hrun)].
  - pose proof (C126_adams_bashforth eps I W K n f L M H E 0 t0 tend dt Y s w (Y 0%nat t0) fuel tr HK He Hdir HL HM (Rle_refl 0) PE Hh
      Lip Der Sol Bnd Con Wf Hi Z Hrun x' t' Hin i) as Q. fold wB tb G1 in Q. fold C1 in Q.
    eapply Rle_trans; [exact Q|].
    replace (INR (K - 1) * (E * Rabs dt ^ S (rk_order n))) with (E0 * Rabs dt ^ S (rk_order n)) by (unfold E0; ring).
    apply bound_simple; auto using Rabs_pos.
  - pose proof (C126_adams_bashforth_moulton eps I W K n f L M H E 0 t0 tend dt Y s w (Y 0%nat t0) fuel tr HK He Hdir HL HM (Rle_refl 0) PE Hh
      Lip Der Sol Bnd Con Wf Hi Z Hrun x' t' Hin i) as Q. cbv zeta in Q. fold wB wM tb in Q. fold G2 C2 in Q.
    eapply Rle_trans; [exact Q|].
    replace (INR (K - 1) * (E * Rabs dt ^ S (rk_order n))) with (E0 * Rabs dt ^ S (rk_order n)) by (unfold E0; ring).
    apply bound_simple; auto using Rabs_pos.
Qed.
Print Assumptions C126_order.

(** ** Example: x' = sin x from x(0) = pi/2, solution 2 atan(exp t), with the two-step methods started by runge_kutta4. *)
Definition sin_Y (k : nat) (t : R) (_ : unit) : R :=
  let y := sin_y t tt in
  match k with 0%nat => y | 1%nat => sin y | 2%nat => cos y * sin y | _ => (- sin y * sin y) * sin y + cos y * (cos y * sin y) end.
Lemma sin_Y0 : sin_Y 0%nat = sin_y.
Proof. extensionality t. extensionality i. now destruct i. Qed.
Lemma sin_Y_der T : derivatives T 3 sin_Y.
Proof.
  intros k t i Hk _. pose proof (sin_solution (fun _ => True) t tt Logic.I) as D0. cbv beta in D0. unfold sin_f in D0.
  assert (D1 : derivable_pt_lim (fun s => sin (sin_y s tt)) t (cos (sin_y t tt) * sin (sin_y t tt)))
    by (apply (derivable_pt_lim_comp (fun s => sin_y s tt) sin); [exact D0|apply derivable_pt_lim_sin]).
  destruct k as [|[|[|k]]]; [exact D0|exact D1| |lia]. cbn [sin_Y].
  apply (derivable_pt_lim_mult (fun s => cos (sin_y s tt)) (fun s => sin (sin_y s tt))); [|exact D1].
  apply (derivable_pt_lim_comp (fun s => sin_y s tt) cos); [exact D0|apply derivable_pt_lim_cos].
Qed.
Lemma sin_Y_bnd T : deriv_bound T 3 1 sin_Y.
Proof.
  intros t i _. cbn [sin_Y]. set (y := sin_y t tt). replace (- sin y * sin y * sin y + cos y * (cos y * sin y)) with (cos (2 * y) * sin y) by (rewrite cos_2a; ring).
  rewrite Rabs_mult. pose proof (COS_bound (2 * y)). pose proof (SIN_bound y).
  rewrite <- (Rmult_1_r 1). apply Rmult_le_compat; try apply Rabs_pos; apply Rabs_le; lra.
Qed.

Example C126_example : exists C, 0 <= C /\ forall dt (b : list (unit -> R)) m (z w : unit) z2 z3 n tr1 r1 tr2 r2, 0 < dt <= 1 -> length b = 2%nat -> INR n * dt <= 1 ->
  let s := mkAb (N := RNum 0) (mkRb b 0) 0 m in
  integrate_n_steps (N := RNum 0) rec_obs (res_step (ab_do_step (N := RNum 0) 2 sin_f (rk_istep (N := RNum 0) sin_f rk_rk4) false true)) s w (sin_y 0) 0%R dt n = (tr1, r1) ->
  integrate_n_steps (N := RNum 0) rec_obs (res_step (abm_do_step (N := RNum 0) 2 sin_f (rk_istep (N := RNum 0) sin_f rk_rk4) false true)) (mkAbm (N := RNum 0) s z2 z3) z (sin_y 0) 0%R dt n = (tr2, r2) ->
  forall (x' : unit -> R) t', In (x', t') (obs_of tr1) \/ In (x', t') (obs_of tr2) -> 0 <= t' <= 1 -> Rabs (x' tt - 2 * atan (exp t')) <= C * dt ^ 2.
Proof.
  destruct (C126_order 0 unit 2 rk_rk4 1 1 1 ltac:(lia) (Rle_refl 0) ltac:(lra) ltac:(lra) ltac:(lra)) as (C & PC & B).
  exists (exp C * (C * 2)). split; [apply Rmult_le_pos; [left; apply exp_pos|lra]|].
  intros dt b m z w z2 z3 n tr1 r1 tr2 r2 Hdt Hb Hn s E1 E2 x' t' Hin Ht.
  assert (Ed : dir dt = 1) by (destruct (dir_cases dt) as [[_ ->]|[Q _]]; [reflexivity|lra]).
  assert (Ea : Rabs dt = dt) by (apply Rabs_pos_eq; lra).
  assert (Sol : forall T t i, T t -> sin_Y 1%nat t i = sin_f (sin_Y 0%nat t) t i) by (intros T t [] _; reflexivity).
  assert (Wf : rb_wf 2 (ab_buf (N := RNum 0) s)) by (split; [exact Hb|cbn; lia]).
  assert (Bt : forall W (w : W) tr, (exists s, rb_wf 2 (ab_buf s) /\ ab_init s = O /\
     let stp := res_step (ab_do_step (N := RNum 0) 2 sin_f (rk_istep (N := RNum 0) sin_f rk_rk4) false true) in
     ((exists r, integrate_const (N := RNum 0) rec_obs stp O s w (sin_Y 0%nat 0) 0%R 1%R dt = (tr, Ok r)) \/
      (exists r n, integrate_n_steps (N := RNum 0) rec_obs stp s w (sin_Y 0%nat 0) 0%R dt n = (tr, r) /\ dir dt * (0 + INR n * dt - 1) <= 0)))
    \/ (exists s, rb_wf 2 (ab_buf (abm_ab s)) /\ ab_init (abm_ab s) = O /\
     let stp := res_step (abm_do_step (N := RNum 0) 2 sin_f (rk_istep (N := RNum 0) sin_f rk_rk4) false true) in
     ((exists r, integrate_const (N := RNum 0) rec_obs stp O s w (sin_Y 0%nat 0) 0%R 1%R dt = (tr, Ok r)) \/
      (exists r n, integrate_n_steps (N := RNum 0) rec_obs stp s w (sin_Y 0%nat 0) 0%R dt n = (tr, r) /\ dir dt * (0 + INR n * dt - 1) <= 0))) ->
    In (x', t') (obs_of tr) -> Rabs (x' tt - 2 * atan (exp t')) <= exp C * (C * 2) * dt ^ 2).
  { intros W0 w0 tr Hr Hi.
    pose proof (B W0 sin_f sin_D sin_Y 0 1 dt) as Q. cbv zeta in Q. rewrite Ea in Q.
    specialize (Q ltac:(rewrite Ed; lra) ltac:(lra) (sin_lipschitz _) (sin_Y_der _) (Sol _) (sin_Y_bnd _) (sin_taylor _ _) w0 O tr Hr x' t' Hi tt).
    eapply Rle_trans; [exact Q|]. rewrite Rminus_0_r, (Rabs_pos_eq t') by lra.
    assert (P2 : 0 <= dt ^ 2) by (apply pow_le; lra). assert (P3 : dt ^ 2 * dt ^ 3 <= dt ^ 2 * 1).
    { apply Rmult_le_compat_l; [exact P2|]. rewrite <- (pow1 3). apply pow_incr. lra. }
    assert (P4 : t' * dt ^ 2 <= 1 * dt ^ 2) by (apply Rmult_le_compat_r; lra).
    replace (dt ^ S (rk_order rk_rk4)) with (dt ^ 2 * dt ^ 3) by (cbn [rk_order pow]; ring).
    replace (exp C * (C * 2) * dt ^ 2) with (exp C * (C * (2 * dt ^ 2))) by ring.
    assert (P5 : 0 <= dt ^ 2 * dt ^ 3 + t' * dt ^ 2) by (apply Rplus_le_le_0_compat; apply Rmult_le_pos; try apply pow_le; lra).
    apply Rmult_le_compat; [left; apply exp_pos|now apply Rmult_le_pos| |apply Rmult_le_compat_l; lra].
    assert (P6 : C * t' <= C * 1) by (apply Rmult_le_compat_l; lra). rewrite Rmult_1_r in P6.
    destruct P6 as [P6| ->]; [left; now apply exp_increasing|apply Rle_refl]. }
  destruct Hin as [Hi|Hi].
  - apply (Bt _ w tr1); [|exact Hi]. left. exists s. split; [exact Wf|]. split; [reflexivity|]. right. exists r1, n. split; [exact E1|rewrite Ed; lra].
  - apply (Bt _ z tr2); [|exact Hi]. right. exists (mkAbm (N := RNum 0) s z2 z3). split; [exact Wf|]. split; [reflexivity|]. right. exists r2, n. split; [exact E2|rewrite Ed; lra].
Qed.

(** Runs of the dense output stepper with dopri5 along a solution. *)
From Coq Require Import List Arith ZArith Reals Lia Lra.
From Verif Require Import M_Num M_Sign M_Run M_Checker M_RK S_RK P_RK M_CtrlRK M_Dense M_DenseRK S_DenseRK S_Grid S_Real S_Dense S_Ctrl S_CtrlRK S_Conv S_BSeries
  P_R P_PlainR P_CtrlRKR P_RKNamed P_RKAll P_Integrate P_DenseRK P_DenseRef P_DenseRKR P_DenseRKX P_Conv P_ConvRun P_ConvOrd P_DenseConv.
Import ListNotations.
Local Open Scope R_scope.

Lemma gronwall_first g C d a b : 0 <= g -> 0 <= C -> 0 <= d -> 0 <= a -> 0 <= b ->
  exp (g * a) * ((1 + b * g) * d + C * b + C * a) <= exp (g * (a + b)) * (d + C * (a + b)).
Proof.
  intros Pg PC Pd Pa Pb. rewrite (Rmult_plus_distr_l g), exp_plus, Rmult_assoc.
  apply Rmult_le_compat_l; [apply Rlt_le, exp_pos|].
  assert (HB : 1 + g * b <= exp (g * b)) by apply exp_ineq1_le.
  assert (P1 : 0 <= g * b) by now apply Rmult_le_pos.
  assert (P2 : 0 <= C * (a + b)) by (apply Rmult_le_pos; lra).
  assert (Q1 : (1 + g * b) * (d + C * (a + b)) <= exp (g * b) * (d + C * (a + b))) by (apply Rmult_le_compat_r; lra).
  assert (Q2 : 0 <= (g * b) * (C * (a + b))) by now apply Rmult_le_pos.
  replace (C * (a + b)) with (C * a + C * b) in * by ring. lra.
Qed.

Lemma between (T : R -> Prop) : (forall s u c, T s -> T u -> 0 <= c <= 1 -> T (s + c * (u - s))) ->
  forall sg a b m, sg = 1 \/ sg = -1 -> T a -> T b -> 0 <= sg * (m - a) -> sg * (m - b) <= 0 -> T m.
Proof.
  intros Tconv sg a b m Hsg Ha Hb H1 H2. destruct (Req_dec a b) as [->|N]; [replace m with b; [exact Hb|]|].
  - destruct Hsg as [-> | ->]; lra.
  - assert (N' : b - a <> 0) by lra.
    replace m with (a + ((m - a) / (b - a)) * (b - a)) by (field; exact N'). apply Tconv; [exact Ha|exact Hb|].
    assert (Ew : (m - a) / (b - a) = (sg * (m - a)) / (sg * (b - a))) by (field; split; [exact N'|destruct Hsg; lra]).
    rewrite Ew. set (w := sg * (b - a)) in *. set (u := sg * (m - a)) in *.
    assert (Pw : 0 < w) by (unfold w, u in *; destruct Hsg as [-> | ->]; destruct (Rtotal_order a b) as [Z|[Z|Z]]; lra).
    split; [apply Rmult_le_pos; [exact H1|apply Rlt_le, Rinv_0_lt_compat, Pw]|].
    apply (Rmult_le_reg_r w); [exact Pw|]. unfold Rdiv. rewrite Rmult_assoc, Rinv_l, Rmult_1_l, Rmult_1_r by lra. unfold u, w. lra.
Qed.

Section Run.
Variable eps : R.
Hypothesis eps0 : 0 <= eps.
Notation NN := (RNum eps).
Context {I : Type}.
Variable idx : list I.
Variable sys : vec NN I -> NN -> vec NN I.
Variable eo so : Z.
Hypothesis Heo : (2 <= eo)%Z.
Hypothesis Hso : (1 <= so)%Z.
Variable cfg : err_cfg NN.
Variable max_dt : NN.
Notation ftry := (dopri5_ftry (N := NN) sys idx (rpow : NN -> NN -> NN) eo so cfg max_dt).
Notation obj := (drf NN I (rkmem NN I * vec NN I)).
Notation tb := (tab_of (N := NN) rk_dopri5).
Notation step := (df_step sys ftry).
Notation calc := (df_calc (dopri5_fcalc (N := NN))).

Variable T : R -> Prop.
Hypothesis Tconv : forall s u c, T s -> T u -> 0 <= c <= 1 -> T (s + c * (u - s)).
Variables L H E : R.
Hypothesis HL0 : 0 <= L.
Hypothesis HH0 : 0 <= H.
Hypothesis HE0 : 0 <= E.
Hypothesis HL : lipschitz T L sys.
Variable y : R -> I -> R.
Hypothesis Hcon : consistent tb sys y T H E 5.
Hypothesis Hden : forall t h ks, T t -> T (t + h) -> Rabs h <= H -> rk_stages_R eps tb sys (y t) t h ks ->
  forall th i, 0 <= th <= 1 -> Rabs (y t i + h * wsum (dense_weights th) ks i - y (t + th * h) i) <= E * Rabs h ^ 5.
Variable hm : R.
Hypothesis Hhm : 0 <= hm <= H.
Notation g := (growth tb L H).
Notation G := (dense_growth (eps := eps) L H).
Notation C := (E * hm ^ 5).

(** The bound on the error of the states and on that of the interpolant, a time [a] after the start. *)
Definition bound (d a : R) : R := exp (g * a) * (d + C * a).
Definition dbound (d a : R) : R := (1 + H * G) * bound d a + C.

Lemma g_pos : 0 <= g.
Proof. exact (growth_nonneg eps rk_dopri5 L H HL0 HH0). Qed.
Lemma C_pos : 0 <= C.
Proof. apply Rmult_le_pos; [exact HE0|apply pow_le; lra]. Qed.
Lemma G_pos : 0 <= G.
Proof.
  unfold dense_growth. pose proof (q_nonneg eps tb L H HL0 HH0) as Q. cbn [tab_of] in Q.
  apply Rmult_le_pos; [lra|]. apply pow_le. lra.
Qed.
Lemma bound_mono d d' a a' : 0 <= d <= d' -> 0 <= a <= a' -> bound d a <= bound d' a'.
Proof.
  intros Hd Ha. unfold bound. pose proof g_pos as Pg. pose proof C_pos as PC.
  assert (0 <= C * a) by (apply Rmult_le_pos; lra).
  assert (C * a <= C * a') by (apply Rmult_le_compat_l; lra).
  apply Rmult_le_compat; [apply Rlt_le, exp_pos|lra| |lra].
  assert (Q : g * a <= g * a') by (apply Rmult_le_compat_l; lra). destruct Q as [Q|Q]; [apply Rlt_le, exp_increasing, Q|rewrite Q; lra].
Qed.
Lemma bound_pos d a : 0 <= d -> 0 <= a -> 0 <= bound d a.
Proof.
  intros Hd Ha. unfold bound. pose proof C_pos as PC. apply Rmult_le_pos; [apply Rlt_le, exp_pos|].
  assert (0 <= C * a) by (apply Rmult_le_pos; lra). lra.
Qed.
Lemma dbound_mono d d' a a' : 0 <= d <= d' -> 0 <= a <= a' -> dbound d a <= dbound d' a'.
Proof.
  intros Hd Ha. unfold dbound. pose proof (bound_mono d d' a a' Hd Ha) as B. pose proof G_pos as PG.
  assert (0 <= H * G) by now apply Rmult_le_pos. apply Rplus_le_compat_r, Rmult_le_compat_l; lra.
Qed.
Lemma bound_0 d : bound d 0 = d.
Proof. unfold bound. rewrite !Rmult_0_r, exp_0. ring. Qed.

(** One successful do_step. *)
Lemma do_step_acc (o o1 : obj) e : sound eps sys (abs o) -> (df_dt o : R) <> 0 -> agrees (df_dt o) max_dt ->
  step o = (o1, Ok tt) -> 0 <= e -> T (df_t o) -> T (df_t o1) -> Rabs (df_t o1 - df_t o) <= hm ->
  (forall j, Rabs (df_current o j - y (df_t o) j) <= e) ->
  df_told o1 = df_t o
  /\ (forall j, Rabs (df_current o1 j - y (df_t o1) j) <= (1 + Rabs (df_t o1 - df_t o) * g) * e + C * Rabs (df_t o1 - df_t o))
  /\ forall c i, 0 <= c <= 1 -> let s := df_t o + c * (df_t o1 - df_t o) in
     Rabs (calc o1 s i - y s i) <= (1 + H * G) * e + C.
Proof.
  intros Hs Hdt Ha Est He Ht Ht1 Hh Hx.
  pose proof (abs_step sys ftry o) as A. rewrite Est in A. cbn [fst snd] in A.
  destruct (step_sound eps eps0 idx sys eo so Heo Hso cfg max_dt (abs o) (abs o1) Hs Hdt Ha A) as (_ & _ & _ & _ & _ & S6 & _).
  destruct (step_acc eps eps0 idx sys eo so Heo Hso cfg max_dt T Tconv L H E HL0 HH0 HL y Hcon Hden (abs o) (abs o1) e
    Hs Hdt Ha A He Ht Ht1 ltac:(cbn [abs f_t]; lra) Hx) as [B1 B2].
  cbn [abs f_t f_x f_told] in B1, B2, S6. split; [exact S6|].
  set (h := (df_t o1 - df_t o)%R) in *. assert (Pb : 0 <= Rabs h) by apply Rabs_pos.
  assert (Q : E * Rabs h ^ 5 <= C) by (apply Rmult_le_compat_l; [exact HE0|apply pow_incr; lra]).
  split.
  - intro j. eapply Rle_trans; [apply B1|]. apply Rplus_le_compat_l.
    replace (E * Rabs h ^ 6) with (E * Rabs h ^ 5 * Rabs h) by ring. now apply Rmult_le_compat_r.
  - intros c i Hc s. eapply Rle_trans; [exact (B2 c i Hc)|]. apply Rplus_le_compat; [|exact Q].
    apply Rmult_le_compat_r; [exact He|]. apply Rplus_le_compat_l. apply Rmult_le_compat_r; [exact G_pos|lra].
Qed.

(** Times move in the direction of the step. *)
Lemma steps_mono : forall n (o o1 : obj), sound eps sys (abs o) -> (df_dt o : R) <> 0 -> agrees (df_dt o) max_dt ->
  do_steps step n o = (o1, Ok tt) -> 0 <= dir (df_dt o) * (df_t o1 - df_t o).
Proof.
  induction n as [|n IH]; intros o o1 Hs Hdt Ha Hr; cbn [do_steps] in Hr.
  - injection Hr as <-. change (carrier NN) with R. rewrite Rminus_diag_eq by reflexivity. lra.
  - destruct (step o) as [o2 [[]|e0| |]] eqn:Est; try discriminate.
    pose proof (abs_step sys ftry o) as A. rewrite Est in A. cbn [fst snd] in A.
    destruct (step_sound eps eps0 idx sys eo so Heo Hso cfg max_dt (abs o) (abs o2) Hs Hdt Ha A) as (S1 & S2 & S3 & S4 & _ & S6 & S7 & _).
    pose proof (IH o2 o1 S1 S2 S3 Hr) as B. cbn [abs f_t f_dt] in S4, S7. rewrite S4 in B.
    change (carrier NN) with R in *. lra.
Qed.

(** Any number of steps. *)
Theorem steps_acc : forall n (o o1 : obj) d, sound eps sys (abs o) -> (df_dt o : R) <> 0 -> agrees (df_dt o) max_dt -> 0 <= d ->
  T (df_t o) -> (forall j, Rabs (df_current o j - y (df_t o) j) <= d) ->
  do_steps step (S n) o = (o1, Ok tt) -> T (df_t o1) ->
  (forall k a b, (k <= n)%nat -> do_steps step k o = (a, Ok tt) -> do_steps step (S k) o = (b, Ok tt) -> Rabs (df_t b - df_t a) <= hm) ->
  forall c i, 0 <= c <= 1 -> let s := df_told o1 + c * (df_t o1 - df_told o1) in
  Rabs (calc o1 s i - y s i) <= dbound d (Rabs (s - df_t o)).
Proof.
  induction n as [|n IH]; intros o o1 d Hs Hdt Ha Hd Ht Hx Hr Ht1 Hst c i Hc s.
  - assert (Est : step o = (o1, Ok tt)).
    { cbn [do_steps] in Hr. destruct (step o) as [o2 [[]|e0| |]] eqn:Est; try discriminate. now injection Hr as <-. }
    pose proof (Hst 0%nat o o1 (le_n _) eq_refl Hr) as Hh.
    destruct (do_step_acc o o1 d Hs Hdt Ha Est Hd Ht Ht1 Hh Hx) as (E1 & _ & B).
    specialize (B c i Hc). cbv zeta in B. unfold s. rewrite E1.
    eapply Rle_trans; [exact B|]. unfold dbound.
    pose proof (bound_mono d d 0 (Rabs (df_t o + c * (df_t o1 - df_t o) - df_t o)) ltac:(lra) (conj (Rle_refl 0) (Rabs_pos _))) as Q.
    rewrite bound_0 in Q. pose proof G_pos as PG. assert (0 <= H * G) by now apply Rmult_le_pos.
    apply Rplus_le_compat_r, Rmult_le_compat_l; [lra|exact Q].
  - remember (S n) as n1. cbn [do_steps] in Hr. destruct (step o) as [o2 [[]|e0| |]] eqn:Est; try discriminate.
    pose proof (abs_step sys ftry o) as A. rewrite Est in A. cbn [fst snd] in A.
    destruct (step_sound eps eps0 idx sys eo so Heo Hso cfg max_dt (abs o) (abs o2) Hs Hdt Ha A) as (S1 & S2 & S3 & S4 & _ & S6 & S7 & _).
    cbn [abs f_t f_dt f_told] in S2, S3, S4, S6, S7.
    assert (Hst' : forall k a b, (k <= n)%nat -> do_steps step k o2 = (a, Ok tt) -> do_steps step (S k) o2 = (b, Ok tt) -> Rabs (df_t b - df_t a) <= hm).
    { intros k a b Hk Ea Eb. apply (Hst (S k) a b ltac:(lia)); [cbn [do_steps]; rewrite Est; exact Ea|].
      change (do_steps step (S (S k)) o) with (match step o with (o1, Ok _) => do_steps step (S k) o1 | (o1, r) => (o1, r) end).
      rewrite Est. exact Eb. }
    assert (Hh : Rabs (df_t o2 - df_t o) <= hm).
    { apply (Hst 0%nat o o2 ltac:(lia) eq_refl). cbn [do_steps]. rewrite Est. reflexivity. }
    subst n1.
    assert (Hl : exists o3 : obj, do_steps step n o2 = (o3, Ok tt) /\ step o3 = (o1, Ok tt)).
    { pose proof Hr as Hr2. rewrite do_steps_last in Hr2. destruct (do_steps step n o2) as [o3 [[]|e0| |]] eqn:E3; try discriminate. now exists o3. }
    destruct Hl as (o3 & E3 & Est3).
    pose proof (steps_mono n o2 o3 S1 S2 S3 E3) as M1.
    assert (M2 : 0 < dir (df_dt o2) * (df_t o1 - df_t o3) /\ df_told o1 = df_t o3).
    { assert (Z : forall n (o o3 : obj), sound eps sys (abs o) -> (df_dt o : R) <> 0 -> agrees (df_dt o) max_dt ->
        do_steps step n o = (o3, Ok tt) -> sound eps sys (abs o3) /\ (df_dt o3 : R) <> 0 /\ agrees (df_dt o3) max_dt /\ dir (df_dt o3) = dir (df_dt o)).
      { clear - eps0 Heo Hso. induction n as [|n IH]; intros o o3 Hs Hdt Ha Hr; cbn [do_steps] in Hr; [injection Hr as <-; auto|].
        destruct (step o) as [o2 [[]|e0| |]] eqn:Est; try discriminate.
        pose proof (abs_step sys ftry o) as A. rewrite Est in A. cbn [fst snd] in A.
        destruct (step_sound eps eps0 idx sys eo so Heo Hso cfg max_dt (abs o) (abs o2) Hs Hdt Ha A) as (S1 & S2 & S3 & S4 & _).
        destruct (IH o2 o3 S1 S2 S3 Hr) as (Q1 & Q2 & Q3 & Q4). repeat (split; [assumption|]). exact (eq_trans Q4 S4). }
      destruct (Z n o2 o3 S1 S2 S3 E3) as (Q1 & Q2 & Q3 & Q4).
      pose proof (abs_step sys ftry o3) as A3. rewrite Est3 in A3. cbn [fst snd] in A3.
      destruct (step_sound eps eps0 idx sys eo so Heo Hso cfg max_dt (abs o3) (abs o1) Q1 Q2 Q3 A3) as (_ & _ & _ & _ & _ & V6 & V7 & _).
      cbn [abs f_t f_dt f_told] in V6, V7. rewrite <- Q4. split; [exact (proj1 V7)|exact V6]. }
    destruct M2 as [M2 M3]. change (carrier NN) with R in *. rewrite S4 in M1, M2. set (sg := dir (df_dt o)) in *.
    assert (Hsg : sg = 1 \/ sg = -1) by (apply P_Integrate.dir_pm).
    assert (T2 : T (df_t o2)).
    { apply (between T Tconv sg (df_t o) (df_t o1)); auto; clear - M1 M2 S7; change (carrier NN) with R in *; fold sg in S7; lra. }
    destruct (do_step_acc o o2 d Hs Hdt Ha Est Hd Ht T2 Hh Hx) as (E1 & B1 & _).
    change (carrier NN) with R in *.
    set (h := df_t o2 - df_t o) in *. pose proof (Rabs_pos h) as Pb. pose proof g_pos as Pg. pose proof C_pos as PC.
    set (d2 := (1 + Rabs h * g) * d + C * Rabs h) in *.
    assert (Pd2 : 0 <= d2).
    { unfold d2. assert (0 <= Rabs h * g) by now apply Rmult_le_pos. assert (0 <= C * Rabs h) by now apply Rmult_le_pos.
      assert (0 <= (1 + Rabs h * g) * d) by (apply Rmult_le_pos; lra). lra. }
    pose proof (IH o2 o1 d2 S1 S2 S3 Pd2 T2 B1 Hr Ht1 Hst' c i Hc) as B. cbv zeta in B. fold s in B.
    eapply Rle_trans; [exact B|]. unfold dbound.
    assert (Pr : 0 <= sg * (s - df_t o2)).
    { unfold s. rewrite M3. replace (sg * (df_t o3 + c * (df_t o1 - df_t o3) - df_t o2))
        with (sg * (df_t o3 - df_t o2) + c * (sg * (df_t o1 - df_t o3))) by ring.
      assert (0 <= c * (sg * (df_t o1 - df_t o3))) by (apply Rmult_le_pos; lra). lra. }
    assert (Ph : 0 <= sg * h) by lra.
    assert (A1 : Rabs (s - df_t o2) = sg * (s - df_t o2)) by (apply sg_abs; auto).
    assert (A2 : Rabs h = sg * h) by (apply sg_abs; auto).
    assert (A3 : Rabs (s - df_t o) = Rabs (s - df_t o2) + Rabs h).
    { rewrite A1, A2, (sg_abs sg Hsg (s - df_t o)); unfold h in *; lra. }
    rewrite A3. apply Rplus_le_compat_r. apply Rmult_le_compat_l; [pose proof G_pos; assert (0 <= H * G) by (now apply Rmult_le_pos); lra|].
    unfold bound, d2. apply gronwall_first; auto using Rabs_pos.
Qed.
End Run.

(** The step limit bounds the steps that are made; a step of width 0 goes nowhere. *)
Section Limit.
Variable eps : R.
Hypothesis eps0 : 0 <= eps.
Notation NN := (RNum eps).
Context {I : Type}.
Variable idx : list I.
Variable sys : vec NN I -> NN -> vec NN I.
Variable eo so : Z.
Hypothesis Heo : (2 <= eo)%Z.
Hypothesis Hso : (1 <= so)%Z.
Variable cfg : err_cfg NN.
Notation obj := (fv NN I (rkmem NN I * vec NN I)).

Lemma step_limit (max_dt : R) (v v' : obj) : max_dt <> 0 -> (f_dt v : R) <> 0 -> agrees (f_dt v) max_dt ->
  a_step sys (dopri5_ftry (N := NN) sys idx (rpow : NN -> NN -> NN) eo so cfg max_dt) v = (v', Ok tt) ->
  Rabs (f_t v' - f_t v) <= Rabs max_dt + eps.
Proof.
  intros Hm Hdt Ha Hs. set (ftry := dopri5_ftry (N := NN) sys idx (rpow : NN -> NN -> NN) eo so cfg max_dt) in *.
  destruct (a_step_char sys ftry v) as [(j & _ & Hj & Hi & Hr)|(_ & Hr)]; rewrite Hs in Hr; [|discriminate].
  inversion Hr; subst v'. clear Hr Hs.
  set (v0 := a_save (a_enter sys v)) in *.
  assert (E0 : f_dt v0 = f_dt v /\ f_t v0 = f_t v) by (unfold v0, a_save, a_enter; destruct v as [st x d ox od t told dt []]; split; reflexivity).
  destruct E0 as (E1 & E2). clearbody v0. rewrite <- E1 in Hdt, Ha.
  destruct (attempts_inv (a_try ftry) (during eps v0) (during_try eps eps0 idx sys eo so Heo Hso cfg max_dt v0 Ha) j v0 (during_refl eps v0 Hdt) Hi) as (v1 & Hd & Ev).
  rewrite Ev in *. destruct (during_ok eps max_dt v0 v1 Ha Hd) as (H1 & H2 & H3).
  destruct Hd as (_ & _ & D3 & _). unfold a_swap. cbn [f_t]. rewrite <- E2, <- D3. clear - Hj Hm H1 H2 eps0.
  destruct v1 as [st x d ox od t told dt der]. cbn [f_t f_dt] in *.
  destruct (a_try_cases (N := NN) sys idx (rpow : NN -> NN -> NN) eo so cfg max_dt st x d ox od t told dt der)
    as [(E & Q)|[(E & El & Q)|(E & El & Q)]]; fold ftry in Q; rewrite Q in Hj |- *; cbn [fst snd f_t] in *; try discriminate.
  apply check_R in E. 
  assert (Et : forall a b : R, a + b - a = b) by (intros; ring).
  apply (Rle_trans _ (Rabs dt)); [right; f_equal; exact (Et t dt)|].
  destruct E as [E|E]; [contradiction|]. destruct H2 as [H2|H2]; [contradiction|].
  rewrite <- dir_abs. pose proof (Rle_abs (dir dt * max_dt)) as B. rewrite Rabs_mult in B.
  assert (Rabs (dir dt) = 1) by (destruct (P_Integrate.dir_pm dt) as [-> | ->]; [apply Rabs_R1|rewrite Rabs_left; lra]).
  change (carrier NN) with R in *. rewrite H in B. lra.
Qed.

Lemma step_zero (v v' : obj) : (f_dt v : R) = 0 ->
  a_step sys (dopri5_ftry (N := NN) sys idx (rpow : NN -> NN -> NN) eo so cfg (0%R : NN)) v = (v', Ok tt) ->
  @eq R (f_t v') (f_t v).
Proof.
  intros Hdt Hs. set (ftry := dopri5_ftry (N := NN) sys idx (rpow : NN -> NN -> NN) eo so cfg (0%R : NN)) in *.
  destruct (a_step_char sys ftry v) as [(j & _ & Hj & Hi & Hr)|(_ & Hr)]; rewrite Hs in Hr; [|discriminate].
  inversion Hr; subst v'. clear Hr Hs.
  set (v0 := a_save (a_enter sys v)) in *.
  assert (E0 : f_dt v0 = f_dt v /\ f_t v0 = f_t v) by (unfold v0, a_save, a_enter; destruct v as [st x d ox od t told dt []]; split; reflexivity).
  destruct E0 as (E1 & E2). clearbody v0. rewrite <- E1 in Hdt. unfold a_swap. cbn [f_t]. rewrite <- E2.
  assert (Z : forall w : obj, (@eq R (f_dt w) 0) /\ f_t w = f_t v0 ->
    @eq R (f_t (fst (a_try ftry w))) (f_t v0) /\ (snd (a_try ftry w) = false -> @eq R (f_dt (fst (a_try ftry w))) 0)).
  { clear. intros [st x d ox od t told dt der] [A B]. cbn [f_t f_dt] in *. subst dt. rewrite <- B.
    destruct (a_try_cases (N := NN) sys idx (rpow : NN -> NN -> NN) eo so cfg 0%R st x d ox od t told 0%R der)
      as [(E & Q)|[(E & El & Q)|(E & El & Q)]]; fold ftry in Q; rewrite Q; cbn [fst snd f_t f_dt].
    - split; reflexivity.
    - split; [reflexivity|]. intros _. unfold decrease_step, limited. change (@nofZ NN 0) with 0.
      destruct (@nneq NN 0 0) eqn:En; [apply nneq_R in En; now contradiction En|]. cbn [nmul RNum]. apply Rmult_0_l.
    - split; [change (@eq R (t + 0) t); apply Rplus_0_r|discriminate]. }
  destruct (attempts_inv (a_try ftry) (fun w => @eq R (f_dt w) 0 /\ f_t w = f_t v0)
    (fun w Hw Hf => conj (proj2 (Z w Hw) Hf) (proj1 (Z w Hw))) j v0 (conj Hdt eq_refl) Hi) as (v1 & Hd & Ev).
  rewrite Ev. exact (proj1 (Z v1 Hd)).
Qed.
End Limit.

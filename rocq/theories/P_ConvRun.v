(** Global error of whole runs. *)
From Coq Require Import List Arith ZArith Reals Lia Lra.
From Verif Require Import M_Num M_Sign M_Run M_Plain M_Controlled S_Grid M_RK S_RK M_CtrlRK S_CtrlRK S_Real M_Integrate S_Integrate S_Conv
  P_Run P_R P_Plain P_PlainR P_PlainA P_RKNamed P_RKAll P_CtrlTermRK P_Integrate P_Conv.
Import ListNotations.
Local Open Scope R_scope.

Lemma exp_ge_1 a : 0 <= a -> 1 <= exp a.
Proof. intro H. pose proof (exp_ineq1_le a). lra. Qed.

Lemma span_conv eps t0 tend sg : forall s u c, span eps t0 tend sg s -> span eps t0 tend sg u -> 0 <= c <= 1 ->
  span eps t0 tend sg (s + c * (u - s)).
Proof.
  intros s u c [A1 A2] [B1 B2] Hc. unfold span.
  replace (sg * (s + c * (u - s) - t0)) with ((1 - c) * (sg * (s - t0)) + c * (sg * (u - t0))) by ring.
  replace (sg * (s + c * (u - s) - tend)) with ((1 - c) * (sg * (s - tend)) + c * (sg * (u - tend))) by ring.
  split; nra.
Qed.

(** ** The named methods are consistent. *)
Lemma tab_b_sum eps n : rsum (tab_b (tab_of (N := RNum eps) n)) = 1.
Proof.
  destruct n; cbn [tab_of tab_b euler_tab rk4_tab ck54_tab dopri5_tab7 f78_tab rsum fold_right]; unfold nfrac; rnum; lra.
Qed.

Lemma F2_nth {A B} (P : A -> B -> Prop) a c : Forall2 P a c ->
  forall s r d, nth_error a s = Some r -> nth_error c s = Some d -> P r d.
Proof.
  intros F. induction F as [|r c0 a c E F IH]; intros [|s] r' d; cbn; intros H1 H2; try discriminate.
  - apply some_inj in H1. apply some_inj in H2. congruence.
  - exact (IH s r' d H1 H2).
Qed.

Lemma tab_row_sum eps n : forall s (row : list R) (c : R), nth_error (tab_a (tab_of (N := RNum eps) n)) s = Some row ->
  nth_error (tab_c (tab_of (N := RNum eps) n)) (Datatypes.S s) = Some c -> rsum row = c.
Proof.
  assert (E : forall (l : list R) s, nth_error l (Datatypes.S s) = nth_error (tl l) s) by (intros [|a l] [|s]; reflexivity).
  intros s row c. change (carrier (RNum eps)) with R. rewrite E. clear E.
  apply (F2_nth (fun (row : list R) (c : R) => rsum row = c)).
  destruct n; cbn [tab_of tab_a tab_c tl euler_tab rk4_tab ck54_tab dopri5_tab7 f78_tab]; unfold nfrac; rnum;
    repeat constructor; cbn [rsum fold_right]; lra.
Qed.

Section G.
Variable eps : R.
Notation NN := (RNum eps).
Context {I : Type}.
Variable n : rk_name.
Notation tb := (tab_of (N := NN) n).
Variable sg : R.
Hypothesis Hsg : sg = 1 \/ sg = -1.
Variable T : R -> Prop.
Hypothesis Tconv : forall s u c, T s -> T u -> 0 <= c <= 1 -> T (s + c * (u - s)).
Variable f : (I -> R) -> R -> (I -> R).
Variables L H K : R.
Hypothesis HL0 : 0 <= L.
Hypothesis HH0 : 0 <= H.
Hypothesis HK0 : 0 <= K.
Hypothesis HL : lipschitz T L f.
Variable y : R -> I -> R.
Hypothesis Hsol : solution T f y.
Hypothesis Hsm : smooth T K f y.

(** One step of width at most [hm]. *)
Definition one_step (hm : R) (p q : (I -> R) * R) : Prop :=
  rk_result eps tb f (fst p) (snd p) (snd q - snd p) (fst q)
  /\ 0 < sg * (snd q - snd p) <= hm /\ T (snd q).

Lemma growth_nonneg : 0 <= growth tb L H.
Proof.
  unfold growth. pose proof (q_nonneg eps tb L H HL0 HH0). apply Rmult_le_pos; [|apply pow_le; lra].
  apply Rmult_le_pos; [apply rabs_sum_nonneg|exact HL0].
Qed.

Lemma local_nonneg : 0 <= local_const tb L H K.
Proof.
  unfold local_const. pose proof (q_nonneg eps tb L H HL0 HH0) as Q.
  assert (0 <= (1 + H * L * stage_size tb) ^ length (tab_a tb)) by (apply pow_le; lra).
  assert (0 <= weight_size tb) by apply rabs_sum_nonneg.
  assert (0 <= 1 + L * H) by nra.
  assert (0 <= weight_size tb * (1 + L * H)) by now apply Rmult_le_pos.
  apply Rmult_le_pos; [exact HK0|]. nra.
Qed.

Lemma sg_abs a : 0 <= sg * a -> Rabs a = sg * a.
Proof. destruct Hsg as [->| ->]; intro P; [rewrite Rabs_right|rewrite Rabs_left1]; lra. Qed.

Theorem global_error hm : 0 <= hm <= H -> forall l x t D, 0 <= D -> T t -> (forall j, Rabs (x j - y t j) <= D) ->
  linked (one_step hm) ((x, t) :: l) ->
  forall x' t', In (x', t') ((x, t) :: l) ->
  0 <= sg * (t' - t) /\
  forall i, Rabs (x' i - y t' i)
     <= exp (growth tb L H * Rabs (t' - t)) * (D + local_const tb L H K * hm * Rabs (t' - t)).
Proof.
  intros Hm. pose proof growth_nonneg as PG. pose proof local_nonneg as PC.
  set (Lam := growth tb L H) in *. set (C := local_const tb L H K) in *.
  induction l as [|[x1 t1] l IH]; intros x t D HD Ht Hx Hl x' t' Hin.
  - destruct Hin as [E|[]]. injection E as -> ->. rewrite Rminus_diag_eq, Rabs_R0, !Rmult_0_r, exp_0 by reflexivity.
    split; [lra|]. intro i. specialize (Hx i). lra.
  - destruct Hin as [E|Hin].
    { injection E as -> ->. rewrite Rminus_diag_eq, Rabs_R0, !Rmult_0_r, exp_0 by reflexivity.
      split; [lra|]. intro i. specialize (Hx i). lra. }
    destruct Hl as [(HS & [P1 P2] & HT) Hl]. cbn [fst snd] in HS, P1, P2, HT.
    set (h := t1 - t) in *. assert (E1 : t1 = t + h) by (unfold h; ring).
    assert (Ah : Rabs h = sg * h) by (apply sg_abs; lra).
    assert (HT2 : T (t + h)) by now rewrite <- E1.
    pose proof (rk_local eps tb (wf_tab_of NN n) (tab_c_unit eps n) (tab_row_sum eps n) (tab_b_sum eps n) T Tconv f L H HL0 HH0 HL
      y K HK0 Hsol Hsm x t h D x1 HD Ht HT2 ltac:(lra) Hx HS) as B.
    fold Lam C in B. rewrite abs_sq in B. rewrite <- E1 in B.
    set (D1 := (1 + Rabs h * Lam) * D + C * (Rabs h * Rabs h)) in B.
    assert (PD1 : 0 <= D1).
    { unfold D1. assert (0 <= Rabs h * Lam) by (apply Rmult_le_pos; [apply Rabs_pos|exact PG]).
      assert (0 <= C * (Rabs h * Rabs h)) by (apply Rmult_le_pos; [exact PC|apply Rmult_le_pos; apply Rabs_pos]). nra. }
    destruct (IH x1 t1 D1 PD1 HT B Hl x' t' Hin) as [P3 Q].
    assert (A1 : Rabs (t' - t1) = sg * (t' - t1)) by now apply sg_abs.
    assert (P4 : sg * (t' - t) = sg * (t' - t1) + sg * h) by (unfold h; ring).
    assert (A2 : Rabs (t' - t) = Rabs (t' - t1) + Rabs h) by (rewrite (sg_abs (t' - t)); lra).
    split; [lra|]. intro i. eapply Rle_trans; [apply Q|]. rewrite A2.
    set (a := Rabs (t' - t1)) in *. set (b := Rabs h) in *.
    assert (Pa : 0 <= a) by apply Rabs_pos. assert (Pb : 0 <= b) by apply Rabs_pos.
    replace (Lam * (a + b)) with (Lam * a + Lam * b) by ring. rewrite exp_plus, (Rmult_assoc (exp (Lam * a)) (exp (Lam * b))).
    apply Rmult_le_compat_l; [apply Rlt_le, exp_pos|].
    assert (E2 : 1 + Lam * b <= exp (Lam * b)) by apply exp_ineq1_le.
    assert (PLb : 0 <= Lam * b) by now apply Rmult_le_pos.
    assert (Z1 : C * (b * b) <= C * hm * b).
    { rewrite Rmult_assoc. apply Rmult_le_compat_l; [exact PC|]. apply Rmult_le_compat_r; [exact Pb|lra]. }
    assert (Z2 : 0 <= C * hm * (a + b)) by (apply Rmult_le_pos; [apply Rmult_le_pos; [exact PC|lra]|lra]).
    assert (Z3 : 0 <= C * hm * a) by (apply Rmult_le_pos; [apply Rmult_le_pos; [exact PC|lra]|lra]).
    assert (Z4 : (1 + Lam * b) * D <= exp (Lam * b) * D) by (apply Rmult_le_compat_r; assumption).
    assert (Z5 : 1 * (C * hm * (a + b)) <= exp (Lam * b) * (C * hm * (a + b))) by (apply Rmult_le_compat_r; lra).
    unfold D1. replace (C * hm * (a + b)) with (C * hm * a + C * hm * b) in * by ring. lra.
Qed.
End G.

(** ** Runs of the integrate functions. *)
Lemma linked_map_seq {A} (Rl : A -> A -> Prop) (g : nat -> A) : forall n k,
  (forall j, (k <= j < k + n)%nat -> Rl (g j) (g (Datatypes.S j))) -> linked Rl (map g (seq k (Datatypes.S n))).
Proof.
  induction n as [|n IH]; intros k Hk; [cbn; auto|].
  change (map g (seq k (Datatypes.S (Datatypes.S n)))) with (g k :: map g (seq (Datatypes.S k) (Datatypes.S n))).
  split; [|apply IH; intros j Hj; apply Hk; lia]. cbn [seq map]. apply Hk. lia.
Qed.

Lemma linked_snoc {A} (Rl : A -> A -> Prop) (z : A) : forall l a, linked Rl (a :: l) -> Rl (last (a :: l) a) z ->
  linked Rl ((a :: l) ++ [z]).
Proof.
  induction l as [|b l IH]; intros a H1 H2; [cbn in *; auto|].
  destruct H1 as [H1 H3]. split; [exact H1|]. apply (IH b H3).
  assert (E : forall d d', last (b :: l) d = last (b :: l) d') by (clear; revert b; induction l as [|c l IHl]; intros b d d'; [reflexivity|exact (IHl c d d')]).
  rewrite (E b a). exact H2.
Qed.

Section Run.
Variable eps : R.
Hypothesis Heps : 0 <= eps.
Notation NN := (RNum eps).
Context {I W : Type}.
Variable n : rk_name.
Variable f : (I -> R) -> R -> (I -> R).
Notation stp := (rk_do_step (N := NN) f n).

Lemma do_step_result tmp x t dt : rk_result eps (tab_of n) f x t dt (snd (stp tmp x t dt)).
Proof. unfold rk_do_step. cbn [snd]. exact (named_step eps f n (mkAlias true false) t dt (upd tmp LIn x)). Qed.

Lemma grid_linked (T : R -> Prop) t0 dt s x N0 : dt <> 0 -> (forall k, (k <= N0)%nat -> T (t0 + INR k * dt)) ->
  linked (one_step eps n (dir dt) T f (Rabs dt))
    (map (fun k => (snd (after (N := NN) stp t0 dt s x k), @grid NN t0 dt k)) (seq 0 (Datatypes.S N0))).
Proof.
  intros Hd HT. apply linked_map_seq. intros j Hj. unfold one_step. cbn [fst snd]. rewrite !grid_R, S_INR.
  replace (t0 + (INR j + 1) * dt - (t0 + INR j * dt)) with dt by ring.
  split; [|split].
  - cbn [after]. destruct (after (N := NN) stp t0 dt s x j) as [s' x'] eqn:E. cbn [snd].
    rewrite grid_R. apply do_step_result.
  - rewrite dir_abs. split; [now apply Rabs_pos_lt|lra].
  - rewrite <- S_INR. apply HT. lia.
Qed.

Variables t0 tend dt : R.
Hypothesis Hdt : dt <> 0.
Hypothesis Hdir : 0 <= dir dt * (tend - t0).
Notation T := (span eps t0 tend (dir dt)).
Variable x : I -> R.

Lemma dir_pm' : dir dt = 1 \/ dir dt = -1.
Proof. destruct (dir_cases dt) as [[_ ->]|[_ ->]]; auto. Qed.

Lemma T_start : T t0.
Proof. unfold span. rewrite Rminus_diag_eq, Rmult_0_r by reflexivity. split; lra. Qed.

Lemma linked_T hm : forall l x0 t1, T t1 -> linked (one_step eps n (dir dt) T f hm) ((x0, t1) :: l) ->
  forall x' t', In (x', t') ((x0, t1) :: l) -> T t'.
Proof.
  induction l as [|[x1 t2] l IH]; intros x0 t1 HT Hl x' t' [E|Hin].
  - apply (f_equal snd) in E. cbn in E. now subst t'.
  - destruct Hin.
  - apply (f_equal snd) in E. cbn in E. now subst t'.
  - destruct Hl as [(_ & _ & H2) Hl]. exact (IH x1 t2 H2 Hl x' t' Hin).
Qed.

Lemma grid_span N0 : (N0 = O \/ dir dt * (t0 + INR N0 * dt - tend) <= eps) ->
  forall k, (k <= N0)%nat -> T (t0 + INR k * dt).
Proof.
  intros HN k Hk. unfold span. assert (P : 0 <= INR k) by apply pos_INR.
  replace (t0 + INR k * dt - t0) with (INR k * dt) by ring.
  replace (dir dt * (INR k * dt)) with (INR k * (dir dt * dt)) by ring. rewrite dir_abs.
  pose proof (Rabs_pos dt) as Pd. split; [now apply Rmult_le_pos|].
  replace (dir dt * (t0 + INR k * dt - tend)) with (INR k * (dir dt * dt) - dir dt * (tend - t0)) by ring.
  rewrite dir_abs. destruct HN as [->|HN].
  - assert (k = 0)%nat by lia. subst k. cbn. lra.
  - replace (dir dt * (t0 + INR N0 * dt - tend)) with (INR N0 * (dir dt * dt) - dir dt * (tend - t0)) in HN by ring.
    rewrite dir_abs in HN. apply le_INR in Hk. nra.
Qed.

Lemma grid_list s N0 : exists l,
  map (fun k => (snd (after (N := NN) stp t0 dt s x k), @grid NN t0 dt k)) (seq 0 (Datatypes.S N0)) = (x, t0) :: l.
Proof. eexists. reflexivity. Qed.

Lemma const_linked fuel s (w : W) tr r :
  integrate_const (N := NN) rec_obs (plain_step stp) fuel s w x t0 tend dt = (tr, Ok r) ->
  exists l, obs_of tr = (x, t0) :: l /\ linked (one_step eps n (dir dt) T f (Rabs dt)) ((x, t0) :: l).
Proof.
  intro E. destruct r as [r0 m]. pose proof (integrate_const_ok_inv (N := NN) _ _ _ _ _ _ _ _ _ _ _ _ E) as [Hf Hm].
  destruct (const_pure (N := NN) stp fuel s w x t0 tend dt m Hf Hm) as (tr2 & E2 & Ho & _).
  rewrite E in E2. apply (f_equal fst) in E2. cbn [fst] in E2. subst tr2.
  assert (HN : m = O \/ dir dt * (t0 + INR m * dt - tend) <= eps).
  { destruct m as [|m]; [now left|right]. apply (const_count_before eps t0 tend dt (Datatypes.S m) (Datatypes.S m) Hf). lia. }
  pose proof (grid_linked T t0 dt s x m Hdt (grid_span m HN)) as Hl.
  destruct (grid_list s m) as [l El]. rewrite El in Hl. exists l. split; [exact (eq_trans Ho El)|exact Hl].
Qed.

Lemma adaptive_linked fuel s (w : W) tr r :
  integrate_adaptive_plain (N := NN) rec_obs (plain_step stp) fuel s w x t0 tend dt = (tr, Ok r) ->
  exists l, obs_of tr = (x, t0) :: l /\ linked (one_step eps n (dir dt) T f (Rabs dt)) ((x, t0) :: l).
Proof.
  intro E.
  destruct (const_count eps t0 tend dt Hdt) as [m Hm].
  assert (HN : m = O \/ dir dt * (t0 + INR m * dt - tend) <= eps).
  { destruct m as [|m]; [now left|right]. apply (const_count_before eps t0 tend dt (Datatypes.S m) (Datatypes.S m) Hm). lia. }
  pose proof (const_count_last eps t0 tend dt m Hm) as Hlast.
  assert (Hfu : (m < fuel)%nat).
  { unfold integrate_adaptive_plain in E. apply bind_ok_inv in E as (tr1 & [[[s1 w1] x1] k] & tr2 & E1 & _).
    pose proof (integrate_const_ok_inv (N := NN) _ _ _ _ _ _ _ _ _ _ _ _ E1) as [Hf Hk].
    destruct (Nat.lt_trichotomy k m) as [C|[C|C]]; [|lia|].
    - destruct Hm as [A _]. destruct Hf as [_ B]. rewrite (A k C) in B. discriminate.
    - lia. }
  pose proof (integrate_adaptive_plain_exec (N := NN) (@rec_obs R (I -> R) W) (plain_step stp) fuel s w x t0 tend dt m Hm Hfu) as Hrun.
  rewrite (exec_schedule_pure (N := NN)) in Hrun. unfold bind at 1 in Hrun.
  pose proof (grid_linked T t0 dt s x m Hdt (grid_span m HN)) as Hl.
  destruct (grid_list s m) as [l El].
  destruct (@less_with_sign NN _ tend dt) eqn:Els.
  - apply less_R in Els. rnum. rewrite nofnat_R in *.
    replace (dt * INR m) with (INR m * dt) in * by ring.
    set (e := t0 + INR m * dt) in *.
    assert (Eg : @grid NN t0 dt m = e) by apply grid_R.
    apply (eq_trans (eq_sym Hrun)) in E. clear Hrun. cbn [S_Grid.exec] in E. unfold plain_step in E.
    pose proof (do_step_result s (snd (after (N := NN) stp t0 dt s x m)) e (tend - e)) as HS.
    match type of HS with rk_result _ _ _ _ _ _ ?q => set (x2 := q) in HS end.
    unfold bind, rec_obs, ret in E. cbn [app] in E. apply (f_equal fst) in E. cbn [fst] in E. 
    assert (Eo : obs_of tr = ((x, t0) :: l) ++ [(x2, tend)]).
    { rewrite <- E. etransitivity; [apply obs_of_app|]. apply (f_equal2 (@app _)); [|reflexivity].
      etransitivity; [apply (schedule_obs (N := NN))|exact El]. }
    rewrite El in Hl. exists (l ++ [(x2, tend)]). split; [exact Eo|].
    assert (Elast : last ((x, t0) :: l) (x, t0) = (snd (after (N := NN) stp t0 dt s x m), e)).
    { rewrite <- El, seq_S, map_app. cbn [map plus]. rewrite last_last. now rewrite Eg. }
    apply (linked_snoc _ (x2, tend) l (x, t0) Hl).
    refine (eq_ind_r (fun q => one_step eps n (dir dt) T f (Rabs dt) q (x2, tend)) _ Elast). unfold one_step.
    cbn [fst snd]. split; [exact HS|].
    split; [split; [lra|unfold e in *; lra]|]. unfold span. rewrite (Rminus_diag_eq tend tend), Rmult_0_r by reflexivity. split; lra.
  - unfold ret in Hrun. apply (eq_trans (eq_sym Hrun)) in E. apply (f_equal fst) in E. cbn [fst] in E. rewrite app_nil_r in E.
    assert (Eo := eq_trans (f_equal obs_of (eq_sym E)) (schedule_obs (N := NN) stp t0 dt s x m)).
    exists l. rewrite El in Hl. split; [exact (eq_trans Eo El)|exact Hl].
Qed.

(** *** Controlled runs: the list of observations of C112. *)
Lemma good_one_step idx abs rel max_dt : max_dt <> 0 -> forall l x0 t1, T t1 ->
  linked (good_step eps (tab_of (N := NN) n) idx f abs rel max_dt (dir dt) tend) ((x0, t1) :: l) ->
  linked (one_step eps n (dir dt) T f (Rabs max_dt + eps)) ((x0, t1) :: l).
Proof.
  intros Hm. induction l as [|[x1 t2] l IH]; intros x0 t1 HT Hl; [exact Hl|].
  destruct Hl as [(A & _ & B & C & E) Hl]. cbn [fst snd] in *.
  assert (HT2 : T t2).
  { destruct HT as [P Q]. unfold span. split; [|exact C].
    replace (dir dt * (t2 - t0)) with (dir dt * (t2 - t1) + dir dt * (t1 - t0)) by ring. lra. }
  split; [|exact (IH x1 t2 HT2 Hl)]. unfold one_step. cbn [fst snd]. split; [exact A|]. split; [|exact HT2].
  split; [exact B|]. rewrite <- (Rabs_pos_eq (dir dt * (t2 - t1))) by lra. rewrite Rabs_mult.
  replace (Rabs (dir dt)) with 1; [rewrite Rmult_1_l; exact (E Hm)|].
  destruct dir_pm' as [-> | ->]; [now rewrite Rabs_R1|rewrite Rabs_left; lra].
Qed.

Variables L H K : R.
Hypothesis HL0 : 0 <= L.
Hypothesis HK0 : 0 <= K.
Hypothesis HL : lipschitz T L f.
Variable y : R -> I -> R.
Hypothesis Hsol : solution T f y.
Hypothesis Hsm : smooth T K f y.
Variable D : R.
Hypothesis HD : 0 <= D.
Hypothesis Hx : forall j, Rabs (x j - y t0 j) <= D.

Definition err_bound (hm t : R) : R :=
  exp (growth (tab_of (N := NN) n) L H * Rabs (t - t0)) * (D + local_const (tab_of (N := NN) n) L H K * hm * Rabs (t - t0)).

Lemma list_error hm l : 0 <= hm <= H -> linked (one_step eps n (dir dt) T f hm) ((x, t0) :: l) ->
  forall x' t', In (x', t') ((x, t0) :: l) -> T t' /\ forall i, Rabs (x' i - y t' i) <= err_bound hm t'.
Proof.
  intros Hm Hl x' t' Hin. split; [exact (linked_T hm l x t0 T_start Hl x' t' Hin)|].
  exact (proj2 (global_error eps n (dir dt) dir_pm' T (span_conv eps t0 tend (dir dt)) f L H K HL0 ltac:(lra) HK0 HL y Hsol Hsm
    hm Hm l x t0 D HD T_start Hx Hl x' t' Hin)).
Qed.

Hypothesis HdH : Rabs dt <= H.

Lemma const_error fuel s (w : W) tr r :
  integrate_const (N := NN) rec_obs (plain_step stp) fuel s w x t0 tend dt = (tr, Ok r) ->
  forall x' t', In (x', t') (obs_of tr) -> T t' /\ forall i, Rabs (x' i - y t' i) <= err_bound (Rabs dt) t'.
Proof.
  intro E. destruct (const_linked fuel s w tr r E) as (l & El & Hl). rewrite El. apply list_error; [|exact Hl].
  pose proof (Rabs_pos dt). lra.
Qed.

Lemma adaptive_error fuel s (w : W) tr r :
  integrate_adaptive_plain (N := NN) rec_obs (plain_step stp) fuel s w x t0 tend dt = (tr, Ok r) ->
  forall x' t', In (x', t') (obs_of tr) -> T t' /\ forall i, Rabs (x' i - y t' i) <= err_bound (Rabs dt) t'.
Proof.
  intro E. destruct (adaptive_linked fuel s w tr r E) as (l & El & Hl). rewrite El. apply list_error; [|exact Hl].
  pose proof (Rabs_pos dt). lra.
Qed.

Lemma good_error idx abs rel max_dt l : max_dt <> 0 -> Rabs max_dt + eps <= H ->
  linked (good_step eps (tab_of (N := NN) n) idx f abs rel max_dt (dir dt) tend) ((x, t0) :: l) ->
  forall x' t', In (x', t') ((x, t0) :: l) -> T t' /\ forall i, Rabs (x' i - y t' i) <= err_bound (Rabs max_dt + eps) t'.
Proof.
  intros Hm HmH Hl. apply list_error.
  - pose proof (Rabs_pos max_dt). lra.
  - exact (good_one_step idx abs rel max_dt Hm l x t0 T_start Hl).
Qed.
End Run.

(** *** Two runs of the same stepper. *)
Section Stab.
Variable eps : R.
Hypothesis Heps : 0 <= eps.
Notation NN := (RNum eps).
Context {I W : Type}.
Variable n : rk_name.
Variable f : (I -> R) -> R -> (I -> R).
Notation stp := (rk_do_step (N := NN) f n).
Variables L H t0 dt D : R.
Hypothesis HL0 : 0 <= L.
Hypothesis HH : Rabs dt <= H.
Hypothesis HD : 0 <= D.
Variable T : R -> Prop.
Hypothesis Tconv : forall s u c, T s -> T u -> 0 <= c <= 1 -> T (s + c * (u - s)).
Hypothesis HL : lipschitz T L f.
Notation G := (growth (tab_of (N := NN) n) L H).

Lemma after_stable N0 (s s2 : rkmem NN I) (x z : I -> R) :
  (forall k, (k <= N0)%nat -> T (t0 + INR k * dt)) -> (forall j, Rabs (x j - z j) <= D) ->
  forall k, (k <= N0)%nat -> forall j,
  Rabs (snd (after (N := NN) stp t0 dt s x k) j - snd (after (N := NN) stp t0 dt s2 z k) j) <= exp (G * (INR k * Rabs dt)) * D.
Proof.
  intros HT Hx. assert (PG : 0 <= G) by (apply growth_nonneg; pose proof (Rabs_pos dt); lra).
  induction k as [|k IH]; intros Hk j.
  - cbn [after snd]. replace (G * (INR 0 * Rabs dt)) with 0 by (cbn; ring). rewrite exp_0, Rmult_1_l. apply Hx.
  - specialize (IH ltac:(lia)). cbn [after].
    destruct (after (N := NN) stp t0 dt s x k) as [s1 x1]. destruct (after (N := NN) stp t0 dt s2 z k) as [s3 z1]. cbn [snd] in IH.
    rewrite !grid_R.
    assert (E : t0 + INR k * dt + dt = t0 + INR (Datatypes.S k) * dt) by (rewrite S_INR; ring).
    set (E0 := exp (G * (INR k * Rabs dt)) * D) in *.
    assert (P0 : 0 <= E0) by (apply Rmult_le_pos; [left; apply exp_pos|exact HD]).
    pose proof (rk_stable eps (tab_of (N := NN) n) (wf_tab_of NN n) (tab_c_unit eps n) (tab_row_sum eps n)
      T Tconv f L H HL0 ltac:(pose proof (Rabs_pos dt); lra) HL x1 z1 (t0 + INR k * dt) dt E0
      _ _ P0 (HT k ltac:(lia)) ltac:(rewrite E; apply HT; lia) HH IH
      (do_step_result eps n f s1 x1 (t0 + INR k * dt) dt) (do_step_result eps n f s3 z1 (t0 + INR k * dt) dt) j) as B.
    eapply Rle_trans; [exact B|]. rewrite S_INR.
    replace (G * ((INR k + 1) * Rabs dt)) with (Rabs dt * G + G * (INR k * Rabs dt)) by ring. rewrite exp_plus.
    rewrite Rmult_assoc. apply Rmult_le_compat_r; [exact P0|]. pose proof (exp_ineq1_le (Rabs dt * G)). lra.
Qed.
End Stab.

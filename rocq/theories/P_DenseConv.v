(** Accuracy of the dense output of dopri5 between the steps. *)
From Coq Require Import List Arith ZArith Reals Lia Lra Qreals.
From Verif Require Import M_Num M_Sign M_Run M_Checker M_RK S_RK P_RK M_CtrlRK M_Dense M_DenseRK S_DenseRK S_Real S_Dense S_Ctrl S_CtrlRK S_Conv S_BSeries
  P_R P_CtrlRK P_CtrlRKR P_CtrlRKT P_CtrlTermRK P_RKNamed P_RKOrder P_RKAll P_RKDense P_DenseRK P_DenseRef P_DenseRKR P_Conv P_ConvRun P_ConvOrd P_BSeries P_Butcher.
Import ListNotations.
Local Open Scope R_scope.

(** The weights of the interpolant are at most 1. *)
Lemma W_bounds th : 0 <= th <= 1 -> Forall (fun w => Rabs w <= 1) (dense_weights th).
Proof.
  intros Hth. set (a := th ^ 2 * (3 - 2 * th)). set (b := th ^ 2 * (th - 1) ^ 2). set (c := th * (th - 1) ^ 2). set (e := th ^ 2 * (th - 1)).
  assert (Q : 0 <= th * (1 - th) <= 1 / 4) by (split; [apply Rmult_le_pos; lra|pose proof (Rle_0_sqr (th - 1 / 2)) as Z; unfold Rsqr in Z; lra]).
  assert (Pa : 0 <= a <= 1).
  { unfold a. split; [cbn; nra|]. replace (th ^ 2 * (3 - 2 * th)) with (1 - (1 - th) ^ 2 * (1 + 2 * th)) by ring.
    assert (0 <= (1 - th) ^ 2 * (1 + 2 * th)) by (apply Rmult_le_pos; [apply pow_le; lra|lra]). lra. }
  assert (Pb : 0 <= b <= 1 / 16).
  { unfold b. replace (th ^ 2 * (th - 1) ^ 2) with ((th * (1 - th)) * (th * (1 - th))) by ring. nra. }
  assert (Pc : 0 <= c <= 1 / 4).
  { unfold c. replace (th * (th - 1) ^ 2) with ((th * (1 - th)) * (1 - th)) by ring. nra. }
  assert (Pe : - (1 / 4) <= e <= 0).
  { unfold e. replace (th ^ 2 * (th - 1)) with (- ((th * (1 - th)) * th)) by ring. nra. }
  assert (Pd : 0 <= b * th <= 1 / 16) by nra.
  unfold dense_weights, W1, W3, W4, W5, W6, W7. fold a b c e.
  set (d := b * th) in *.
  repeat apply Forall_cons; try apply Forall_nil; apply Rabs_le.
  - replace (a * (35 / 384) + c - b * 5 * (2558722523 - 31403016 * th) / 11282082432)
      with (a * (35 / 384) + c - b * (12793612615 / 11282082432) + d * (157015080 / 11282082432)) by (unfold d; field). lra.
  - lra.
  - replace (a * (500 / 1113) + b * 100 * (882725551 - 15701508 * th) / 32700410799)
      with (a * (500 / 1113) + b * (88272555100 / 32700410799) - d * (1570150800 / 32700410799)) by (unfold d; field). lra.
  - replace (a * (125 / 192) - b * 25 * (443332067 - 31403016 * th) / 1880347072)
      with (a * (125 / 192) - b * (11083301675 / 1880347072) + d * (785075400 / 1880347072)) by (unfold d; field). lra.
  - replace (- (a * (2187 / 6784)) + b * 32805 * (23143187 - 3489224 * th) / 199316789632)
      with (- (a * (2187 / 6784)) + b * (759212249535 / 199316789632) - d * (114463993320 / 199316789632)) by (unfold d; field). lra.
  - replace (a * (11 / 84) - b * 55 * (29972135 - 7076736 * th) / 822651844)
      with (a * (11 / 84) - b * (1648467425 / 822651844) + d * (389220480 / 822651844)) by (unfold d; field). lra.
  - replace (e + b * 10 * (7414447 - 829305 * th) / 29380423)
      with (e + b * (74144470 / 29380423) - d * (8293050 / 29380423)) by (unfold d; field). lra.
Qed.

Lemma W_size th : 0 <= th <= 1 -> rsum (map Rabs (dense_weights th)) <= 6.
Proof.
  intro H. pose proof (W_bounds th H) as B. unfold dense_weights in *. repeat match goal with X : Forall _ (_ :: _) |- _ => inversion X; clear X; subst end.
  unfold rsum. cbn [map fold_right]. rewrite Rabs_R0. lra.
Qed.

Lemma W_nth th m : 0 <= th <= 1 -> Rabs (nth m (dense_weights th) 0) <= 1.
Proof.
  intro H. destruct (nth_in_or_default m (dense_weights th) 0) as [Hi|E].
  - exact (proj1 (Forall_forall _ _) (W_bounds th H) _ Hi).
  - rewrite E, Rabs_R0. lra.
Qed.

(** Rate of growth of a difference between two interpolants. *)
Definition dense_growth {eps : R} (L H : R) : R := 6 * L * (1 + H * L * stage_size (dopri5_tab7 (N := RNum eps))) ^ 6.

Lemma has_order_le (rows : list (list Q)) b c p q : (q <= p)%nat -> has_order rows b c p -> has_order rows b c q.
Proof. intros Hq (A & B & C & D). split; [intros t Ht; apply A; lia|]. auto. Qed.

Lemma wsum_sumn {I : Type} (i : I) : forall w (ks : list (I -> R)), length w = length ks ->
  wsum w ks i = sumn (length w) (fun m => nth m w 0 * nth m ks (fun _ => 0) i).
Proof.
  induction w as [|a w IH]; intros [|k ks] E; try discriminate; [reflexivity|].
  rewrite wsum_cons, IH by (injection E; auto). cbn [length]. rewrite sumn_shift. reflexivity.
Qed.

Section Local.
Variable eps : R.
Notation NN := (RNum eps).
Context {I : Type}.
Variables M H : R.
Hypothesis HM : 0 <= M.
Hypothesis HH : 0 <= H.

(** The interpolant of a step that starts on the solution. *)
Lemma dense_on_solution : exists E, 0 <= E /\ forall (f : (I -> R) -> R -> (I -> R)) y D (T : R -> Prop),
  (forall s u c, T s -> T u -> 0 <= c <= 1 -> T (s + c * (u - s))) ->
  taylor 4 M (fun v => exists t, T t /\ v = point (y t) t) (autonomous f) D -> solution T f y ->
  forall t h ks, T t -> T (t + h) -> Rabs h <= H -> rk_stages_R eps dopri5_tab7 f (y t) t h ks ->
  forall th i, 0 <= th <= 1 -> Rabs (y t i + h * wsum (dense_weights th) ks i - y (t + th * h) i) <= E * Rabs h ^ 5.
Proof.
  pose proof (has_order_le _ _ _ 5 4 ltac:(lia) dopri5_order) as Ho.
  destruct (butcher_dense eps dopri5_tab7 dopri5_tab7 4 (twin_dopri5 eps) (wf_dopri5 NN) (tab_b (dopri5_tab7 (N := QNum 0))) Ho ltac:(lia) (I := I) M H HM HH
    (fun th m => nth m (dense_weights th) 0) 1 (fun th m Hth _ => W_nth th m Hth)) as (E & PE & B).
  { intros th t Hth Ht. rewrite <- (dense_order4 t th Ht). unfold dense_weights.
    set (rows := [] :: tab_a (dopri5_tab7 (N := QNum 0))).
    assert (El : length (phi rows t) = 7%nat) by (destruct t; unfold rows; reflexivity).
    destruct (phi rows t) as [|p1 [|p2 [|p3 [|p4 [|p5 [|p6 [|p7 [|p8 r]]]]]]]]; try discriminate.
    unfold sumn. reflexivity. }
  exists E. split; [exact PE|]. intros f y D T Tc Tay Sol t h ks Ht Hth Hh Hks th i Hi.
  specialize (B f y D T Tc Tay Sol t h ks Ht Hth Hh Hks th i Hi).
  rewrite wsum_sumn; [exact B|]. destruct Hks as [-> _ _]. reflexivity.
Qed.
End Local.

Lemma gronwall g C d a b : 0 <= g -> 0 <= C -> 0 <= d -> 0 <= a -> 0 <= b ->
  (1 + b * g) * (exp (g * a) * (d + C * a)) + C * b <= exp (g * (a + b)) * (d + C * (a + b)).
Proof.
  intros Pg PC Pd Pa Pb. rewrite (Rmult_plus_distr_l g), exp_plus.
  set (A := exp (g * a)). set (B := exp (g * b)).
  assert (HA : 1 <= A) by (unfold A; pose proof (exp_ineq1_le (g * a)); pose proof (Rmult_le_pos _ _ Pg Pa); lra).
  assert (HB : 1 + g * b <= B) by apply exp_ineq1_le.
  assert (P1 : 0 <= g * b) by now apply Rmult_le_pos.
  assert (P2 : 0 <= C * a) by now apply Rmult_le_pos.
  assert (P3 : 0 <= C * b) by now apply Rmult_le_pos.
  assert (Q1 : (1 + b * g) * (A * (d + C * a)) <= B * (A * (d + C * a))).
  { apply Rmult_le_compat_r; [|lra]. apply Rmult_le_pos; lra. }
  assert (Q2 : 1 * (C * b) <= (B * A) * (C * b)).
  { apply Rmult_le_compat_r; [exact P3|]. replace 1 with (1 * 1) by ring. apply Rmult_le_compat; lra. }
  replace (A * B * (d + C * (a + b))) with (B * (A * (d + C * a)) + (B * A) * (C * b)) by ring. lra.
Qed.

Section Obj.
Variable eps : R.
Hypothesis eps0 : 0 <= eps.
Notation NN := (RNum eps).
Context {I : Type}.
Variable idx : list I.
Variable sys : vec NN I -> NN -> vec NN I.
Variable eo so : Z.
Hypothesis Heo : (2 <= eo)%Z.
Hypothesis Hso : (1 <= so)%Z.
Variable cfg : err_cfg NN.
Variable max_dt : NN.
Notation ftry := (dopri5_ftry (N := NN) sys idx (rpow : NN -> NN -> NN) eo so cfg max_dt).
Notation obj := (fv NN I (rkmem NN I * vec NN I)).
Notation AL := (mkAlias false false).
Notation tb := (tab_of (N := NN) rk_dopri5).

Variable T : R -> Prop.
Hypothesis Tconv : forall s u c, T s -> T u -> 0 <= c <= 1 -> T (s + c * (u - s)).
Variables L H E : R.
Hypothesis HL0 : 0 <= L.
Hypothesis HH0 : 0 <= H.
Hypothesis HE0 : 0 <= E.
Hypothesis HL : lipschitz T L sys.
Variable y : R -> I -> R.
Hypothesis Hcon : consistent tb sys y T H E 5.
Hypothesis Hden : forall t h ks, T t -> T (t + h) -> Rabs h <= H -> rk_stages_R eps tb sys (y t) t h ks ->
  forall th i, 0 <= th <= 1 -> Rabs (y t i + h * wsum (dense_weights th) ks i - y (t + th * h) i) <= E * Rabs h ^ 5.

(** The interpolant of a step that starts within [e] of the solution. *)
Lemma dense_near x t h e ks th i : 0 <= e -> T t -> T (t + h) -> Rabs h <= H -> (forall j, Rabs (x j - y t j) <= e) ->
  rk_stages_R eps tb sys x t h ks -> 0 <= th <= 1 ->
  Rabs (x i + h * wsum (dense_weights th) ks i - y (t + th * h) i) <= (1 + Rabs h * dense_growth (eps := eps) L H) * e + E * Rabs h ^ 5.
Proof.
  intros He Ht Hth Hh Hx Hks Hi. destruct (step_exists eps rk_dopri5 sys (y t) t h) as (z & ls & Hls & _).
  pose proof (Hden t h ls Ht Hth Hh Hls th i Hi) as B2.
  pose proof (q_nonneg eps tb L H HL0 HH0) as Hq.
  assert (B1 : Rabs (wsum (dense_weights th) ks i - wsum (dense_weights th) ls i)
     <= rsum (map Rabs (dense_weights th)) * (L * e * (1 + H * L * stage_size tb) ^ length (tab_a tb))).
  { apply wsum_diff.
    - apply Rmult_le_pos; [now apply Rmult_le_pos|]. apply pow_le. lra.
    - intros j k l F1 F2. exact (stages_stable eps tb (wf_tab_of NN rk_dopri5) (tab_c_unit eps rk_dopri5) (tab_row_sum eps rk_dopri5)
        T Tconv sys L H HL0 HH0 HL x (y t) t h e ks ls He Ht Hth Hh Hx Hks Hls j k l F1 F2 i).
    - destruct Hks as [-> _ _], Hls as [-> _ _]. reflexivity. }
  change (length (tab_a tb)) with 6%nat in B1. set (P := (1 + H * L * stage_size tb) ^ 6) in *.
  assert (PP : 0 <= P) by (apply pow_le; lra).
  assert (B3 : rsum (map Rabs (dense_weights th)) * (L * e * P) <= 6 * (L * e * P)).
  { apply Rmult_le_compat_r; [|now apply W_size]. apply Rmult_le_pos; [now apply Rmult_le_pos|exact PP]. }
  replace (x i + h * wsum (dense_weights th) ks i - y (t + th * h) i)
    with ((x i - y t i) + h * (wsum (dense_weights th) ks i - wsum (dense_weights th) ls i)
          + (y t i + h * wsum (dense_weights th) ls i - y (t + th * h) i)) by ring.
  eapply Rle_trans; [apply Rabs_triang|]. apply Rplus_le_compat; [|exact B2].
  eapply Rle_trans; [apply Rabs_triang|]. rewrite Rabs_mult.
  replace ((1 + Rabs h * dense_growth (eps := eps) L H) * e) with (e + Rabs h * (6 * (L * e * P))) by (unfold dense_growth, P; cbn [tab_of]; ring).
  apply Rplus_le_compat; [apply Hx|]. apply Rmult_le_compat_l; [apply Rabs_pos|lra].
Qed.

(** One do_step. *)
Lemma step_acc (v v' : obj) e : sound eps sys v -> (f_dt v : R) <> 0 -> agrees (f_dt v) max_dt ->
  a_step sys ftry v = (v', Ok tt) -> 0 <= e -> T (f_t v) -> T (f_t v') -> Rabs (f_t v' - f_t v) <= H ->
  (forall j, Rabs (f_x v j - y (f_t v) j) <= e) ->
  let h := f_t v' - f_t v in
  (forall j, Rabs (f_x v' j - y (f_t v') j) <= (1 + Rabs h * growth tb L H) * e + E * Rabs h ^ 6)
  /\ forall c i, 0 <= c <= 1 -> let s := f_t v + c * h in
     Rabs (a_calc (dopri5_fcalc (N := NN)) v' s i - y s i) <= (1 + Rabs h * dense_growth (eps := eps) L H) * e + E * Rabs h ^ 5.
Proof.
  intros Hs Hdt Ha Est He Ht Ht' Hh Hx.
  destruct (step_R eps eps0 idx sys eo so Heo Hso cfg max_dt v v' Hdt Ha Est) as (h & H1 & H2 & H3 & H4 & H5 & H6 & H7 & m & M1 & M2 & M3 & M4 & M5 & M6).
  assert (Md : m LDx = sys (m LIn) (f_t v)).
  { rewrite M1, M2. unfold sound in Hs. destruct (f_der v); [now apply Hs|reflexivity]. }
  intro h'. assert (Eh : h' = h) by (unfold h'; rewrite H3; change (carrier NN) with R; ring).
  assert (Hh' : Rabs h <= H) by (rewrite <- Eh; exact Hh). clearbody h'. subst h'. clear Hh.
  rewrite H3 in Ht'. change (carrier NN) with R in *.
  destruct (dopri5_run eps sys (f_t v) h m Md) as (k2 & Hst & Hy).
  set (m' := fst (exec (N := NN) sys AL (dopri5_err_prog (N := NN) AL (f_t v) h) m)) in *.
  change (fst (exec sys separate (dopri5_err_prog separate (f_t v) h) m)) with m' in Hst, Hy.
  set (ks := [m LDx; k2; m' (LK 1); m' (LK 2); m' (LK 3); m' (LK 4); m' LDxOut]) in *.
  rewrite M1 in Hst.
  split.
  - intro j. rewrite H3, M5.
    refine (local_ord eps rk_dopri5 T Tconv sys L H E 5 HL0 HH0 HL y Hcon (f_x v) (f_t v) h e (m' LOut) He Ht Ht' Hh' Hx _ j).
    exists ks. split; [exact Hst|]. intro i. rewrite <- M1. exact (Hy i).
  - intros c i Hc s.
    pose proof (dense_near (f_x v) (f_t v) h e ks c i He Ht Ht' Hh' Hx Hst Hc) as B. fold s in B.
    assert (ED : a_calc (dopri5_fcalc (N := NN)) v' s = dense_at eps (f_t v) h m m' s).
    { unfold a_calc, dopri5_fcalc, dense_at. rewrite M4, M3, H4, H5, M6, <- M1, H3. reflexivity. }
    rewrite ED. pose proof (nz _ _ H1) as Hn.
    assert (E2 : dense_at eps (f_t v) h m m' s i = f_x v i + h * wsum (dense_weights c) ks i).
    { assert (En : f_t v + h <> f_t v) by (intro Q; apply Hn; clear - Q; change (carrier NN) with R in *; lra).
      etransitivity; [exact (calc_weights eps (m LIn) (m LDx) (m' (LK 1)) (m' (LK 2)) (m' (LK 3)) (m' (LK 4)) (m' LDxOut) (f_t v) (f_t v + h) s i En)|].
      replace ((s - f_t v) / (f_t v + h - f_t v)) with c.
      2:{ unfold s. change (carrier NN) with R. field. clear - Hn. change (carrier NN) with R in *. intro Q. apply Hn. lra. }
      rewrite M1. unfold ks, dense_weights, wsum. cbn [combine map rsum fold_right fst snd]. unfold rsum. cbn [fold_right].
      change (carrier NN) with R. ring. }
    rewrite E2. exact B.
Qed.
End Obj.

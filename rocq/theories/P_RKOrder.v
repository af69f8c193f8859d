(** Consequences of the order conditions: exact quadrature and the Taylor
    polynomial of the exponential on linear systems. *)
From Coq Require Import ZArith List Bool Lia Arith Reals Lra QArith Qreals FunctionalExtensionality Factorial.
From Verif Require Import M_Num M_RK S_RK P_RK P_RKR P_Trees P_RKLin P_Poly.
Import ListNotations.
Local Open Scope R_scope.

(** ** Sums. *)
Lemma sumn_S : forall n g, sumn (S n) g = sumn n g + g n.
Proof.
  intros n g. unfold sumn. rewrite seq_S, map_app. simpl. unfold rsum.
  rewrite fold_right_app. simpl.
  generalize (map g (seq 0 n)). induction l; simpl; [ring|]. rewrite IHl. ring.
Qed.
Lemma sumn_ext : forall n g h, (forall m, (m < n)%nat -> g m = h m) -> sumn n g = sumn n h.
Proof.
  induction n; intros g h H; [reflexivity|]. rewrite !sumn_S, (IHn g h), (H n) by auto. reflexivity.
Qed.
Lemma sumn_plus : forall n g h, sumn n (fun m => g m + h m) = sumn n g + sumn n h.
Proof. induction n; intros; [unfold sumn; simpl; ring|]. rewrite !sumn_S, IHn. ring. Qed.
Lemma sumn_scale : forall n c g, sumn n (fun m => c * g m) = c * sumn n g.
Proof. induction n; intros; [unfold sumn; simpl; ring|]. rewrite !sumn_S, IHn. ring. Qed.
Lemma sumn_zero : forall n g, (forall m, (m < n)%nat -> g m = 0) -> sumn n g = 0.
Proof.
  intros n g H. rewrite (sumn_ext n g (fun _ => 0 * 0)) by (intros; rewrite H; auto; ring).
  rewrite sumn_scale. ring.
Qed.
Lemma sumn_shift : forall n g, sumn (S n) g = g 0%nat + sumn n (fun m => g (S m)).
Proof. induction n; intros g; [unfold sumn; simpl; ring|]. rewrite sumn_S, IHn, sumn_S. ring. Qed.
Lemma sumn_swap : forall n k F,
  sumn n (fun l => sumn k (fun m => F l m)) = sumn k (fun m => sumn n (fun l => F l m)).
Proof.
  induction n; intros k F.
  - unfold sumn at 1; simpl. symmetry. apply sumn_zero. intros; reflexivity.
  - rewrite sumn_S, IHn, <- sumn_plus. apply sumn_ext. intros. now rewrite sumn_S.
Qed.
Lemma sumn_split : forall n k g, sumn (n + k) g = sumn n g + sumn k (fun m => g (n + m)%nat).
Proof.
  induction k; intros g; [rewrite Nat.add_0_r; unfold sumn at 3; simpl; ring|].
  rewrite Nat.add_succ_r, !sumn_S, IHk. ring.
Qed.

Lemma rsum_combine : forall B (h : B -> R) (row : list R) (ks : list B) d,
  length row = length ks ->
  rsum (map (fun p => fst p * h (snd p)) (combine row ks))
  = sumn (length row) (fun l => nth l row 0 * h (nth l ks d)).
Proof.
  intros B h. induction row as [|a row IH]; intros [|k ks] d H; simpl in H; try lia.
  - reflexivity.
  - simpl length. rewrite sumn_shift. simpl. rewrite (IH ks d) by lia. reflexivity.
Qed.

Lemma wsum_sumn : forall I (row : list R) (ks : list (I -> R)) d i,
  length row = length ks ->
  wsum row ks i = sumn (length row) (fun l => nth l row 0 * nth l ks d i).
Proof. intros. unfold wsum. now rewrite (rsum_combine _ (fun k => k i) row ks d). Qed.

(** ** Rationals and reals. *)
Lemma Q2R_0' : Q2R 0 = 0. Proof. unfold Q2R; simpl; lra. Qed.
Lemma Q2R_1' : Q2R 1 = 1. Proof. unfold Q2R; simpl; lra. Qed.

Lemma qdot_sumn : forall row w, (length row <= length w)%nat ->
  Q2R (qdot row w) = sumn (length row) (fun l => nth l (map Q2R row) 0 * Q2R (nth l w 0%Q)).
Proof.
  unfold qdot. induction row as [|a row IH]; intros [|x w] H; simpl in H; try lia.
  - simpl. unfold sumn; simpl. apply Q2R_0'.
  - simpl. apply Q2R_0'.
  - cbn [combine map fold_right fst snd length]. rewrite sumn_shift.
    rewrite Q2R_plus, Q2R_mult. rewrite IH by lia. reflexivity.
Qed.

Lemma Q2R_inv_Z : forall z, (0 < z)%Z -> Q2R (1 / inject_Z z) = / IZR z.
Proof.
  intros z Hz. unfold Qdiv. rewrite Q2R_mult, Q2R_inv, Q2R_1'.
  - unfold Q2R at 1; simpl. field. apply not_0_IZR. lia.
  - unfold Qeq; simpl. lia.
Qed.

(** ** Bushy trees give the quadrature moments. *)
Definition bushy (k : nat) : tree := Node (repeat (Node []) k).

Lemma bushy_size : forall k, tsize (bushy k) = S k.
Proof.
  intro k. unfold bushy. simpl. f_equal. induction k; simpl; auto.
Qed.
Lemma bushy_gamma : forall k, gamma (bushy k) = Z.of_nat (S k).
Proof.
  intro k. unfold bushy. rewrite gamma_node.
  assert (E1 : fsize (repeat (Node []) k) = k) by (induction k; simpl; auto).
  assert (E2 : fgam (repeat (Node []) k) = 1%Z).
  { unfold fgam. clear. induction k; auto. cbn [repeat fold_right]. rewrite IHk. reflexivity. }
  rewrite E1, E2. lia.
Qed.

Lemma qdot_ones : forall row n, (length row <= n)%nat ->
  (qdot row (repeat 1%Q n) == fold_right Qplus 0 row)%Q.
Proof.
  unfold qdot. induction row as [|a row IH]; intros n H; [reflexivity|].
  destruct n; simpl in H; [lia|]. cbn [repeat combine map fold_right fst snd].
  rewrite IH by lia. rewrite Qmult_1_r. reflexivity.
Qed.

Lemma map_const_repeat : forall A B (b : B) (l : list A), map (fun _ => b) l = repeat b (length l).
Proof. induction l; simpl; f_equal; auto. Qed.

Section Order.
Variable eps : R.
Notation NN := (RNum eps).
Variable tb : tableau NN.
Variable tq : tableau (QNum 0).
Variable p : nat.
Hypothesis Htw : twin eps tb tq.
Hypothesis Hwf : wf_tableau tb.
Notation rows := ([] :: tab_a tq : list (list Q)).
Variable bq : list Q.
Hypothesis Hord : has_order rows bq (tab_c tq) p.
Notation b := (map Q2R bq).

Lemma row_len : forall i row, nth_error rows i = Some row -> length row = i.
Proof.
  intros [|i] row H; simpl in H; [now inversion H|].
  destruct Htw as [Ha _]. destruct Hwf as [_ _ Hr].
  specialize (Hr i (map Q2R row)). rewrite Ha in Hr.
  assert (E : nth_error (map (map Q2R) (tab_a tq)) i = Some (map Q2R row))
    by (apply (map_nth_error (map Q2R)); exact H).
  specialize (Hr E). rewrite map_length in Hr. exact Hr.
Qed.

Lemma order_moments : moments b (tab_c tb) p.
Proof.
  intros k Hk.
  destruct Hord as (Hoc & L1 & L2 & Hrs).
  specialize (Hoc (bushy k)). rewrite bushy_size in Hoc. specialize (Hoc ltac:(lia)).
  unfold order_condition in Hoc. rewrite bushy_gamma in Hoc.
  apply Qeq_eqR in Hoc. rewrite Q2R_inv_Z in Hoc by lia.
  rewrite <- INR_IZR_INZ in Hoc. rewrite <- Hoc. clear Hoc.
  destruct Htw as (_ & _ & Hc & _). rewrite Hc.
  assert (Hphi : Forall2 (fun ci ph => Q2R ph = Q2R ci ^ k) (tab_c tq) (phi rows (bushy k))).
  { assert (G : forall n rs cs, (forall row, In row rs -> (length row <= n)%nat) ->
        Forall2 (fun row ci => (fold_right Qplus 0 row == ci)%Q) rs cs ->
        Forall2 (fun ci ph => Q2R ph = Q2R ci ^ k) cs
          (map (fun row => fold_right (fun c q => (qdot row (repeat 1%Q n) * q)%Q) 1%Q
                             (repeat (Node []) k)) rs)).
    { intros n rs cs Hlen HF. induction HF as [|row ci rs cs Hrow HF IH]; simpl; constructor.
      - assert (Hd : (qdot row (repeat 1%Q n) == ci)%Q)
          by (rewrite qdot_ones by (apply Hlen; left; auto); auto).
        apply Qeq_eqR in Hd. clear - Hd. induction k; simpl.
        + apply Q2R_1'.
        + rewrite Q2R_mult, IHk, Hd. ring.
      - apply IH. intros; apply Hlen; right; auto. }
    specialize (G (length rows) rows (tab_c tq)).
    assert (Hlen : forall row, In row rows -> (length row <= length rows)%nat).
    { intros row Hin. apply In_nth_error in Hin. destruct Hin as [i Hi].
      rewrite (row_len i row Hi). apply Nat.lt_le_incl. apply nth_error_Some. congruence. }
    specialize (G Hlen Hrs).
    assert (E : phi rows (bushy k)
      = map (fun row => fold_right (fun c q => (qdot row (repeat 1%Q (length rows)) * q)%Q) 1%Q
                             (repeat (Node []) k)) rows).
    { unfold bushy. cbn [phi]. apply map_ext. intro row.
      rewrite <- map_const_repeat with (b := 1%Q) (l := rows). clear.
      induction k; cbn [repeat fold_right]; auto. rewrite IHk. reflexivity. }
    rewrite E. exact G. }
  unfold qsum, qdot. clear - Hphi. revert Hphi. generalize (phi rows (bushy k)) as ph.
  generalize (tab_c tq) as c. simpl. generalize bq as bb.
  induction bb as [|x bb IH]; intros c ph H; simpl; [symmetry; apply Q2R_0'|].
  destruct H as [|ci phi0 c ph H0 H]; simpl; [symmetry; apply Q2R_0'|].
  rewrite Q2R_plus, Q2R_mult, (IH c ph H), H0. reflexivity.
Qed.

(** Polynomial right-hand sides. *)
Theorem rk_polynomial : b = tab_b tb -> forall I (P : I -> list R) x t dt y,
  (forall i, (length (P i) <= S p)%nat) ->
  (forall i, x i = peval (P i) t) ->
  rk_result eps tb (fun _ s i => peval (pder (P i)) s) x t dt y ->
  forall i, y i = peval (P i) (t + dt).
Proof.
  intros Hb I P x t dt y HP Hx (ks & [L Z HS] & Hy) i.
  pose proof order_moments as Hmom.
  destruct Hwf as [Wc Wb Wr].
  destruct Hord as (_ & _ & _ & Hrs).
  assert (Hc0 : nth 0 (tab_c tb) 0 = 0).
  { destruct Htw as (_ & _ & Hc & _). rewrite Hc.
    inversion Hrs as [|r0 c0 rs cs H0 Hrest E1 E2]. simpl. simpl in H0.
    apply Qeq_eqR in H0. rewrite <- H0. apply Q2R_0'. }
  assert (Hk : forall s, (s < length ks)%nat ->
            nth_error ks s = Some (fun i => peval (pder (P i)) (t + nth s (tab_c tb) 0 * dt))).
  { intros [|s] Hs.
    - rewrite Z. f_equal. extensionality j. rewrite Hc0. f_equal. ring.
    - destruct (nth_error (tab_a tb) s) as [row|] eqn:Er; [|apply nth_error_None in Er; lia].
      destruct (nth_error (tab_c tb) (S s)) as [c|] eqn:Ec;
        [|apply nth_error_None in Ec; lia].
      rewrite (HS s row c Er Ec). rewrite (nth_error_nth _ _ _ Ec). reflexivity. }
  assert (Eks : ks = map (fun c i => peval (pder (P i)) (t + c * dt)) (tab_c tb)).
  { apply nth_ext with (d := fun _ => 0) (d' := fun i => peval (pder (P i)) (t + 0 * dt)).
    - rewrite map_length. exact (eq_trans L (eq_sym Wc)).
    - intros n Hn. rewrite (map_nth (fun c i => peval (pder (P i)) (t + c * dt))).
      exact (nth_error_nth _ _ _ (Hk n Hn)). }
  rewrite Hy, Hx, Eks. unfold wsum. rewrite <- Hb.
  pose proof (quadrature_exact b (tab_c tb) p Hmom (P i) (HP i) t dt) as HQ.
  unfold qsum in HQ.
  assert (E : forall w th, map (fun q => fst q * snd q i)
                 (combine w (map (fun c i => peval (pder (P i)) (t + c * dt)) th))
              = map (fun q => fst q * peval (pder (P i)) (t + snd q * dt)) (combine w th)).
  { induction w as [|a w IH]; intros [|c th]; simpl; auto. now rewrite IH. }
  rewrite E. lra.
Qed.

(** ** Tall trees give the stability polynomial. *)
Fixpoint tall (m : nat) : tree := match m with O => Node [] | S m' => Node [tall m'] end.
Lemma tall_size : forall m, tsize (tall m) = S m.
Proof. induction m; [reflexivity|]. simpl in *. rewrite IHm. lia. Qed.
Lemma tall_gamma : forall m, gamma (tall m) = Z.of_nat (fact (S m)).
Proof.
  induction m; [reflexivity|]. change (tall (S m)) with (Node [tall m]).
  rewrite gamma_node. unfold fsize, fgam. cbn [fold_right]. rewrite IHm, tall_size.
  change (fact (S (S m))) with ((S (S m)) * fact (S m))%nat. rewrite Nat2Z.inj_mul, Nat.add_0_r. ring.
Qed.

Definition qc (m i : nat) : R := Q2R (nth i (phi rows (tall m)) 0%Q).
Definition rrow (i : nat) : list R := map Q2R (nth i rows []).

Lemma phi_length : forall t, length (phi rows t) = length rows.
Proof. destruct t; simpl. now rewrite map_length. Qed.

Lemma qc_0 : forall i, (i < length rows)%nat -> qc 0 i = 1.
Proof.
  intros i Hi. unfold qc. cbn [tall phi].
  cbn [fold_right].
  rewrite nth_indep with (d' := 1%Q) by (rewrite map_length; auto).
  rewrite (map_const_repeat _ _ 1%Q rows), nth_repeat. apply Q2R_1'.
Qed.

Lemma qc_S : forall m i, (i < length rows)%nat ->
  qc (S m) i = sumn i (fun l => nth l (rrow i) 0 * qc m l).
Proof.
  intros m i Hi. unfold qc at 1, rrow.
  change (phi rows (tall (S m))) with (map (fun row => (qdot row (phi rows (tall m)) * 1)%Q) rows).
  destruct (nth_error rows i) as [row|] eqn:Er; [|apply nth_error_None in Er; lia].
  pose proof (row_len i row Er) as Hl.
  erewrite nth_error_nth by (apply (map_nth_error (fun row => (qdot row (phi rows (tall m)) * 1)%Q)); exact Er).
  rewrite (nth_error_nth _ _ _ Er).
  rewrite Q2R_mult, Q2R_1', Rmult_1_r, qdot_sumn by (rewrite phi_length; lia).
  rewrite Hl. reflexivity.
Qed.

Lemma qc_zero : forall m i, (i < length rows)%nat -> (i < m)%nat -> qc m i = 0.
Proof.
  induction m; intros i Hi Hm; [lia|].
  rewrite qc_S by auto. apply sumn_zero. intros l Hl. rewrite IHm by lia. ring.
Qed.

Section Linear.
Context {I : Type}.
Variable A : (I -> R) -> (I -> R).
Hypothesis HA : linear_map A.
Variables (x : I -> R) (t dt : R).
Notation n := (length rows).

Definition K (l : nat) : I -> R :=
  fun j => sumn n (fun m => qc m l * dt ^ m * mpow A (S m) x j).

Lemma A_sum : forall k (c : nat -> R) (v : nat -> I -> R) j,
  A (fun i => sumn k (fun m => c m * v m i)) j = sumn k (fun m => c m * A (v m) j).
Proof.
  induction k; intros c v j.
  - unfold sumn; simpl.
    pose proof (HA 0 0 (fun _ => 0) (fun _ => 0) j) as H.
    transitivity (A (fun i : I => 0 * 0 + 0 * 0) j); [|rewrite H; ring].
    f_equal. extensionality i. ring.
  - rewrite sumn_S, <- IHk.
    replace (fun i => sumn (S k) (fun m => c m * v m i))
      with (fun i => 1 * (fun i => sumn k (fun m => c m * v m i)) i + c k * v k i)
      by (extensionality i; rewrite sumn_S; ring).
    rewrite (HA 1 (c k) (fun i => sumn k (fun m => c m * v m i)) (v k) j). ring.
Qed.

Lemma linear_stages : forall ks,
  rk_stages_R eps tb (fun u _ => A u) x t dt ks -> ks = map K (seq 0 n).
Proof.
  intros ks [L Z HS].
  assert (Hn : length ks = n).
  { rewrite L. destruct Htw as [Ha _]. rewrite Ha, map_length. reflexivity. }
  assert (H : forall k, (k <= n)%nat -> firstn k ks = map K (seq 0 k)).
  { induction k; intro Hk; [reflexivity|].
    specialize (IHk ltac:(lia)).
    assert (Hnth : nth_error ks k = Some (K k)).
    { destruct k as [|s].
      - rewrite Z. f_equal. extensionality j. unfold K.
        destruct n as [|n'] eqn:En; [lia|]. rewrite sumn_shift.
        rewrite qc_0 by (rewrite En; lia). 
        rewrite (sumn_zero n') by (intros m Hm; rewrite qc_zero by (rewrite ?En; lia); ring).
        simpl. ring.
      - destruct (nth_error (tab_a tb) s) as [row|] eqn:Er; [|apply nth_error_None in Er; lia].
        destruct (nth_error (tab_c tb) (S s)) as [c|] eqn:Ec;
          [|apply nth_error_None in Ec; destruct Hwf as [Wc _ _]; lia].
        rewrite (HS s row c Er Ec). f_equal. extensionality j. rewrite IHk.
        rewrite (T_stage A x dt row (map K (seq 0 (S s))) j HA).
        assert (Hrow : row = rrow (S s) /\ length row = S s).
        { destruct Htw as [Ha _]. destruct Hwf as [_ _ Wr]. split; [|exact (Wr s row Er)].
          apply (nth_error_nth _ _ []) in Er. rewrite <- Er, Ha. unfold rrow. cbn [nth].
          exact (map_nth (map Q2R) (tab_a tq) [] s). }
        destruct Hrow as [Hrow Hlen].
        change (length (A := R) row = S s) in Hlen.
        change (@eq (list R) row (rrow (S s))) in Hrow.
        clear Er Ec HS. subst row. pose proof (eq_refl (rrow (S s))) as Hrow.
        revert Hlen Hrow. generalize (rrow (S s)) at 1 2 4 as row. intros row Hlen Hrow.
        rewrite (wsum_sumn I row _ (fun _ => 0)) by (rewrite !map_length, seq_length; auto).
        rewrite Hlen.
        rewrite (sumn_ext _ _ (fun l => sumn n (fun m => nth l row 0 * (qc m l * dt ^ m * mpow A (S (S m)) x j)))).
        2: { intros l Hl. rewrite map_map.
             assert (E : nth l (map (fun q => A (K q)) (seq 0 (S s))) (fun _ => 0) = A (K l)).
             { rewrite nth_indep with (d' := A (K 0)) by (rewrite map_length, seq_length; auto).
               rewrite (map_nth (fun q => A (K q))). rewrite seq_nth by auto. reflexivity. }
             rewrite E. unfold K.
             rewrite (A_sum n (fun m => qc m l * dt ^ m) (fun m => mpow A (S m) x) j).
             rewrite <- sumn_scale. apply sumn_ext. intros; reflexivity. }
        rewrite sumn_swap.
        rewrite (sumn_ext n _ (fun m => dt ^ m * qc (S m) (S s) * mpow A (S (S m)) x j)).
        2: { intros m Hm. rewrite qc_S by lia. rewrite <- Hrow.
             rewrite (sumn_ext _ _ (fun l => (dt ^ m * mpow A (S (S m)) x j) * (nth l row 0 * qc m l)))
               by (intros; ring).
             rewrite sumn_scale. ring. }
        rewrite <- sumn_scale.
        unfold K.
        assert (Elast : sumn (S n) (fun m => qc m (S s) * dt ^ m * mpow A (S m) x j)
                 = sumn n (fun m => qc m (S s) * dt ^ m * mpow A (S m) x j)).
        { rewrite sumn_S, qc_zero by lia. ring. }
        rewrite <- Elast, sumn_shift, qc_0 by lia. f_equal; [simpl; ring|].
        apply sumn_ext. intros m Hm. simpl. ring. }
    rewrite seq_S, map_app. simpl map. rewrite <- IHk.
    simpl (0 + k)%nat. clear - Hnth. revert ks Hnth. generalize (K k) as v. intro v.
    induction k; intros [|k0 ks] H; simpl in *; try discriminate.
    - now inversion H.
    - f_equal. now apply IHk. }
  specialize (H n (le_n _)). rewrite <- Hn in H at 1. now rewrite firstn_all in H.
Qed.

Lemma linear_result : length bq = n -> b = tab_b tb -> forall y,
  rk_result eps tb (fun u _ => A u) x t dt y ->
  forall j, y j = x j + sumn n (fun m => Q2R (qdot bq (phi rows (tall m))) * dt ^ (S m) * mpow A (S m) x j).
Proof.
  intros Hlb Hb y (ks & Hs & Hy) j.
  rewrite Hy, (linear_stages ks Hs). f_equal. rewrite <- Hb.
  assert (Hlen : length b = n) by (rewrite map_length; auto).
  rewrite (wsum_sumn I _ _ (fun _ => 0)) by (rewrite Hlen, map_length, seq_length; auto).
  rewrite Hlen.
  rewrite (sumn_ext _ _ (fun l => sumn n (fun m => nth l b 0 * (qc m l * dt ^ m * mpow A (S m) x j)))).
  2: { intros l Hl.
       assert (E : nth l (map K (seq 0 n)) (fun _ => 0) = K l).
       { rewrite nth_indep with (d' := K 0) by (rewrite map_length, seq_length; auto).
         rewrite map_nth, seq_nth by auto. reflexivity. }
       rewrite E. unfold K. now rewrite <- sumn_scale. }
  rewrite sumn_swap, <- sumn_scale. apply sumn_ext. intros m Hm.
  rewrite qdot_sumn by (rewrite phi_length; lia).
  rewrite Hlb.
  rewrite (sumn_ext n _ (fun l => (dt ^ m * mpow A (S m) x j) * (nth l b 0 * qc m l)))
    by (intros; ring).
  rewrite sumn_scale. unfold qc. simpl. ring.
Qed.
End Linear.

Theorem rk_linear_system : length bq = length rows -> b = tab_b tb -> (p <= length rows)%nat ->
  exists r : nat -> R, forall I (A : (I -> R) -> (I -> R)) x t dt y,
  linear_map A -> rk_result eps tb (fun u _ => A u) x t dt y ->
  forall j, y j = sumn (S p) (fun k => dt ^ k / INR (fact k) * mpow A k x j)
                + sumn (length rows - p) (fun k => r k * dt ^ (S p + k) * mpow A (S p + k) x j).
Proof.
  intros Hlb Hb Hp.
  exists (fun k => Q2R (qdot bq (phi rows (tall (p + k))))).
  intros I A x t dt y HA Hy j.
  rewrite (linear_result A HA x t dt Hlb Hb y Hy j).
  rewrite sumn_shift. 
  replace (sumn (length rows)) with (sumn (p + (length rows - p))) by (f_equal; lia).
  rewrite sumn_split.
  rewrite (sumn_ext p _ (fun m => dt ^ S m / INR (fact (S m)) * mpow A (S m) x j)).
  2: { intros m Hm. destruct Hord as (Hoc & _).
       specialize (Hoc (tall m)). rewrite tall_size in Hoc. specialize (Hoc ltac:(lia)).
       unfold order_condition in Hoc. rewrite tall_gamma in Hoc.
       apply Qeq_eqR in Hoc. rewrite Q2R_inv_Z in Hoc by (pose proof (lt_O_fact (S m)); lia).
       rewrite <- INR_IZR_INZ in Hoc. rewrite Hoc. field. apply INR_fact_neq_0. }
  cbn [mpow]. simpl (dt ^ 0). simpl (fact 0). simpl INR.
  rewrite Rplus_assoc. f_equal. field.
Qed.
End Order.

(** Convergence of velocity_verlet. *)
From Coq Require Import List Arith Bool Reals Lia Lra FunctionalExtensionality.
From Verif Require Import M_Num M_RK M_Symp S_Symp S_RK S_Conv S_Taylor S_VVConv P_RKOrder P_ConvOrd P_Taylor.
Import ListNotations.
Local Open Scope R_scope.

Lemma R3_abs a b c A B C : Rabs a <= A -> Rabs b <= B -> Rabs c <= C -> Rabs (a + b + c) <= A + B + C.
Proof. intros H1 H2 H3. pose proof (Rabs_triang (a + b) c). pose proof (Rabs_triang a b). lra. Qed.

Section V.
Variable eps : R.
Notation NN := (RNum eps).
Context {I : Type}.
Variable T : R -> Prop.
Hypothesis Tconv : forall s u c, T s -> T u -> 0 <= c <= 1 -> T (s + c * (u - s)).
Variable f : (I -> R) -> (I -> R) -> R -> (I -> R).
Variables L Lv M H : R.
Hypothesis HL0 : 0 <= L.
Hypothesis HLv0 : 0 <= Lv.
Hypothesis HM0 : 0 <= M.
Hypothesis HH0 : 0 <= H.
Hypothesis HL : lipschitz2 T L Lv f.
Variable Y : nat -> R -> I -> R.
Hypothesis Hder : derivatives T 4 Y.
Hypothesis Hsol : solution2 T f Y.
Hypothesis HB : forall k, (2 <= k <= 4)%nat -> deriv_bound T k M Y.

Lemma tay_q t h i : T t -> T (t + h) -> Rabs (Y 0 (t + h) i - (Y 0 t i + h * Y 1 t i + h * h / 2 * Y 2 t i)) <= M / 6 * Rabs h ^ 3.
Proof.
  intros Ht Hh. pose proof (taylor_gen T Tconv 3 Y M t h HM0 (fun k t i Hk => Hder k t i ltac:(lia)) (HB 3 ltac:(lia)) Ht Hh i) as B.
  unfold sumn in B. cbn [seq map rsum fold_right fact Nat.mul Nat.add INR pow] in B.
  match type of B with Rabs ?a <= ?b => replace a with (Y 0 (t + h) i - (Y 0 t i + h * Y 1 t i + h * h / 2 * Y 2 t i)) in B by (cbn; field);
    replace b with (M / 6 * Rabs h ^ 3) in B by (cbn [pow]; field) end. exact B.
Qed.

Lemma tay_p t h i : T t -> T (t + h) -> Rabs (Y 1 (t + h) i - (Y 1 t i + h / 2 * (Y 2 t i + Y 2 (t + h) i))) <= 5 * M / 12 * Rabs h ^ 3.
Proof.
  intros Ht Hh.
  pose proof (taylor_gen T Tconv 3 (fun k => Y (S k)) M t h HM0 (fun k t i Hk => Hder (S k) t i ltac:(lia)) (HB 4 ltac:(lia)) Ht Hh i) as B1.
  pose proof (taylor_gen T Tconv 2 (fun k => Y (S (S k))) M t h HM0 (fun k t i Hk => Hder (S (S k)) t i ltac:(lia)) (HB 4 ltac:(lia)) Ht Hh i) as B2.
  unfold sumn in B1, B2. cbn [seq map rsum fold_right fact Nat.mul Nat.add INR pow] in B1, B2.
  match type of B1 with Rabs ?a <= ?b => match type of B2 with Rabs ?c <= ?d =>
    replace (Y 1 (t + h) i - (Y 1 t i + h / 2 * (Y 2 t i + Y 2 (t + h) i))) with (a + (- (h / 2)) * c + 0) by (cbn; field);
    replace (5 * M / 12 * Rabs h ^ 3) with (b + Rabs h / 2 * d + 0) by (cbn [pow]; field) end end.
  apply R3_abs; [exact B1| |rewrite Rabs_R0; lra].
  rewrite Rabs_mult, Rabs_Ropp. unfold Rdiv at 1. rewrite Rabs_mult, (Rabs_pos_eq (/ 2)) by lra.
  apply Rmult_le_compat_l; [pose proof (Rabs_pos h); lra|exact B2].
Qed.

Notation K := (L + Lv).
(** One step: [b] bounds the error of coordinate and velocity, [al] the one of the stored acceleration. *)
Lemma step_error q p a t h hm b al :
  0 <= b -> T t -> T (t + h) -> Rabs h <= hm -> hm <= H ->
  (forall j, Rabs (q j - Y 0 t j) <= b) -> (forall j, Rabs (p j - Y 1 t j) <= b) -> (forall j, Rabs (a j - Y 2 t j) <= al) ->
  al <= K * b + Lv * M * hm ->
  let q' := vv_qout (N := NN) q p a h in let a' := f q' p (t + h) in let p' := vv_pout (N := NN) p a a' h in
  let b' := (1 + Rabs h * vv_growth L Lv H) * b + Rabs h * (Lv * M * hm + vv_const L Lv M H * (hm * hm)) in
  b <= b' /\ (forall j, Rabs (q' j - Y 0 (t + h) j) <= b') /\ (forall j, Rabs (p' j - Y 1 (t + h) j) <= b') /\
  (forall j, Rabs (a' j - Y 2 (t + h) j) <= K * b' + Lv * M * hm).
Proof.
  intros Hb Ht Hth Hh HmH Hq Hp Ha Hal q' a' p' b'.
  set (u := Rabs h) in *. assert (Hu : 0 <= u) by apply Rabs_pos.
  set (c := Lv * M / 2 + M / 6).
  assert (Pc : 0 <= c) by (unfold c; assert (0 <= Lv * M) by (now apply Rmult_le_pos); lra).
  assert (PLM : 0 <= Lv * M) by now apply Rmult_le_pos.
  assert (PK : 0 <= K) by lra.
  assert (PKb : 0 <= K * b) by now apply Rmult_le_pos.
  assert (Hm0 : 0 <= hm) by lra.
  (* coordinate *)
  set (eq1 := b + u * b + u * u / 2 * (K * b + Lv * M * hm) + M / 6 * u ^ 3).
  assert (Q1 : forall j, Rabs (q' j - Y 0 (t + h) j) <= eq1).
  { intro j. pose proof (tay_q t h j Ht Hth) as B.
    assert (E : q' j = q j + h * p j + h * h / 2 * a j).
    { unfold q', vv_qout, scale_sum. cbn [fold_left fst snd nadd nmul ndiv nofZ RNum]. change (carrier NN) with R in *. field. }
    rewrite E.
    replace (q j + h * p j + h * h / 2 * a j - Y 0%nat (t + h) j) with
      ((q j - Y 0%nat t j) + h * (p j - Y 1%nat t j) + (h * h / 2 * (a j - Y 2%nat t j) +
        - (Y 0%nat (t + h) j - (Y 0%nat t j + h * Y 1%nat t j + h * h / 2 * Y 2%nat t j)))) by field.
    unfold eq1. replace (b + u * b + u * u / 2 * (K * b + Lv * M * hm) + M / 6 * u ^ 3)
      with (b + u * b + (u * u / 2 * (K * b + Lv * M * hm) + M / 6 * u ^ 3)) by ring.
    apply R3_abs; [apply Hq| |].
    - rewrite Rabs_mult. apply Rmult_le_compat_l; [exact Hu|apply Hp].
    - eapply Rle_trans; [apply Rabs_triang|]. rewrite Rabs_Ropp. apply Rplus_le_compat; [|exact B].
      unfold Rdiv. rewrite !Rabs_mult, (Rabs_pos_eq (/ 2)) by lra. fold u.
      apply Rmult_le_compat_l; [pose proof (Rmult_le_pos u u Hu Hu); lra|]. eapply Rle_trans; [apply Ha|exact Hal]. }
  (* acceleration *)
  set (ea1 := L * eq1 + Lv * (b + u * M)).
  assert (A1 : forall j, Rabs (a' j - Y 2 (t + h) j) <= ea1).
  { intro j. rewrite (Hsol (t + h) j Hth). apply HL; [exact Hth|exact Q1|]. intro k.
    pose proof (taylor_gen T Tconv 1 (fun k => Y (S k)) M t h HM0 (fun k t i Hk => Hder (S k) t i ltac:(lia)) (HB 2 ltac:(lia)) Ht Hth k) as B.
    unfold sumn in B. cbn [seq map rsum fold_right fact Nat.mul Nat.add INR pow] in B.
    replace (p k - Y 1%nat (t + h) k) with ((p k - Y 1%nat t k) + - (Y 1%nat (t + h) k - Y 1%nat t k)) by ring.
    eapply Rle_trans; [apply Rabs_triang|]. rewrite Rabs_Ropp. apply Rplus_le_compat; [apply Hp|].
    match type of B with Rabs ?a <= ?b => replace a with (Y 1%nat (t + h) k - Y 1%nat t k) in B by (cbn; field);
      replace b with (u * M) in B by (unfold u; field) end. exact B. }
  (* velocity *)
  set (ep1 := b + u / 2 * ((K * b + Lv * M * hm) + ea1) + 5 * M / 12 * u ^ 3).
  assert (P1 : forall j, Rabs (p' j - Y 1 (t + h) j) <= ep1).
  { intro j. pose proof (tay_p t h j Ht Hth) as B.
    assert (E : p' j = p j + h / 2 * (a j + a' j)).
    { unfold p', vv_pout, scale_sum. cbn [fold_left fst snd nadd nmul ndiv nofZ RNum]. change (carrier NN) with R in *. field. }
    rewrite E.
    replace (p j + h / 2 * (a j + a' j) - Y 1%nat (t + h) j) with
      ((p j - Y 1%nat t j) + h / 2 * ((a j - Y 2%nat t j) + (a' j - Y 2%nat (t + h) j)) +
       - (Y 1%nat (t + h) j - (Y 1%nat t j + h / 2 * (Y 2%nat t j + Y 2%nat (t + h) j)))) by field.
    unfold ep1. apply R3_abs; [apply Hp| |now rewrite Rabs_Ropp].
    unfold Rdiv. rewrite !Rabs_mult, (Rabs_pos_eq (/ 2)) by lra. fold u.
    apply Rmult_le_compat_l; [lra|]. eapply Rle_trans; [apply Rabs_triang|]. apply Rplus_le_compat; [|apply A1].
    eapply Rle_trans; [apply Ha|exact Hal]. }
  (* the common bound *)
  assert (uH : u <= H) by lra.
  assert (u2 : u * u <= hm * hm) by (apply Rmult_le_compat; lra).
  assert (u2H : u * u <= H * u) by (apply Rmult_le_compat_r; lra).
  assert (F0 : 0 <= vv_const L Lv M H).
  { unfold vv_const. fold c. assert (0 <= H * L) by now apply Rmult_le_pos. assert (0 <= c * (1 + H * L / 2)) by (apply Rmult_le_pos; lra). lra. }
  assert (G0 : 0 <= vv_growth L Lv H).
  { unfold vv_growth. assert (0 <= H * H * K) by (apply Rmult_le_pos; [now apply Rmult_le_pos|lra]).
    assert (0 <= K * (1 + H + H * H * K / 4)) by (apply Rmult_le_pos; lra). lra. }
  assert (Bb : b <= b').
  { unfold b'. assert (0 <= u * vv_growth L Lv H * b) by (repeat apply Rmult_le_pos; assumption).
    assert (0 <= u * (Lv * M * hm + vv_const L Lv M H * (hm * hm))).
    { apply Rmult_le_pos; [exact Hu|]. apply Rplus_le_le_0_compat; repeat apply Rmult_le_pos; lra. }
    lra. }
  assert (E1 : eq1 <= b * (1 + u + u * u * K / 2) + c * (u * (hm * hm))).
  { unfold eq1, c.
    assert (Z1 : u * u / 2 * (Lv * M * hm) <= Lv * M / 2 * (u * (hm * hm))).
    { replace (u * u / 2 * (Lv * M * hm)) with (Lv * M / 2 * (u * (u * hm))) by field.
      apply Rmult_le_compat_l; [lra|]. apply Rmult_le_compat_l; [exact Hu|]. apply Rmult_le_compat_r; lra. }
    assert (Z2 : M / 6 * u ^ 3 <= M / 6 * (u * (hm * hm))).
    { apply Rmult_le_compat_l; [lra|]. replace (u ^ 3) with (u * (u * u)) by ring. now apply Rmult_le_compat_l. }
    lra. }
  assert (P6 : 0 <= u * (hm * hm)) by (repeat apply Rmult_le_pos; lra).
  assert (Ebq : eq1 <= b').
  { eapply Rle_trans; [exact E1|]. unfold b', vv_growth, vv_const. fold c.
    assert (W1 : b * (u * u * K / 2) <= b * (u * (K * H))).
    { apply Rmult_le_compat_l; [exact Hb|]. assert (u * u * K <= H * u * K) by (apply Rmult_le_compat_r; [exact PK|exact u2H]).
      assert (0 <= H * u * K) by (repeat apply Rmult_le_pos; assumption). lra. }
    assert (W2 : 0 <= u * (K * (1 + H * H * K / 4)) * b).
    { apply Rmult_le_pos; [|exact Hb]. apply Rmult_le_pos; [exact Hu|]. apply Rmult_le_pos; [exact PK|].
      assert (0 <= H * H * K) by (repeat apply Rmult_le_pos; assumption). lra. }
    assert (W3 : 0 <= u * (Lv * M * hm)) by (repeat apply Rmult_le_pos; lra).
    assert (W4 : 0 <= (c * (H * L / 2) + 5 * M / 12) * (u * (hm * hm))).
    { apply Rmult_le_pos; [|exact P6]. assert (0 <= c * (H * L / 2)) by (apply Rmult_le_pos; [exact Pc|]; assert (0 <= H * L) by (now apply Rmult_le_pos); lra). lra. }
    lra. }
  assert (Eba : ea1 <= K * b' + Lv * M * hm).
  { unfold ea1. assert (L * eq1 <= L * b') by now apply Rmult_le_compat_l.
    assert (Lv * b <= Lv * b') by now apply Rmult_le_compat_l.
    assert (Lv * (u * M) <= Lv * M * hm). { replace (Lv * (u * M)) with (Lv * M * u) by ring. now apply Rmult_le_compat_l. }
    lra. }
  assert (Ebp : ep1 <= b').
  { unfold ep1, ea1. set (X := b * (1 + u + u * u * K / 2) + c * (u * (hm * hm))) in *.
    assert (W0 : L * eq1 <= L * X) by now apply Rmult_le_compat_l.
    assert (Wu : Lv * (u * M) <= Lv * M * hm). { replace (Lv * (u * M)) with (Lv * M * u) by ring. now apply Rmult_le_compat_l. }
    assert (W1 : u / 2 * (K * b + Lv * M * hm + (L * eq1 + Lv * (b + u * M)))
      <= u / 2 * (K * b + Lv * M * hm + (L * X + Lv * b + Lv * M * hm))) by (apply Rmult_le_compat_l; lra).
    assert (W2 : 5 * M / 12 * u ^ 3 <= 5 * M / 12 * (u * (hm * hm))).
    { apply Rmult_le_compat_l; [lra|]. replace (u ^ 3) with (u * (u * u)) by ring. now apply Rmult_le_compat_l. }
    (* u/2 L b (u + u u K/2) *)
    assert (W3 : u / 2 * (L * (b * (u + u * u * K / 2))) <= u * b * (K * (H + H * H * K / 4))).
    { replace (u / 2 * (L * (b * (u + u * u * K / 2)))) with (u * b * (L * (u / 2 + u * u * K / 4))) by field.
      apply Rmult_le_compat_l; [now apply Rmult_le_pos|].
      assert (0 <= u * u * K) by (repeat apply Rmult_le_pos; assumption).
      assert (u * u * K <= H * H * K) by (apply Rmult_le_compat_r; [exact PK|apply Rmult_le_compat; lra]).
      apply Rmult_le_compat; lra. }
    assert (W4 : u / 2 * (L * (c * (u * (hm * hm)))) <= c * (H * L / 2) * (u * (hm * hm))).
    { replace (u / 2 * (L * (c * (u * (hm * hm))))) with (c * (u * L / 2) * (u * (hm * hm))) by field.
      apply Rmult_le_compat_r; [exact P6|]. apply Rmult_le_compat_l; [exact Pc|].
      assert (u * L <= H * L) by now apply Rmult_le_compat_r. lra. }
    assert (W5 : 0 <= c * (u * (hm * hm))) by now apply Rmult_le_pos.
    assert (W6 : 0 <= u * b) by now apply Rmult_le_pos.
    unfold b', vv_growth, vv_const. fold c. unfold X in *.
    lra. }
  split; [exact Bb|]. split; [|split]; intro j.
  - eapply Rle_trans; [apply Q1|exact Ebq].
  - eapply Rle_trans; [apply P1|exact Ebp].
  - eapply Rle_trans; [apply A1|exact Eba].
Qed.

Notation sg_ok sg := (sg = 1 \/ sg = -1).
(** The object and the state are close to the solution. *)
Definition close (b hm : R) (s : vv NN I) (x : (I -> R) * (I -> R)) (t : R) : Prop :=
  (forall j, Rabs (fst x j - Y 0 t j) <= b) /\ (forall j, Rabs (snd x j - Y 1 t j) <= b) /\
  (vv_first s = true \/ forall j, Rabs (vv_cur s j - Y 2 t j) <= K * b + Lv * M * hm).

Lemma fresh_acc b hm x t : 0 <= hm -> T t -> (forall j, Rabs (fst x j - Y 0 t j) <= b) -> (forall j, Rabs (snd x j - Y 1 t j) <= b) ->
  forall j, Rabs (f (fst x) (snd x) t j - Y 2 t j) <= K * b + Lv * M * hm.
Proof.
  intros Hm Ht Hq Hp j. rewrite (Hsol t j Ht). pose proof (HL _ _ _ _ t b b Ht Hq Hp j) as B.
  assert (0 <= Lv * M * hm) by (repeat apply Rmult_le_pos; assumption). lra.
Qed.

Lemma close_step b hm s rs x t h : 0 <= b -> 0 <= hm <= H -> T t -> T (t + h) -> Rabs h <= hm -> close b hm s x t ->
  let b' := (1 + Rabs h * vv_growth L Lv H) * b + Rabs h * (Lv * M * hm + vv_const L Lv M H * (hm * hm)) in
  b <= b' /\ let r := fst (vv_do_step (N := NN) f s rs x t h) in close b' hm (fst r) (snd r) (t + h).
Proof.
  intros Hb Hm Ht Hth Hh (Hq & Hp & Ha) b'. destruct x as [q p]. cbn [fst snd] in Hq, Hp.
  pose proof (fresh_acc b hm (q, p) t (proj1 Hm) Ht Hq Hp) as Hf. cbn [fst snd] in Hf.
  assert (G : exists a cur s2, (forall j, Rabs (a j - Y 2 t j) <= K * b + Lv * M * hm) /\
    fst (vv_do_step (N := NN) f s rs (q, p) t h) = (s2, (vv_qout (N := NN) q p a h, vv_pout (N := NN) p a (f (vv_qout (N := NN) q p a h) p (t + h)) h))
    /\ vv_cur s2 = cur /\ cur = f (vv_qout (N := NN) q p a h) p (t + h)).
  { destruct s as [a1 a2 c1 fi]. destruct rs as [[b1 b2]|].
    - exists (f q p t). destruct c1; eexists _, _; (split; [exact Hf|]); split; [reflexivity|split; reflexivity|reflexivity|split; reflexivity].
    - destruct fi.
      + exists (f q p t). destruct c1; eexists _, _; (split; [exact Hf|]); split; [reflexivity|split; reflexivity|reflexivity|split; reflexivity].
      + destruct Ha as [Ha|Ha]; [discriminate|]. exists (vv_cur (mkVv (N := NN) a1 a2 c1 false)).
        destruct c1; eexists _, _; (split; [exact Ha|]); split; [reflexivity|split; reflexivity|reflexivity|split; reflexivity]. }
  destruct G as (a & cur & s2 & Ba & -> & E1 & E2). cbn [fst snd].
  pose proof (step_error q p a t h hm b (K * b + Lv * M * hm) Hb Ht Hth Hh (proj2 Hm) Hq Hp Ba (Rle_refl _)) as (B1 & B2 & B3 & B4).
  split; [exact B1|]. unfold close. cbn [fst snd]. split; [exact B2|]. split; [exact B3|]. right. intro j. rewrite E1, E2. apply B4.
Qed.

Lemma bound_step G D E a u : 0 <= G -> 0 <= D -> 0 <= E -> 0 <= a -> 0 <= u ->
  (1 + u * G) * vv_bound G D E a + u * E <= vv_bound G D E (a + u).
Proof.
  intros HG HD HE Ha Hu. unfold vv_bound. replace (G * (a + u)) with (G * a + G * u) by ring. rewrite exp_plus.
  assert (E1 : 1 + G * u <= exp (G * u)) by apply exp_ineq1_le.
  assert (P : 1 <= exp (G * a)). { pose proof (exp_ineq1_le (G * a)). assert (0 <= G * a) by now apply Rmult_le_pos. lra. }
  assert (PGu : 0 <= G * u) by now apply Rmult_le_pos.
  assert (PE : 0 <= E * a) by now apply Rmult_le_pos. assert (PEu : 0 <= E * u) by now apply Rmult_le_pos.
  set (ea := exp (G * a)) in *. set (eu := exp (G * u)) in *.
  apply Rle_trans with (ea * ((1 + G * u) * (D + E * a) + E * u)).
  - assert (1 * (E * u) <= ea * (E * u)) by now apply Rmult_le_compat_r. lra.
  - rewrite Rmult_assoc. apply Rmult_le_compat_l; [lra|].
    assert ((1 + G * u) * (D + E * a) <= eu * (D + E * a)) by (apply Rmult_le_compat_r; lra).
    assert (1 * (E * u) <= eu * (E * u)) by (apply Rmult_le_compat_r; lra). lra.
Qed.

Notation G := (vv_growth L Lv H).
Notation E hm := (Lv * M * hm + vv_const L Lv M H * (hm * hm)).
Lemma G_nonneg : 0 <= G.
Proof.
  unfold vv_growth. assert (0 <= H * H * K) by (apply Rmult_le_pos; [now apply Rmult_le_pos|lra]).
  assert (0 <= K * (1 + H + H * H * K / 4)) by (apply Rmult_le_pos; lra). lra.
Qed.
Lemma E_nonneg hm : 0 <= hm -> 0 <= E hm.
Proof.
  intro Hm. assert (0 <= H * L) by now apply Rmult_le_pos. assert (0 <= Lv * M) by now apply Rmult_le_pos.
  apply Rplus_le_le_0_compat; [now apply Rmult_le_pos|]. apply Rmult_le_pos; [|now apply Rmult_le_pos].
  unfold vv_const. assert (0 <= (Lv * M / 2 + M / 6) * (1 + H * L / 2)) by (apply Rmult_le_pos; lra). lra.
Qed.
Lemma bound_nonneg D e a : 0 <= D -> 0 <= e -> 0 <= a -> 0 <= vv_bound G D e a.
Proof. intros. apply Rmult_le_pos; [apply Rlt_le, exp_pos|]. assert (0 <= e * a) by now apply Rmult_le_pos. lra. Qed.

Lemma close_grow b b' hm s x t : b <= b' -> close b hm s x t -> close b' hm s x t.
Proof.
  intros Hb (A & B & C). assert (K * b <= K * b') by (apply Rmult_le_compat_l; lra).
  split; [intro j; specialize (A j); lra|]. split; [intro j; specialize (B j); lra|].
  destruct C as [C|C]; [now left|right]. intro j. specialize (C j). lra.
Qed.

(** One step of the bound. *)
Lemma close_bound D hm a s rs x t h : 0 <= D -> 0 <= a -> 0 <= hm <= H -> T t -> T (t + h) -> Rabs h <= hm ->
  close (vv_bound G D (E hm) a) hm s x t ->
  let r := fst (vv_do_step (N := NN) f s rs x t h) in close (vv_bound G D (E hm) (a + Rabs h)) hm (fst r) (snd r) (t + h).
Proof.
  intros HD Ha Hm Ht Hth Hh Hc.
  pose proof (E_nonneg hm (proj1 Hm)) as PE. pose proof G_nonneg as PG.
  pose proof (close_step _ hm s rs x t h (bound_nonneg D (E hm) a HD PE Ha) Hm Ht Hth Hh Hc) as [_ B]. cbv zeta in *.
  eapply close_grow; [|exact B]. apply bound_step; auto. apply Rabs_pos.
Qed.

Lemma run_error sg hm D t0 : sg_ok sg -> 0 <= D -> 0 <= hm <= H -> forall ops s x t, T t -> 0 <= sg * (t - t0) ->
  close (vv_bound G D (E hm) (sg * (t - t0))) hm s x t -> directed T sg hm t ops ->
  forall x' t', In (x', t') (fst (vv_run (N := NN) f s x t ops)) ->
  0 <= sg * (t' - t0) /\ (forall i, Rabs (fst x' i - Y 0 t' i) <= vv_bound G D (E hm) (sg * (t' - t0))
    /\ Rabs (snd x' i - Y 1 t' i) <= vv_bound G D (E hm) (sg * (t' - t0))).
Proof.
  intros Hsg HD Hm. induction ops as [|o r IH]; intros s x t Ht Hd Hc Hdir x' t' Hin; [destruct Hin|].
  destruct o as [rs h| |rs|rs|rs]; cbn [vv_run directed] in *.
  - destruct Hdir as (H1 & H2 & H3).
    assert (Ah : Rabs h = sg * h) by (destruct Hsg as [->| ->]; [rewrite Rabs_right|rewrite Rabs_left1]; lra).
    pose proof (close_bound D hm (sg * (t - t0)) s rs x t h HD Hd Hm Ht H2 ltac:(lra) Hc) as B.
    cbv zeta in B. destruct (vv_do_step (N := NN) f s rs x t h) as [[s1 x1] l1]. cbn [fst snd] in B.
    rewrite Ah in B. replace (sg * (t - t0) + sg * h) with (sg * (t + h - t0)) in B by ring.
    assert (Hd1 : 0 <= sg * (t + h - t0)) by (replace (sg * (t + h - t0)) with (sg * (t - t0) + sg * h) by ring; lra).
    specialize (IH s1 x1 (t + h) H2 Hd1 B H3 x' t').
    change (@nadd NN t h) with (t + h)%R in Hin. destruct (vv_run (N := NN) f s1 x1 (t + h)%R r) as [ps l2]. cbn [fst] in Hin, IH.
    destruct Hin as [Q|Hin]; [|now apply IH]. injection Q as <- <-. split; [exact Hd1|]. intro i.
    destruct B as (B1 & B2 & _). split; [apply B1|apply B2].
  - apply (IH (vv_reset s) x t Ht Hd); auto. destruct Hc as (A & B & _). split; [exact A|]. split; [exact B|]. now left.
  - apply (IH (vv_adjust s rs) x t Ht Hd); auto. destruct Hc as (A & B & C). split; [exact A|]. split; [exact B|].
    destruct rs as [[b1 b2]|]; [now left|exact C].
  - unfold vv_initialize, vv_init_acc in Hin.
    match type of Hin with context [vv_run _ ?s0 x t r] => pose proof (IH s0 x t Ht Hd) as IH1; destruct (vv_run (N := NN) f s0 x t r) as [ps l2] end.
    cbn [fst] in Hin, IH1. refine (IH1 _ Hdir x' t' Hin). destruct Hc as (A & B & C). split; [exact A|]. split; [exact B|]. right.
    intro j. pose proof (fresh_acc _ hm x t (proj1 Hm) Ht A B j) as F.
    destruct rs as [[b1 b2]|], s as [a1 a2 [|] fi]; exact F.
  - refine (IH _ x t Ht Hd _ Hdir x' t' Hin). destruct Hc as (A & B & C). split; [exact A|]. split; [exact B|]. right.
    intro j. pose proof (fresh_acc _ hm x t (proj1 Hm) Ht A B j) as F.
    destruct rs as [[b1 b2]|], s as [a1 a2 [|] fi]; exact F.
Qed.
End V.

(** Comparisons over the reals. *)
From Coq Require Import List Reals ZArith Lra Lia.
From Verif Require Import M_Num M_Sign S_Grid S_Real P_Run.
Local Open Scope R_scope.

Lemma Rltb_true a b : Rltb a b = true <-> a < b.
Proof. unfold Rltb. destruct (Rlt_dec a b); split; auto; discriminate || contradiction. Qed.
Lemma Rltb_false a b : Rltb a b = false <-> b <= a.
Proof. unfold Rltb. destruct (Rlt_dec a b); split; auto; try discriminate; lra. Qed.
Lemma Rleb_true a b : Rleb a b = true <-> a <= b.
Proof. unfold Rleb. destruct (Rle_dec a b); split; auto; discriminate || contradiction. Qed.
Lemma Rleb_false a b : Rleb a b = false <-> b < a.
Proof. unfold Rleb. destruct (Rle_dec a b); split; auto; try discriminate; lra. Qed.

Lemma dir_cases dt : (0 < dt /\ dir dt = 1) \/ (dt <= 0 /\ dir dt = -1).
Proof. unfold dir. destruct (Rlt_dec 0 dt); [left|right]; lra. Qed.

Section S.
Variable eps : R.
Notation less := (@less_with_sign (RNum eps)).
Notation leq := (@less_eq_with_sign (RNum eps)).

Lemma npos_R dt : @npos (RNum eps) dt = Rltb 0 dt.
Proof. reflexivity. Qed.

Lemma less_R t1 t2 dt : less t1 t2 dt = true <-> dir dt * (t2 - t1) > eps.
Proof.
  unfold less_with_sign. rewrite npos_R. simpl. unfold dir, Rltb.
  destruct (Rlt_dec 0 dt).
  - destruct (Rlt_dec eps (t2 - t1)); split; intros; try lra; discriminate.
  - destruct (Rlt_dec eps (t1 - t2)); split; intros; try lra; discriminate.
Qed.
Lemma less_R_false t1 t2 dt : less t1 t2 dt = false <-> dir dt * (t2 - t1) <= eps.
Proof.
  destruct (less t1 t2 dt) eqn:E; split; intros H; auto; try discriminate.
  - apply less_R in E. lra.
  - destruct (Rle_dec (dir dt * (t2 - t1)) eps); auto. exfalso.
    assert (less t1 t2 dt = true) by (apply less_R; lra). congruence.
Qed.
Lemma leq_R t1 t2 dt : leq t1 t2 dt = true <-> dir dt * (t1 - t2) <= eps.
Proof.
  unfold less_eq_with_sign. rewrite npos_R. simpl. unfold dir, Rltb, Rleb.
  destruct (Rlt_dec 0 dt).
  - destruct (Rle_dec (t1 - t2) eps); split; intros; try lra; discriminate.
  - destruct (Rle_dec (t2 - t1) eps); split; intros; try lra; discriminate.
Qed.
Lemma leq_R_false t1 t2 dt : leq t1 t2 dt = false <-> dir dt * (t1 - t2) > eps.
Proof.
  destruct (leq t1 t2 dt) eqn:E; split; intros H; auto; try discriminate.
  - apply leq_R in E. lra.
  - destruct (Rle_dec (dir dt * (t1 - t2)) eps); try lra. exfalso.
    assert (leq t1 t2 dt = true) by (apply leq_R; lra). congruence.
Qed.

Lemma nofnat_R k : @nofnat (RNum eps) k = INR k.
Proof. unfold nofnat. simpl. symmetry. apply INR_IZR_INZ. Qed.

Lemma grid_R t0 dt k : @grid (RNum eps) t0 dt k = t0 + INR k * dt.
Proof. destruct k; unfold grid; [simpl; lra|]. rewrite nofnat_R. reflexivity. Qed.
End S.

Lemma dir_abs dt : dir dt * dt = Rabs dt.
Proof.
  destruct (dir_cases dt) as [[H ->]|[H ->]].
  - rewrite Rabs_right; lra.
  - rewrite Rabs_left1; lra.
Qed.
Lemma dir_sq dt : dir dt * dir dt = 1.
Proof. destruct (dir_cases dt) as [[H ->]|[H ->]]; lra. Qed.

Lemma first_false_exists (p : nat -> bool) : forall K, p K = false ->
  exists n, (n <= K)%nat /\ first_false p n.
Proof.
  assert (H : forall K, (forall k, (k < K)%nat -> p k = true) \/
                        exists n, (n < K)%nat /\ first_false p n).
  { induction K as [|K IH]; [left; lia|].
    destruct IH as [IH|(n & Hn & Hf)]; [|right; exists n; split; [lia|auto]].
    destruct (p K) eqn:E.
    - left. intros k Hk. destruct (Nat.eq_dec k K) as [->|]; auto. apply IH; lia.
    - right. exists K. split; [lia|]. split; auto. }
  intros K HK. destruct (H K) as [H1|(n & Hn & Hf)].
  - exists K. split; [lia|split; auto].
  - exists n. split; [lia|auto].
Qed.

Lemma INR_unbounded (b : R) : exists k : nat, b < INR k.
Proof.
  exists (Z.to_nat (up b)). destruct (archimed b) as [H _].
  destruct (Z_le_gt_dec 0 (up b)) as [Hz|Hz].
  - rewrite INR_IZR_INZ, Z2Nat.id; lra || auto.
  - rewrite INR_IZR_INZ. assert (IZR (up b) <= 0) by (apply IZR_le; lia).
    assert (0 <= IZR (Z.of_nat (Z.to_nat (up b)))) by (apply IZR_le; lia). lra.
Qed.

Lemma INR_archimed (a b : R) : 0 < a -> exists k : nat, b < INR k * a.
Proof.
  intros Ha. destruct (INR_unbounded (b / a)) as [k Hk]. exists k.
  apply (Rmult_lt_compat_r a) in Hk; auto. unfold Rdiv in Hk.
  rewrite Rmult_assoc, Rinv_l, Rmult_1_r in Hk; lra.
Qed.

Ltac rnum := cbn [carrier nadd nsub nmul ndiv nopp nabs nlt nle neps nofZ RNum] in *.

Lemma dir_eq_of_pos dt d : 0 < dir dt * d -> dir d = dir dt.
Proof.
  intros H. destruct (dir_cases dt) as [[H1 E]|[H1 E]]; rewrite E in *;
  destruct (dir_cases d) as [[H2 ->]|[H2 ->]]; lra.
Qed.

Lemma min_abs_R eps dt d : dt <> 0 -> 0 < dir dt * d ->
  dir dt * (@min_abs (RNum eps) dt d) = Rmin (Rabs dt) (dir dt * d) /\
  (@min_abs (RNum eps) dt d = dt \/ @min_abs (RNum eps) dt d = d).
Proof.
  intros Hdt Hd. unfold min_abs, nmin, nmax. rewrite npos_R. rnum.
  rewrite <- dir_abs. unfold Rmin.
  destruct (dir_cases dt) as [[H E]|[H E]]; rewrite E in *;
   destruct (Rltb 0 dt) eqn:E0;
   first [apply Rltb_true in E0 | apply Rltb_false in E0]; try lra;
   match goal with |- context [if Rltb ?a ?b then _ else _] =>
     destruct (Rltb a b) eqn:E1; first [apply Rltb_true in E1 | apply Rltb_false in E1] end;
   match goal with |- context [if ?c then _ else _] => destruct c end;
   split; auto; lra.
Qed.

Lemma max_abs_R eps dt d : 0 < dir dt * d -> 0 < dir dt * dt ->
  dir dt * (@max_abs (RNum eps) dt d) = Rmax (Rabs dt) (dir dt * d) /\
  (@max_abs (RNum eps) dt d = dt \/ @max_abs (RNum eps) dt d = d).
Proof.
  intros Hdt Hd. unfold max_abs, nmin, nmax. rewrite npos_R. rnum.
  rewrite <- dir_abs. unfold Rmax.
  destruct (dir_cases dt) as [[H E]|[H E]]; rewrite E in *;
   destruct (Rltb 0 dt) eqn:E0;
   first [apply Rltb_true in E0 | apply Rltb_false in E0]; try lra;
   match goal with |- context [if Rltb ?a ?b then _ else _] =>
     destruct (Rltb a b) eqn:E1; first [apply Rltb_true in E1 | apply Rltb_false in E1] end;
   match goal with |- context [if ?c then _ else _] => destruct c end;
   split; auto; lra.
Qed.

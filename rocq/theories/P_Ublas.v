(** Attempts with matrix states. *)
From Coq Require Import ZArith List Bool Lia Reals Lra.
From Verif Require Import M_Num M_Sign M_RK M_CtrlRK M_Ublas S_Real S_RK S_Ctrl S_CtrlRK S_Ublas P_R P_CtrlRKR P_ConvOrd.
Import ListNotations.
Local Open Scope R_scope.

(** With the norm of range_algebra it is the try_step of M_CtrlRK. *)
Lemma vs_try_norm_inf (N : Num) I S (idx : list I) pw sys (estep : S -> vec N I -> vec N I -> N -> N -> S * vec N I * vec N I)
    eo so cfg max_dt c x t dt :
  vs_try (norm_inf idx) pw sys estep eo so cfg max_dt c x t dt = ck_try idx pw sys estep eo so cfg max_dt c x t dt.
Proof.
  unfold vs_try, ck_try, ck_try_v2, ck_core, vs_error, checker_error. cbn [ck_st ck_dxdt ck_xerr ck_xnew].
  destruct (check_step_size_limit max_dt dt); [|reflexivity].
  destruct (estep (ck_st c) x (sys x t) t dt) as [[a b] d]. cbv beta iota zeta.
  destruct (ngt _ _); reflexivity.
Qed.

Section R.
Variable eps : R.
Notation NN := (RNum eps).
Variable rows cols : nat.

Lemma row_fold (v : nat * nat -> R) i : forall l (a : R),
  @eq R (fold_left (fun (u : NN) j => @nadd NN u (@nabs NN (v (i, j)))) l a) (a + rsum (map (fun j => Rabs (v (i, j))) l)).
Proof.
  induction l as [|j l IH]; intro a; [cbn; ring|]. cbn [fold_left map].
  etransitivity; [apply (IH (a + Rabs (v (i, j))))|]. cbn [rsum fold_right]. unfold rsum. ring.
Qed.
Lemma row_sum_R (v : nat * nat -> R) i : @eq R (@row_sum NN cols v i) (sumn cols (fun j => Rabs (v (i, j)))).
Proof. unfold row_sum. etransitivity; [apply (row_fold v i _ 0)|]. unfold sumn. ring. Qed.

Lemma mat_fold_le (v : nat * nat -> R) b : forall l (a : R),
  fold_left (fun m i => @nmax NN m (@row_sum NN cols v i)) l a <= b
  <-> a <= b /\ forall i, In i l -> sumn cols (fun j => Rabs (v (i, j))) <= b.
Proof.
  induction l as [|i l IH]; intro a; cbn [fold_left].
  - split; [intro H; split; [exact H|intros i []]|tauto].
  - etransitivity; [apply (IH (@nmax NN a (@row_sum NN cols v i)))|]. rewrite nmax_R, row_sum_R.
    pose proof (Rmax_l a (sumn cols (fun j => Rabs (v (i, j))))). pose proof (Rmax_r a (sumn cols (fun j => Rabs (v (i, j))))).
    split.
    + intros [H1 H2]. split; [lra|]. intros j [<-|Hj]; [lra|auto].
    + intros [H1 H2]. split; [|intros j Hj; apply H2; now right]. apply Rmax_lub; [exact H1|]. apply H2. now left.
Qed.
Lemma mat_norm_le (v : nat * nat -> R) b : 0 <= b ->
  @mat_norm NN rows cols v <= b <-> forall i, (i < rows)%nat -> sumn cols (fun j => Rabs (v (i, j))) <= b.
Proof.
  intro Hb. unfold mat_norm. etransitivity; [apply mat_fold_le|]. change (@nofZ NN 0) with 0. split.
  - intros [_ H] i Hi. apply H, in_seq. lia.
  - intro H. split; [exact Hb|]. intros i Hi. apply H. apply in_seq in Hi. lia.
Qed.

Section E.
Context {S : Type}.
Variable sys : (nat * nat -> R) -> R -> (nat * nat -> R).
Variable estep : S -> (nat * nat -> R) -> (nat * nat -> R) -> R -> R -> S * (nat * nat -> R) * (nat * nat -> R).
Variable eo so : Z.
Variable cfg : err_cfg NN.
Variable max_dt : R.
Notation try := (vs_try (N := NN) (@mat_norm NN rows cols) rpow sys estep eo so cfg max_dt).
Notation err x dx e dt := (snd (@vs_error NN (nat * nat) (@mat_norm NN rows cols) cfg x dx e dt)).
Hypothesis tol : good_tol (eps_abs cfg) (eps_rel cfg) (a_x cfg) (a_dxdt cfg).

Lemma allowed_pos (x dx : nat * nat -> R) dt i : 0 < allowed (eps_abs cfg) (eps_rel cfg) (a_x cfg) (a_dxdt cfg) x dx dt i.
Proof.
  destruct tol as (H1 & H2 & H3 & H4). unfold allowed.
  pose proof (Rabs_pos (x i)). pose proof (Rabs_pos (dx i)). pose proof (Rabs_pos dt).
  assert (0 <= a_x cfg * Rabs (x i)) by now apply Rmult_le_pos.
  assert (0 <= a_dxdt cfg * Rabs dt) by now apply Rmult_le_pos.
  assert (0 <= a_dxdt cfg * Rabs dt * Rabs (dx i)) by now apply Rmult_le_pos.
  assert (0 <= eps_rel cfg * (a_x cfg * Rabs (x i) + a_dxdt cfg * Rabs dt * Rabs (dx i))) by (apply Rmult_le_pos; lra).
  change (carrier NN) with R in *. lra.
Qed.

Lemma err_rows (x dx e : nat * nat -> R) dt :
  err x dx e dt <= 1 <-> rows_within rows cols (eps_abs cfg) (eps_rel cfg) (a_x cfg) (a_dxdt cfg) x dx e dt.
Proof.
  unfold vs_error. cbn [snd]. etransitivity; [apply mat_norm_le; lra|]. unfold rows_within.
  assert (E : forall i, sumn cols (fun j => Rabs (@rel_error NN (eps_abs cfg) (eps_rel cfg) (a_x cfg) (@nmul NN (a_dxdt cfg) (@nabs NN dt)) (e (i, j)) (x (i, j)) (dx (i, j))))
    = sumn cols (fun j => Rabs (e (i, j)) / allowed (eps_abs cfg) (eps_rel cfg) (a_x cfg) (a_dxdt cfg) x dx dt (i, j))).
  { intro i. unfold sumn. f_equal. apply map_ext. intro j. pose proof (allowed_pos x dx dt (i, j)) as P.
    change (Rabs (Rabs (e (i, j)) / allowed (eps_abs cfg) (eps_rel cfg) (a_x cfg) (a_dxdt cfg) x dx dt (i, j))
      = Rabs (e (i, j)) / allowed (eps_abs cfg) (eps_rel cfg) (a_x cfg) (a_dxdt cfg) x dx dt (i, j)).
    apply Rabs_right, Rle_ge, Rmult_le_pos; [apply Rabs_pos|]. now apply Rlt_le, Rinv_0_lt_compat. }
  split; intros H i Hi; specialize (H i Hi); specialize (E i); cbv beta in *; change (carrier NN) with R in *; lra.
Qed.

Lemma try_exact c x t dt c' x' t' dt' ok : try c x t dt = (c', x', t', dt', ok) ->
  let e := snd (estep (ck_st c) x (sys x t) t dt) in
  ok = true <-> (max_dt = 0 \/ dir dt * (dt - max_dt) <= eps)
    /\ rows_within rows cols (eps_abs cfg) (eps_rel cfg) (a_x cfg) (a_dxdt cfg) x (sys x t) e dt.
Proof.
  intro H. cbv zeta. rewrite <- err_rows. revert H. unfold vs_try.
  destruct (@check_step_size_limit NN max_dt dt) eqn:E.
  - apply check_R in E. destruct (estep (ck_st c) x (sys x t) t dt) as [[st1 out1] xerr1] eqn:Es. cbn [snd].
    destruct (vs_error (@mat_norm NN rows cols) cfg x (sys x t) xerr1 dt) as [xerr2 er] eqn:Ec. cbn [snd].
    change (ngt er (@nofZ NN 1)) with (Rltb 1 er).
    destruct (Rltb 1 er) eqn:El; intro H; inversion H; subst.
    + apply Rltb_true in El. split; [discriminate|]. intros [_ Q]. change (carrier NN) with R in *. lra.
    + apply Rltb_false in El. split; [|reflexivity]. intros _. split; [exact E|exact El].
  - apply check_R_false in E. intro H; inversion H; subst. split; [discriminate|]. intros [[Q|Q] _]; lra.
Qed.

Lemma sumn_ge n (g : nat -> R) j : (forall k, (k < n)%nat -> 0 <= g k) -> (j < n)%nat -> g j <= sumn n g.
Proof.
  unfold sumn. revert j.
  assert (G : forall l, (forall k, In k l -> 0 <= g k) -> 0 <= rsum (map g l) /\ forall j, In j l -> g j <= rsum (map g l)).
  { induction l as [|k l IH]; intro H.
    - split; [cbn; lra|intros j []].
    - destruct (IH (fun k' Hk => H k' (or_intror Hk))) as [G1 G2]. pose proof (H k (or_introl eq_refl)).
      cbn [map rsum fold_right]. change (fold_right Rplus 0 (map g l)) with (rsum (map g l)). split; [lra|].
      intros j [<-|Hj]; [lra|]. specialize (G2 j Hj). lra. }
  intros j H Hj. apply (G (seq 0 n)); [|apply in_seq; lia]. intros k Hk. apply H. apply in_seq in Hk. lia.
Qed.

Lemma rows_safe x dx e dt : rows_within rows cols (eps_abs cfg) (eps_rel cfg) (a_x cfg) (a_dxdt cfg) x dx e dt ->
  within_tol (elements rows cols) (eps_abs cfg) (eps_rel cfg) (a_x cfg) (a_dxdt cfg) x dx e dt.
Proof.
  intros H [i j] Hi. apply in_prod_iff in Hi. rewrite !in_seq in Hi. destruct Hi as [Hi Hj].
  specialize (H i ltac:(lia)).
  pose proof (sumn_ge cols (fun j => Rabs (e (i, j)) / allowed (eps_abs cfg) (eps_rel cfg) (a_x cfg) (a_dxdt cfg) x dx dt (i, j)) j) as G.
  cbv beta in G. pose proof (allowed_pos x dx dt (i, j)) as P.
  assert (G' : Rabs (e (i, j)) / allowed (eps_abs cfg) (eps_rel cfg) (a_x cfg) (a_dxdt cfg) x dx dt (i, j) <= 1).
  { eapply Rle_trans; [apply G|exact H]; [|lia]. intros k _. apply Rmult_le_pos; [apply Rabs_pos|].
    apply Rlt_le, Rinv_0_lt_compat, allowed_pos. }
  apply (Rmult_le_compat_r (allowed (eps_abs cfg) (eps_rel cfg) (a_x cfg) (a_dxdt cfg) x dx dt (i, j))) in G'; [|lra].
  unfold Rdiv in G'. rewrite Rmult_assoc, Rinv_l, Rmult_1_l, Rmult_1_r in G' by lra. exact G'.
Qed.

Lemma sumn_bound n (g : nat -> R) b : (forall k, (k < n)%nat -> g k <= b) -> sumn n g <= INR n * b.
Proof.
  unfold sumn. intro H.
  assert (G : forall l, (forall k, In k l -> g k <= b) -> rsum (map g l) <= INR (length l) * b).
  { induction l as [|k l IH]; intro Hl; [cbn; lra|]. specialize (IH (fun k' Hk => Hl k' (or_intror Hk))).
    pose proof (Hl k (or_introl eq_refl)). cbn [map rsum fold_right length]. rewrite S_INR.
    change (fold_right Rplus 0 (map g l)) with (rsum (map g l)). lra. }
  rewrite <- (seq_length n 0) at 2. apply G. intros k Hk. apply H. apply in_seq in Hk. lia.
Qed.

Lemma rows_enough x dx e dt :
  within_tol (elements rows cols) (eps_abs cfg) (eps_rel cfg) (a_x cfg) (a_dxdt cfg) x dx (fun i => INR cols * e i) dt ->
  rows_within rows cols (eps_abs cfg) (eps_rel cfg) (a_x cfg) (a_dxdt cfg) x dx e dt.
Proof.
  intros H i Hi. destruct (Nat.eq_dec cols 0) as [Z|Z]; [rewrite Z; unfold sumn; cbn; lra|].
  assert (P : 0 < INR cols) by (apply lt_0_INR; lia).
  replace 1 with (INR cols * (/ INR cols)) by (field; lra). apply sumn_bound. intros j Hj.
  pose proof (allowed_pos x dx dt (i, j)) as A.
  specialize (H (i, j)). cbv beta in H. unfold elements in H. rewrite in_prod_iff, !in_seq in H.
  specialize (H ltac:(lia)). rewrite Rabs_mult, (Rabs_right (INR cols)) in H by lra.
  fold (allowed (eps_abs cfg) (eps_rel cfg) (a_x cfg) (a_dxdt cfg) x dx dt (i, j)) in H.
  apply Rmult_le_reg_l with (INR cols * allowed (eps_abs cfg) (eps_rel cfg) (a_x cfg) (a_dxdt cfg) x dx dt (i, j)); [now apply Rmult_lt_0_compat|].
  apply Rle_trans with (INR cols * Rabs (e (i, j))); [right; field; lra|].
  apply Rle_trans with (1 := H). right. field. lra.
Qed.
End E.
End R.

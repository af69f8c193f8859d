(** Step size control over the reals. *)
From Coq Require Import ZArith List Bool Reals Lra Lia.
From Verif Require Import M_Num M_Sign M_RK M_CtrlRK S_Real S_Ctrl S_CtrlRK P_R P_CtrlRK.
Import ListNotations.
Local Open Scope R_scope.

(** ** Powers. *)
Lemma rpow_pos x y : 0 < x -> rpow x y = Rpower x y.
Proof. intro H. unfold rpow. destruct (Req_EM_T x 0); [lra|reflexivity]. Qed.
Lemma Rpower_gt0 x y : 0 < Rpower x y.
Proof. unfold Rpower. apply exp_pos. Qed.
Lemma Rpower_lt1 x y : 1 < x -> y < 0 -> Rpower x y < 1.
Proof.
  intros Hx Hy. unfold Rpower. rewrite <- exp_0. apply exp_increasing.
  assert (0 < ln x) by (rewrite <- ln_1; apply ln_increasing; lra). nra.
Qed.
(** x^(-1/k) <= b  iff  1 <= x * b^k. *)
Lemma Rpower_root_le x b k : 0 < x -> 0 < b -> (0 < k)%nat ->
  1 <= x * b ^ k -> Rpower x (-1 / INR k) <= b.
Proof.
  intros Hx Hb Hk H.
  assert (K : 0 < INR k) by (apply lt_0_INR; lia).
  assert (B : 0 < b ^ k) by now apply pow_lt.
  assert (L : 0 <= ln x + INR k * ln b).
  { rewrite <- ln_1. rewrite <- (Rpower_pow k b Hb) in H. unfold Rpower in H.
    rewrite <- (ln_exp (INR k * ln b)). rewrite <- ln_mult; [|lra|apply exp_pos].
    destruct (Req_dec 1 (x * exp (INR k * ln b))) as [E|E]; [rewrite <- E; lra|].
    left. apply ln_increasing; lra. }
  unfold Rpower. rewrite <- (exp_ln b Hb) at 1.
  assert (Q : -1 / INR k * ln x <= ln b).
  { apply (Rmult_le_reg_l (INR k)); [exact K|].
    replace (INR k * (-1 / INR k * ln x)) with (- ln x) by (field; lra). lra. }
  rewrite (exp_ln b Hb). rewrite <- (exp_ln b Hb). destruct Q as [Q|Q]; [left; now apply exp_increasing|rewrite Q; lra].
Qed.
Lemma Rpower_root_ge x b k : 0 < x -> 0 < b -> (0 < k)%nat ->
  x * b ^ k <= 1 -> b <= Rpower x (-1 / INR k).
Proof.
  intros Hx Hb Hk H.
  assert (K : 0 < INR k) by (apply lt_0_INR; lia).
  assert (B : 0 < b ^ k) by now apply pow_lt.
  assert (L : ln x + INR k * ln b <= 0).
  { rewrite <- ln_1. rewrite <- (Rpower_pow k b Hb) in H. unfold Rpower in H.
    rewrite <- (ln_exp (INR k * ln b)). rewrite <- ln_mult; [|lra|apply exp_pos].
    assert (0 < x * exp (INR k * ln b)) by (apply Rmult_lt_0_compat; [lra|apply exp_pos]).
    destruct (Req_dec 1 (x * exp (INR k * ln b))) as [E|E]; [rewrite <- E; lra|].
    left. apply ln_increasing; lra. }
  unfold Rpower.
  assert (Q : ln b <= -1 / INR k * ln x).
  { apply (Rmult_le_reg_l (INR k)); [exact K|].
    replace (INR k * (-1 / INR k * ln x)) with (- ln x) by (field; lra). lra. }
  rewrite <- (exp_ln b Hb) at 1. destruct Q as [Q|Q]; [left; now apply exp_increasing|rewrite Q; lra].
Qed.
Lemma Rpower_root_lt x b k : 0 < x -> 0 < b -> (0 < k)%nat ->
  1 < x * b ^ k -> Rpower x (-1 / INR k) < b.
Proof.
  intros Hx Hb Hk H.
  assert (K : 0 < INR k) by (apply lt_0_INR; lia).
  assert (B : 0 < b ^ k) by now apply pow_lt.
  assert (L : 0 < ln x + INR k * ln b).
  { rewrite <- ln_1. rewrite <- (Rpower_pow k b Hb) in H. unfold Rpower in H.
    rewrite <- (ln_exp (INR k * ln b)). rewrite <- ln_mult; [|lra|apply exp_pos].
    apply ln_increasing; lra. }
  unfold Rpower.
  assert (Q : -1 / INR k * ln x < ln b).
  { apply (Rmult_lt_reg_l (INR k)); [exact K|].
    replace (INR k * (-1 / INR k * ln x)) with (- ln x) by (field; lra). lra. }
  rewrite <- (exp_ln b Hb). now apply exp_increasing.
Qed.

Section R.
Variable eps : R.
Notation NN := (RNum eps).

Lemma nmax_R a b : @nmax NN a b = Rmax a b.
Proof.
  unfold nmax. simpl. unfold Rltb, Rmax. destruct (Rlt_dec a b), (Rle_dec a b); auto; lra.
Qed.
Lemma nmin_R a b : @nmin NN a b = Rmin a b.
Proof.
  unfold nmin. simpl. unfold Rltb, Rmin. destruct (Rlt_dec b a), (Rle_dec a b); auto; lra.
Qed.
Lemma nneq_R a b : @nneq NN a b = true <-> a <> b.
Proof.
  unfold nneq. simpl. rewrite negb_true_iff, andb_false_iff, !Rleb_false. split; [lra|].
  intro. destruct (Rlt_dec b a); [now left|right; lra].
Qed.
Lemma nneq_R_false a b : @nneq NN a b = false <-> a = b.
Proof.
  unfold nneq. simpl. rewrite negb_false_iff, andb_true_iff, !Rleb_true. lra.
Qed.

(** ** Maximum norm. *)
Section Norm.
Context {I : Type}.
Lemma norm_fold_le : forall (idx : list I) (v : I -> R) a b,
  fold_left (fun m i => @nmax NN m (@nabs NN (v i))) idx a <= b <->
  a <= b /\ forall i, In i idx -> Rabs (v i) <= b.
Proof.
  induction idx as [|i idx IH]; intros v a b; cbn [fold_left].
  - split; [intros H; split; [exact H|intros i []]|tauto].
  - rewrite IH. rewrite nmax_R. cbn [nabs RNum].
    split.
    + intros [H1 H2]. pose proof (Rmax_l a (Rabs (v i))). pose proof (Rmax_r a (Rabs (v i))).
      split; [lra|]. intros j [<-|Hj]; [lra|auto].
    + intros [H1 H2]. split; [|intros j Hj; apply H2; now right].
      apply Rmax_lub; [exact H1|]. apply H2. now left.
Qed.
Lemma norm_inf_le : forall (idx : list I) (v : I -> R) b, 0 <= b ->
  @norm_inf NN I idx v <= b <-> forall i, In i idx -> Rabs (v i) <= b.
Proof.
  intros idx v b Hb. unfold norm_inf. etransitivity; [apply norm_fold_le|]. simpl. tauto.
Qed.
Lemma norm_inf_nonneg : forall (idx : list I) (v : I -> R), 0 <= @norm_inf NN I idx v.
Proof.
  intros idx v. unfold norm_inf. set (n := fold_left _ _ _).
  exact (proj1 (proj1 (norm_fold_le idx v 0 n) (Rle_refl n))).
Qed.

(** The error value is at most 1 iff the tolerance is met. *)
Lemma error_le1 : forall (idx : list I) (c : err_cfg NN) (x dx e : I -> R) dt,
  good_tol (eps_abs c) (eps_rel c) (a_x c) (a_dxdt c) ->
  snd (@checker_error NN I idx c x dx e dt) <= 1 <->
  within_tol idx (eps_abs c) (eps_rel c) (a_x c) (a_dxdt c) x dx e dt.
Proof.
  intros idx c x dx e dt (H1 & H2 & H3 & H4). unfold checker_error. cbn [snd].
  etransitivity; [apply norm_inf_le; lra|]. unfold within_tol.
  assert (D : forall i, 0 < eps_abs c + eps_rel c * (a_x c * Rabs (x i) + a_dxdt c * Rabs dt * Rabs (dx i))).
  { intro i. pose proof (Rabs_pos (x i)). pose proof (Rabs_pos (dx i)). pose proof (Rabs_pos dt).
    assert (0 <= a_x c * Rabs (x i)) by now apply Rmult_le_pos.
    assert (0 <= a_dxdt c * Rabs dt) by now apply Rmult_le_pos.
    assert (0 <= a_dxdt c * Rabs dt * Rabs (dx i)) by now apply Rmult_le_pos.
    assert (0 <= eps_rel c * (a_x c * Rabs (x i) + a_dxdt c * Rabs dt * Rabs (dx i))) by (apply Rmult_le_pos; lra).
    lra. }
  split; intros H i Hi; specialize (H i Hi); specialize (D i); unfold rel_error in *; cbn in *.
  - rewrite (Rabs_right (_ / _)) in H.
    2:{ apply Rle_ge, Rmult_le_pos; [apply Rabs_pos|]. left. now apply Rinv_0_lt_compat. }
    apply (Rmult_le_compat_r _ _ _ (Rlt_le _ _ D)) in H. unfold Rdiv in H.
    rewrite Rmult_assoc, Rinv_l, Rmult_1_r, Rmult_1_l in H by lra. exact H.
  - rewrite (Rabs_right (_ / _)).
    2:{ apply Rle_ge, Rmult_le_pos; [apply Rabs_pos|]. left. now apply Rinv_0_lt_compat. }
    apply (Rmult_le_reg_r _ _ _ D). unfold Rdiv.
    rewrite Rmult_assoc, Rinv_l, Rmult_1_r, Rmult_1_l by lra. exact H.
Qed.
End Norm.

(** ** The step adjuster. *)
Lemma min_abs_dir a b : a <> 0 -> 0 < dir a * b ->
  dir a * @min_abs NN a b = Rmin (Rabs a) (Rabs b).
Proof.
  intros Ha Hb. unfold min_abs. rewrite npos_R. unfold Rltb, dir in *.
  destruct (Rlt_dec 0 a).
  - rewrite nmin_R, !Rabs_right by lra. lra.
  - rewrite nmax_R, (Rabs_left a), (Rabs_left b) by lra.
    unfold Rmax, Rmin. destruct (Rle_dec a b), (Rle_dec (- a) (- b)); lra.
Qed.
Lemma dir_mult a k : 0 < k -> dir (a * k) = dir a.
Proof. intro Hk. unfold dir. destruct (Rlt_dec 0 (a * k)), (Rlt_dec 0 a); auto; nra. Qed.
Lemma dir_same a b : 0 < dir a * b -> dir b = dir a.
Proof. intro H. unfold dir in *. destruct (Rlt_dec 0 a), (Rlt_dec 0 b); auto; lra. Qed.

Definition shrink (error : R) (eo : Z) : R := Rmax (9 / 10 * rpow error (-1 / IZR (eo - 1))) (1 / 5).

Lemma shrink_bounds error eo : 1 < error -> (2 <= eo)%Z -> 1 / 5 <= shrink error eo < 9 / 10.
Proof.
  intros He Ho. unfold shrink. split; [apply Rmax_r|].
  rewrite rpow_pos by lra.
  assert (Q : Rpower error (-1 / IZR (eo - 1)) < 1).
  { apply Rpower_lt1; [lra|]. assert (1 <= IZR (eo - 1)) by (apply IZR_le; lia).
    unfold Rdiv. assert (0 < / IZR (eo - 1)) by (apply Rinv_0_lt_compat; lra). lra. }
  apply Rmax_lub_lt; lra.
Qed.
Lemma decrease_R max_dt dt error eo :
  @decrease_step NN rpow max_dt dt error eo =
  if @nneq NN max_dt 0 then @min_abs NN (dt * shrink error eo)%R max_dt else dt * shrink error eo.
Proof. unfold decrease_step, limited, shrink. rewrite nmax_R. reflexivity. Qed.

Theorem decrease_bounds max_dt dt error eo : dt <> 0 -> 1 < error -> (2 <= eo)%Z -> agrees dt max_dt ->
  let dt' := @decrease_step NN rpow max_dt dt error eo in
  0 < dir dt * dt' /\ Rabs dt' < 9 / 10 * Rabs dt
  /\ (max_dt = 0 -> 1 / 5 * Rabs dt <= Rabs dt')
  /\ (max_dt <> 0 -> Rabs dt' <= Rabs max_dt).
Proof.
  intros Hd He Ho Ha. cbv zeta. rewrite decrease_R.
  pose proof (shrink_bounds error eo He Ho) as [S1 S2]. set (k := shrink error eo) in *. clearbody k.
  assert (P : 0 < Rabs dt) by now apply Rabs_pos_lt.
  assert (A : Rabs (dt * k) = Rabs dt * k) by (rewrite Rabs_mult, (Rabs_right k) by lra; reflexivity).
  destruct (@nneq NN max_dt 0) eqn:E.
  - apply nneq_R in E. destruct Ha as [Ha|Ha]; [contradiction|].
    assert (Q : dir dt * @min_abs NN (dt * k)%R max_dt = Rmin (Rabs dt * k) (Rabs max_dt)).
    { rewrite <- (dir_mult dt k) by lra. rewrite min_abs_dir; [now rewrite A| |rewrite dir_mult by lra; exact Ha].
      intro Z. apply Rmult_integral in Z. lra. }
    set (m := @min_abs NN (dt * k)%R max_dt) in *. clearbody m. change R in m.
    assert (M : 0 < Rabs max_dt) by now apply Rabs_pos_lt.
    assert (Pm : 0 < Rmin (Rabs dt * k) (Rabs max_dt)) by (apply Rmin_glb_lt; nra).
    assert (Am : Rabs m = Rmin (Rabs dt * k) (Rabs max_dt)).
    { rewrite <- Q. rewrite <- (dir_same dt m) by lra. symmetry. apply dir_abs. }
    rewrite Am. split; [lra|]. pose proof (Rmin_l (Rabs dt * k) (Rabs max_dt)).
    pose proof (Rmin_r (Rabs dt * k) (Rabs max_dt)).
    split; [nra|]. split; [contradiction|lra].
  - apply nneq_R_false in E. rewrite A. split.
    + rewrite <- Rmult_assoc, dir_abs. nra.
    + split; [nra|]. split; [nra|]. intro; contradiction.
Qed.

Definition grow (error : R) (so : Z) : R :=
  9 / 10 * rpow (Rmax (rpow 5 (- IZR so)) error) (-1 / IZR so).

Lemma increase_R max_dt dt error so :
  @increase_step NN rpow max_dt dt error so =
  if Rltb error (1 / 2) then
    (if @nneq NN max_dt 0 then @min_abs NN (dt * grow error so)%R max_dt else dt * grow error so)
  else dt.
Proof. unfold increase_step, limited, grow. rewrite nmax_R. reflexivity. Qed.

Lemma five_pow k : Rpower 5 (- IZR (Z.of_nat k)) = / 5 ^ k.
Proof. rewrite Rpower_Ropp, <- INR_IZR_INZ, Rpower_pow by lra. reflexivity. Qed.

Lemma grow_pos error so : 0 < grow error so.
Proof.
  unfold grow. rewrite (rpow_pos 5) by lra. pose proof (Rpower_gt0 5 (- IZR so)).
  pose proof (Rmax_l (Rpower 5 (- IZR so)) error).
  rewrite rpow_pos by lra. pose proof (Rpower_gt0 (Rmax (Rpower 5 (- IZR so)) error) (-1 / IZR so)). lra.
Qed.
Lemma grow_upper error so : 0 <= error -> (1 <= so)%Z -> grow error so <= 9 / 2.
Proof.
  intros He Ho. unfold grow. rewrite (rpow_pos 5) by lra. pose proof (Rpower_gt0 5 (- IZR so)) as G.
  pose proof (Rmax_l (Rpower 5 (- IZR so)) error) as M.
  rewrite rpow_pos by lra. set (q := Rmax (Rpower 5 (- IZR so)) error) in *. clearbody q.
  destruct (Z_of_nat_complete so) as [k ->]; [lia|].
  rewrite five_pow in M. rewrite <- INR_IZR_INZ.
  assert (0 < 5 ^ k) by (apply pow_lt; lra).
  assert (0 < / 5 ^ k) by now apply Rinv_0_lt_compat.
  assert (Rpower q (-1 / INR k) <= 5).
  { apply Rpower_root_le; [lra|lra|lia|].
    apply (Rmult_le_compat_r (5 ^ k)) in M; [|lra]. rewrite Rinv_l in M by lra. exact M. }
  lra.
Qed.
Lemma grow_lower error so : 0 <= error < 1 / 2 -> (1 <= so <= 6)%Z -> 1 <= grow error so.
Proof.
  intros He Ho. unfold grow. rewrite (rpow_pos 5) by lra. pose proof (Rpower_gt0 5 (- IZR so)) as G.
  pose proof (Rmax_l (Rpower 5 (- IZR so)) error) as M.
  rewrite rpow_pos by lra. assert (0 < Rmax (Rpower 5 (- IZR so)) error) by lra.
  destruct (Z_of_nat_complete so) as [k ->]; [lia|]. rewrite five_pow in *.
  assert (H5 : / 5 ^ k <= 1 / 2).
  { assert (Hk : (k = 1 \/ k = 2 \/ k = 3 \/ k = 4 \/ k = 5 \/ k = 6)%nat) by lia.
    destruct Hk as [->|[->|[->|[->|[->| ->]]]]]; simpl; lra. }
  assert (Q : Rmax (/ 5 ^ k) error <= 1 / 2) by (apply Rmax_lub; lra).
  set (q := Rmax (/ 5 ^ k) error) in *. clearbody q. rewrite <- INR_IZR_INZ.
  assert (10 / 9 <= Rpower q (-1 / INR k)).
  { apply Rpower_root_ge; [lra|lra|lia|].
    assert (Hk : (k = 1 \/ k = 2 \/ k = 3 \/ k = 4 \/ k = 5 \/ k = 6)%nat) by lia.
    destruct Hk as [->|[->|[->|[->|[->| ->]]]]]; simpl; lra. }
  lra.
Qed.

Theorem increase_bounds max_dt dt error so : dt <> 0 -> 0 <= error -> (1 <= so)%Z -> agrees dt max_dt ->
  let dt' := @increase_step NN rpow max_dt dt error so in
  0 < dir dt * dt' /\ Rabs dt' <= 9 / 2 * Rabs dt
  /\ (max_dt = 0 -> (so <= 6)%Z -> Rabs dt <= Rabs dt')
  /\ (max_dt <> 0 -> Rabs dt' <= Rmax (Rabs max_dt) (Rabs dt)).
Proof.
  intros Hd He Ho Ha. cbv zeta. rewrite increase_R.
  assert (P : 0 < Rabs dt) by now apply Rabs_pos_lt.
  destruct (Rltb error (1 / 2)) eqn:EB.
  2:{ rewrite dir_abs. split; [exact P|]. split; [lra|]. split; [intros; lra|]. intros. apply Rmax_r. }
  apply Rltb_true in EB.
  pose proof (grow_pos error so) as G0. pose proof (grow_upper error so He Ho) as G1.
  pose proof (fun h => grow_lower error so (conj He EB) (conj Ho h)) as G2.
  set (k := grow error so) in *. clearbody k.
  assert (A : Rabs (dt * k) = Rabs dt * k) by (rewrite Rabs_mult, (Rabs_right k) by lra; reflexivity).
  destruct (@nneq NN max_dt 0) eqn:E.
  - apply nneq_R in E. destruct Ha as [Ha|Ha]; [contradiction|].
    assert (Q : dir dt * @min_abs NN (dt * k)%R max_dt = Rmin (Rabs dt * k) (Rabs max_dt)).
    { rewrite <- (dir_mult dt k) by lra. rewrite min_abs_dir; [now rewrite A| |rewrite dir_mult by lra; exact Ha].
      intro Z. apply Rmult_integral in Z. lra. }
    set (m := @min_abs NN (dt * k)%R max_dt) in *. clearbody m. change R in m.
    assert (M : 0 < Rabs max_dt) by now apply Rabs_pos_lt.
    assert (Pm : 0 < Rmin (Rabs dt * k) (Rabs max_dt)) by (apply Rmin_glb_lt; nra).
    assert (Am : Rabs m = Rmin (Rabs dt * k) (Rabs max_dt)).
    { rewrite <- Q. rewrite <- (dir_same dt m) by lra. symmetry. apply dir_abs. }
    rewrite Am. split; [lra|]. pose proof (Rmin_l (Rabs dt * k) (Rabs max_dt)).
    pose proof (Rmin_r (Rabs dt * k) (Rabs max_dt)). pose proof (Rmax_l (Rabs max_dt) (Rabs dt)).
    split; [nra|]. split; [contradiction|lra].
  - apply nneq_R_false in E. rewrite A. split.
    + rewrite <- Rmult_assoc, dir_abs. nra.
    + split; [nra|]. split; [intros _ h; specialize (G2 h); nra|]. intro; contradiction.
Qed.

(** check_step_size_limit. *)
Lemma check_R max_dt dt :
  @check_step_size_limit NN max_dt dt = true <-> max_dt = 0 \/ dir dt * (dt - max_dt) <= eps.
Proof.
  unfold check_step_size_limit, limited. change (@nofZ NN 0) with 0.
  destruct (@nneq NN max_dt 0) eqn:E.
  - apply nneq_R in E. rewrite leq_R. tauto.
  - apply nneq_R_false in E. tauto.
Qed.
Lemma check_R_false max_dt dt :
  @check_step_size_limit NN max_dt dt = false <-> max_dt <> 0 /\ dir dt * (dt - max_dt) > eps.
Proof.
  pose proof (check_R max_dt dt) as H. destruct (check_step_size_limit max_dt dt).
  - split; [discriminate|]. intros [H1 H2]. destruct (proj1 H eq_refl); lra.
  - split; [|reflexivity]. intros _. split.
    + intro Z. assert (false = true) by (apply H; now left). discriminate.
    + destruct (Rle_dec (dir dt * (dt - max_dt)) eps) as [l|n]; [|lra].
      assert (false = true) by (apply H; now right). discriminate.
Qed.
End R.

(** implicit_euler: steps too short for a second Newton iteration, convergence. *)
From Coq Require Import List Arith ZArith Reals Lia Lra FunctionalExtensionality.
From Verif Require Import M_Num M_RK M_LU M_Implicit S_LU S_Implicit S_RosConv S_IEConv P_R P_LU P_Implicit P_ConvOrd P_RosConv.
Import ListNotations.
Local Open Scope R_scope.
Local Notation S := Datatypes.S.

Lemma sigma_le n (a b : nat -> R) : (forall k, (k < n)%nat -> a k <= b k) -> sigma n a <= sigma n b.
Proof. induction n as [|n IH]; intro H; cbn [sigma]; [lra|]. pose proof (H n ltac:(lia)). specialize (IH (fun k Hk => H k ltac:(lia))). lra. Qed.
Lemma sigma_const n c : sigma n (fun _ => c) = INR n * c.
Proof. induction n as [|n IH]; [cbn; ring|]. rewrite S_INR. cbn [sigma]. rewrite IH. ring. Qed.

Lemma norm_le eps n (b : nat -> R) r : 0 <= r -> (forall k, (k < n)%nat -> Rabs (b k) <= r) -> norm_2 (N := RNum eps) n sqrt b <= sqrt (INR n) * r.
Proof.
  intros Pr Hb. rewrite (norm_2_sum eps).
  apply Rle_trans with (sqrt (INR n * (r * r))).
  - apply sqrt_le_1_alt. rewrite <- (sigma_const n (r * r)). apply sigma_le. intros k Hk. specialize (Hb k Hk).
    pose proof (Rabs_pos (b k)). replace (b k * b k) with (Rabs (b k) * Rabs (b k)) by (rewrite <- Rabs_mult; apply Rabs_pos_eq; nra).
    apply Rmult_le_compat; assumption.
  - rewrite sqrt_mult by (try apply pos_INR; nra). rewrite sqrt_square by exact Pr. lra.
Qed.

Section IE.
Variables (eps : R) (n : nat).
Notation N := (RNum eps).
Variables (f : (nat -> R) -> R -> nat -> R) (jac : (nat -> R) -> R -> nat -> nat -> R) (epsilon : R).
Variable T : R -> Prop.
Variables M L H : R.
Hypothesis HM : 0 <= M.
Hypothesis HL : 0 <= L.
Hypothesis HH : 0 <= H.
Hypothesis Hs : M * H <= 1 / 2.
Hypothesis Hsys : ie_system n T M L f jac.

(** u = h J u + w gives |u| <= 2 |w|. *)
Lemma ie_absorb x t h u r : T t -> Rabs h <= H -> 0 <= r -> (forall k, (k < n)%nat -> Rabs (u k - h * mvec n (jac x t) u k) <= r) ->
  forall k, (k < n)%nat -> Rabs (u k) <= 2 * r.
Proof.
  intros Ht Hh Pr Hu k Hk.
  assert (B : S_BSeries.bnd (2 * r) (restrict (n := n) u)).
  { apply contract; [exact Pr|destruct (fin_bounded n (restrict u)) as (s & _ & B); now exists s|]. intros s Hsn j.
    assert (Hb : forall i, (i < n)%nat -> Rabs (u i) <= s) by (intros i Hi; exact (Hsn (exist _ i Hi))).
    pose proof (ies_jac _ _ _ _ _ _ Hsys x t u s Ht Hb _ (proj2_sig j)) as Q. specialize (Hu _ (proj2_sig j)). specialize (Hb _ (proj2_sig j)).
    unfold restrict. set (i := proj1_sig j) in *. set (v := mvec n (jac x t) u i) in *. pose proof (Rabs_pos h) as Ph. pose proof (Rabs_pos (u i)).
    replace (u i) with ((u i - h * v) + h * v) by ring. eapply Rle_trans; [apply Rabs_triang|]. rewrite Rabs_mult.
    assert (Rabs h * Rabs v <= Rabs h * (M * s)) by (apply Rmult_le_compat_l; assumption).
    assert (M * Rabs h <= M * H) by (apply Rmult_le_compat_l; assumption).
    assert (M * Rabs h * s <= 1 / 2 * s) by (apply Rmult_le_compat_r; lra). lra. }
  exact (B (exist _ k Hk)).
Qed.

Lemma ie_first x t h F0 : T (t + h) -> Rabs h <= H -> 0 <= F0 -> (forall k, (k < n)%nat -> Rabs (f x (t + h) k) <= F0) ->
  sqrt (INR n) * (2 * (Rabs h * F0)) <= epsilon ->
  exists x1 e, (forall fuel, ie_do_step (N := N) n sqrt f jac epsilon fuel x t h = ([e], IDone x1)) /\
  forall k, (k < n)%nat -> Rabs (x1 k - (x k + h * f x (t + h) k)) <= 2 * M * Rabs h * Rabs h * F0.
Proof.
  intros Ht Hh PF HF He. set (t1 := t + h) in *. pose proof (Rabs_pos h) as Ph.
  assert (PhF : 0 <= Rabs h * F0) by now apply Rmult_le_pos.
  set (W := fun r c => jac x t1 r c * h - ident r c).
  assert (EM : ie_matrix (N := N) jac x t1 h = W) by apply (ie_matrix_R eps).
  assert (EW : forall u k, (k < n)%nat -> mvec n W u k = h * mvec n (jac x t1) u k - u k).
  { intros u k Hk. unfold W. rewrite (mvec_sub n (fun r c => jac x t1 r c * h) ident), mvec_scal, mvec_ident by exact Hk. ring. }
  assert (NW : nonsingular n W).
  { intros u Hu k Hk. assert (Z : Rabs (u k) <= 2 * 0).
    { apply (ie_absorb x t1 h u 0 Ht Hh (Rle_refl 0)); [|exact Hk]. intros j Hj. specialize (Hu j Hj). rewrite EW in Hu by exact Hj.
      replace (u j - h * mvec n (jac x t1) u j) with 0 by lra. rewrite Rabs_R0. lra. }
    destruct (Req_dec (u k) 0) as [E|E]; [exact E|]. apply Rabs_pos_lt in E. lra. }
  assert (R1 : lu_res (lu_factorize (N := N) n W (fun k => k)) = 0%nat) by (apply (lu_nonsingular eps n); [intros k _; reflexivity|exact NW]).
  set (b := fun i => nmul (n := N) h (f x t1 i)).
  set (b1 := lu_substitute (N := N) n (lu_m (lu_factorize (N := N) n W (fun k => k))) (lu_pm (lu_factorize (N := N) n W (fun k => k))) b).
  assert (S1 : S_LU.solves n W b1 b) by (apply (lu_solves eps n W (fun k => k) b); [intros k _; reflexivity|exact R1]).
  assert (Bb : forall k, (k < n)%nat -> Rabs (b1 k) <= 2 * (Rabs h * F0)).
  { apply (ie_absorb x t1 h b1 (Rabs h * F0) Ht Hh PhF). intros k Hk. specialize (S1 k Hk). rewrite EW in S1 by exact Hk.
    replace (b1 k - h * mvec n (jac x t1) b1 k) with (- (h * f x t1 k)) by (change (b k) with (h * f x t1 k) in S1; lra).
    rewrite Rabs_Ropp, Rabs_mult. apply Rmult_le_compat_l; [exact Ph|now apply HF]. }
  exists (fun i => x i - b1 i), (b, b1). split.
  - intro fuel. unfold ie_do_step. change (nadd (n := N) t h) with t1. rewrite EM. unfold ie_solve. cbv zeta. rewrite R1. cbn [Nat.eqb].
    change (fun i : nat => nmul (n := N) h (f x t1 i)) with b. fold b1.
    assert (El : forall g m p, ie_loop (N := N) n sqrt f epsilon fuel x t1 h g b1 m p = ([], IDone g)).
    { intros g m p. pose proof (norm_le eps n b1 (2 * (Rabs h * F0)) ltac:(lra) Bb) as Nb.
      assert (Z : nlt (n := N) epsilon (norm_2 (N := N) n sqrt b1) = false) by (apply Rltb_false; lra).
      destruct fuel; cbn [ie_loop]; rewrite Z; reflexivity. }
    rewrite El. reflexivity.
  - intros k Hk. pose proof (S1 k Hk) as Q. rewrite EW in Q by exact Hk. change (b k) with (h * f x t1 k) in Q.
    replace (x k - b1 k - (x k + h * f x t1 k)) with (- (h * mvec n (jac x t1) b1 k)) by lra.
    rewrite Rabs_Ropp, Rabs_mult. pose proof (ies_jac _ _ _ _ _ _ Hsys x t1 b1 _ Ht Bb k Hk) as Q2.
    assert (Rabs h * Rabs (mvec n (jac x t1) b1 k) <= Rabs h * (M * (2 * (Rabs h * F0)))) by (apply Rmult_le_compat_l; assumption). lra.
Qed.

Variables B K : R.
Hypothesis HB : 0 <= B.
Hypothesis HK : 0 <= K.
Variable y : R -> nat -> R.
Hypothesis Hsol : ie_solution n T B K f y.

Lemma y_near t h k : T t -> T (t + h) -> (k < n)%nat -> Rabs (y (t + h) k - y t k) <= B * Rabs h
  /\ Rabs (y (t + h) k - (y t k + h * f (y (t + h)) (t + h) k)) <= K * (Rabs h * Rabs h).
Proof.
  intros Ht Hth Hk. pose proof (Rabs_pos h) as Ph.
  assert (Hc : forall q, 0 <= q <= 1 -> T (t + q * h)).
  { intros q Hq. replace (t + q * h) with (t + q * ((t + h) - t)) by ring. now apply (iso_conv _ _ _ _ _ _ Hsol). }
  split.
  - pose proof (power_bound (fun u => y u k - y t k) (fun u => f (y u) u k) t h B 0 HB ltac:(cbv beta; ring)) as P. cbv beta in P.
    rewrite pow_1 in P. cbn [INR] in P. unfold Rdiv in P. rewrite Rinv_1, Rmult_1_r in P. apply P.
    + intros q Hq. replace (f (y (t + q * h)) (t + q * h) k) with (f (y (t + q * h)) (t + q * h) k - 0) by ring.
      apply derivable_pt_lim_minus; [apply (iso_diff _ _ _ _ _ _ Hsol); [now apply Hc|exact Hk]|apply derivable_pt_lim_const].
    + intros q Hq. rewrite pow_O, Rmult_1_r. apply (iso_bnd _ _ _ _ _ _ Hsol); [now apply Hc|exact Hk].
  - set (c := f (y (t + h)) (t + h) k).
    pose proof (power_bound (fun u => (y u k - y t k) - (c * u - c * t)) (fun u => f (y u) u k - c) t h (K * Rabs h) 0 ltac:(now apply Rmult_le_pos) ltac:(cbv beta; ring)) as P. cbv beta in P.
    rewrite pow_1 in P. cbn [INR] in P. unfold Rdiv in P. rewrite Rinv_1, Rmult_1_r in P.
    replace (y (t + h) k - (y t k + h * c)) with (y (t + h) k - y t k - (c * (t + h) - c * t)) by ring.
    eapply Rle_trans; [apply P|right; ring].
    + intros q Hq. replace (f (y (t + q * h)) (t + q * h) k - c) with ((f (y (t + q * h)) (t + q * h) k - 0) - (c * 1 - 0)) by ring.
      apply (derivable_pt_lim_minus (fun u => y u k - y t k) (fun u => c * u - c * t)).
      * apply (derivable_pt_lim_minus (fun u => y u k)); [apply (iso_diff _ _ _ _ _ _ Hsol); [now apply Hc|exact Hk]|apply derivable_pt_lim_const].
      * apply (derivable_pt_lim_minus (fun u => c * u)); [apply (derivable_pt_lim_scal id); apply derivable_pt_lim_id|apply derivable_pt_lim_const].
    + intros q Hq. rewrite pow_O, Rmult_1_r. unfold c. eapply Rle_trans; [apply (iso_rate _ _ _ _ _ _ Hsol); [now apply Hc|exact Hth|exact Hk]|].
      apply Rmult_le_compat_l; [exact HK|]. replace (t + q * h - (t + h)) with ((q - 1) * h) by ring. rewrite Rabs_mult.
      rewrite <- (Rmult_1_l (Rabs h)) at 2. apply Rmult_le_compat_r; [exact Ph|]. apply Rabs_le. lra.
Qed.

Lemma ie_step x t h D : T t -> T (t + h) -> Rabs h <= H -> 0 <= D -> near_n n D x (y t) ->
  sqrt (INR n) * (2 * (Rabs h * (B + L * (D + B * Rabs h)))) <= epsilon ->
  exists x1 e, (forall fuel, ie_do_step (N := N) n sqrt f jac epsilon fuel x t h = ([e], IDone x1)) /\
  near_n n ((1 + Rabs h * ie_growth M L H) * D + ie_const M L H B K * (Rabs h * Rabs h)) x1 (y (t + h)).
Proof.
  intros Ht Hth Hh HD Hx He. pose proof (Rabs_pos h) as Ph. set (a := Rabs h) in *.
  assert (Pa : 0 <= B * a) by now apply Rmult_le_pos.
  assert (Hn : near_n n (D + B * a) x (y (t + h))).
  { intros k Hk. specialize (Hx k Hk). destruct (y_near t h k Ht Hth Hk) as [Q _].
    replace (x k - y (t + h) k) with ((x k - y t k) + - (y (t + h) k - y t k)) by ring. eapply Rle_trans; [apply Rabs_triang|]. rewrite Rabs_Ropp. fold a in Q. lra. }
  pose proof (ies_f _ _ _ _ _ _ Hsys x (y (t + h)) (t + h) _ Hth Hn) as Hf.
  set (F0 := B + L * (D + B * a)) in *.
  assert (PL : 0 <= L * (D + B * a)) by (apply Rmult_le_pos; lra).
  assert (PF : 0 <= F0) by (unfold F0; lra).
  assert (HF : forall k, (k < n)%nat -> Rabs (f x (t + h) k) <= F0).
  { intros k Hk. specialize (Hf k Hk). pose proof (iso_bnd _ _ _ _ _ _ Hsol (t + h) k Hth Hk) as Q.
    replace (f x (t + h) k) with ((f x (t + h) k - f (y (t + h)) (t + h) k) + f (y (t + h)) (t + h) k) by ring.
    eapply Rle_trans; [apply Rabs_triang|]. unfold F0. lra. }
  destruct (ie_first x t h F0 Hth Hh PF HF He) as (x1 & e & E1 & B1). exists x1, e. split; [exact E1|].
  intros k Hk. specialize (B1 k Hk). specialize (Hf k Hk). specialize (Hx k Hk). destruct (y_near t h k Ht Hth Hk) as [_ Q]. fold a in B1, Q.
  set (fx := f x (t + h) k) in *. set (fy := f (y (t + h)) (t + h) k) in *.
  replace (x1 k - y (t + h) k) with ((x1 k - (x k + h * fx)) + ((x k - y t k) + (h * (fx - fy) + - (y (t + h) k - (y t k + h * fy))))) by ring.
  eapply Rle_trans; [apply Rabs_triang|]. eapply Rle_trans; [apply Rplus_le_compat_l, Rabs_triang|].
  eapply Rle_trans; [apply Rplus_le_compat_l, Rplus_le_compat_l, Rabs_triang|]. rewrite Rabs_Ropp, Rabs_mult. fold a.
  assert (Q3 : a * Rabs (fx - fy) <= a * (L * (D + B * a))) by (apply Rmult_le_compat_l; assumption).
  assert (Q4 : 2 * M * a * a * F0 <= 2 * M * a * (H * (L * D)) + 2 * M * (a * a) * (B + L * H * B)).
  { unfold F0. replace (2 * M * a * a * (B + L * (D + B * a))) with (2 * M * a * (a * (L * D)) + 2 * M * (a * a) * (B + L * a * B)) by ring.
    assert (X0 : 0 <= 2 * M * a) by (apply Rmult_le_pos; lra).
    assert (X1 : a * (L * D) <= H * (L * D)) by (apply Rmult_le_compat_r; [now apply Rmult_le_pos|exact Hh]).
    assert (X2 : L * a * B <= L * H * B) by (apply Rmult_le_compat_r; [exact HB|]; apply Rmult_le_compat_l; assumption).
    assert (X3 : 0 <= 2 * M * (a * a)) by (apply Rmult_le_pos; [lra|now apply Rmult_le_pos]).
    apply Rplus_le_compat; apply Rmult_le_compat_l; lra. }
  unfold ie_growth, ie_const.
  replace ((1 + a * (L + 2 * M * L * H)) * D + (L * B + 2 * M * (B + L * H * B) + K) * (a * a))
    with (2 * M * a * (H * (L * D)) + 2 * M * (a * a) * (B + L * H * B) + (D + (a * (L * (D + B * a)) + K * (a * a)))) by ring.
  lra.
Qed.

Lemma growth_pos : 0 <= ie_growth M L H.
Proof. unfold ie_growth. assert (0 <= 2 * M * L * H) by (repeat apply Rmult_le_pos; lra). lra. Qed.
Lemma const_pos : 0 <= ie_const M L H B K.
Proof.
  unfold ie_const. assert (0 <= L * B) by now apply Rmult_le_pos. assert (0 <= L * H * B) by (repeat apply Rmult_le_pos; assumption).
  assert (0 <= 2 * M * (B + L * H * B)) by (apply Rmult_le_pos; lra). lra.
Qed.
Lemma error_mono D h a a' : 0 <= D -> 0 <= h -> 0 <= a <= a' -> 0 <= ie_error M L H B K D h a <= ie_error M L H B K D h a'.
Proof.
  intros HD Hh Ha. unfold ie_error. pose proof growth_pos as PG. pose proof const_pos as PC. set (G := ie_growth M L H) in *. set (C := ie_const M L H B K) in *.
  assert (X1 : 0 <= C * h) by now apply Rmult_le_pos. assert (X2 : 0 <= C * h * a) by (apply Rmult_le_pos; lra).
  assert (X3 : C * h * a <= C * h * a') by (apply Rmult_le_compat_l; lra). pose proof (exp_pos (G * a)) as Pe.
  split; [apply Rmult_le_pos; lra|]. apply Rmult_le_compat; [lra|lra| |lra].
  assert (X4 : G * a <= G * a') by (apply Rmult_le_compat_l; lra).
  destruct (Req_dec (G * a) (G * a')) as [->|Q]; [lra|]. left. apply exp_increasing. lra.
Qed.
Lemma error_step D h a : 0 <= D -> 0 <= h -> 0 <= a ->
  (1 + h * ie_growth M L H) * ie_error M L H B K D h a + ie_const M L H B K * (h * h) <= ie_error M L H B K D h (a + h).
Proof.
  intros HD Hh Ha. unfold ie_error. pose proof growth_pos as PG. pose proof const_pos as PC. set (G := ie_growth M L H) in *. set (C := ie_const M L H B K) in *.
  replace (G * (a + h)) with (G * a + h * G) by ring. rewrite exp_plus.
  assert (Pg : 0 <= h * G) by now apply Rmult_le_pos.
  assert (X1 : 1 + h * G <= exp (h * G)).
  { destruct (Req_dec (h * G) 0) as [->|Q]; [rewrite exp_0; lra|]. left. apply exp_ineq1. lra. }
  assert (Ga : 0 <= G * a) by now apply Rmult_le_pos.
  assert (X2 : 1 <= exp (G * a)). { destruct (Req_dec (G * a) 0) as [->|Q]; [rewrite exp_0; lra|]. pose proof (exp_ineq1 (G * a) ltac:(lra)). lra. }
  assert (X3 : 0 <= D + C * h * a) by (assert (0 <= C * h * a) by (apply Rmult_le_pos; [now apply Rmult_le_pos|exact Ha]); lra).
  assert (Y1 : (1 + h * G) * (exp (G * a) * (D + C * h * a)) <= exp (h * G) * (exp (G * a) * (D + C * h * a))).
  { apply Rmult_le_compat_r; [apply Rmult_le_pos; lra|exact X1]. }
  assert (Y2 : 0 <= C * (h * h)) by (apply Rmult_le_pos; [exact PC|now apply Rmult_le_pos]).
  assert (Y3 : 1 * (C * (h * h)) <= exp (G * a) * exp (h * G) * (C * (h * h))).
  { apply Rmult_le_compat_r; [exact Y2|]. rewrite <- (Rmult_1_r 1). apply Rmult_le_compat; lra. }
  replace (exp (G * a) * exp (h * G) * (D + C * h * (a + h))) with (exp (h * G) * (exp (G * a) * (D + C * h * a)) + exp (G * a) * exp (h * G) * (C * (h * h))) by ring.
  lra.
Qed.

Theorem ie_run t0 h D x0 : Rabs h <= H -> 0 <= D -> near_n n D x0 (y t0) -> forall m, (forall k, (k <= m)%nat -> T (t0 + INR k * h)) ->
  sqrt (INR n) * (2 * (Rabs h * (B + L * (ie_error M L H B K D (Rabs h) (INR m * Rabs h) + B * Rabs h)))) <= epsilon ->
  exists xs : nat -> nat -> R, xs O = x0 /\
  (forall k, (k < m)%nat -> exists e, forall fuel, ie_do_step (N := N) n sqrt f jac epsilon fuel (xs k) (t0 + INR k * h)%R h = ([e], IDone (N := RNum eps) (xs (S k)))) /\
  forall k, (k <= m)%nat -> near_n n (ie_error M L H B K D (Rabs h) (INR k * Rabs h)) (xs k) (y (t0 + INR k * h)).
Proof.
  intros Hh HD Hx. pose proof (Rabs_pos h) as Ph. induction m as [|m IH]; intros HT He.
  - exists (fun _ => x0). split; [reflexivity|]. split; [intros; lia|]. intros k Hk. replace k with O by lia. cbn [INR]. rewrite !Rmult_0_l, Rplus_0_r.
    unfold ie_error. rewrite !Rmult_0_r, exp_0. intros j Hj. specialize (Hx j Hj). lra.
  - pose proof (pos_INR m) as Pm. assert (Pmh : 0 <= INR m * Rabs h) by now apply Rmult_le_pos.
    assert (ES : INR (S m) * Rabs h = INR m * Rabs h + Rabs h) by (rewrite S_INR; ring).
    destruct (error_mono D (Rabs h) (INR m * Rabs h) (INR (S m) * Rabs h) HD Ph ltac:(lra)) as [P0 P1].
    set (d := ie_error M L H B K D (Rabs h) (INR m * Rabs h)) in *.
    assert (He2 : sqrt (INR n) * (2 * (Rabs h * (B + L * (d + B * Rabs h)))) <= epsilon).
    { eapply Rle_trans; [|exact He]. apply Rmult_le_compat_l; [apply sqrt_pos|]. apply Rmult_le_compat_l; [lra|]. apply Rmult_le_compat_l; [exact Ph|].
      apply Rplus_le_compat_l. apply Rmult_le_compat_l; [exact HL|]. lra. }
    destruct (IH (fun k Hk => HT k ltac:(lia)) He2) as (xs & E0 & Es & En).
    assert (ET : t0 + INR (S m) * h = (t0 + INR m * h) + h) by (rewrite S_INR; ring).
    destruct (ie_step (xs m) (t0 + INR m * h) h d (HT m ltac:(lia)) ltac:(rewrite <- ET; apply HT; lia) Hh P0 (En m (le_n _)) He2) as (x1 & e & E1 & N1).
    exists (fun k => if Nat.leb k m then xs k else x1). split; [exact E0|]. split.
    + intros k Hk. destruct (Nat.leb_spec k m) as [L1|L1]; [|lia]. destruct (Nat.leb_spec (S k) m) as [L2|L2].
      * apply Es. lia.
      * assert (k = m) by lia. subst k. exists e. exact E1.
    + intros k Hk. destruct (Nat.leb_spec k m) as [L1|L1]; [now apply En|]. assert (k = S m) by lia. subst k. rewrite ET.
      intros j Hj. specialize (N1 j Hj). pose proof (error_step D (Rabs h) (INR m * Rabs h) HD Ph Pmh) as Q. fold d in Q. rewrite ES. lra.
Qed.
End IE.

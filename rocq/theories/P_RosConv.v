(** rosenbrock4 on autonomous systems: local error and growth of a difference. *)
From Coq Require Import List Arith ZArith Reals Lia Lra FunctionalExtensionality.
From Verif Require Import M_Num M_RK M_Implicit S_LU S_RK S_BSeries S_Implicit S_RosConv P_LU P_Implicit P_RKOrder P_BSeries P_Butcher P_SympConv
  P_RosSeries P_Ros P_RosOrd.
Import ListNotations.
Local Open Scope R_scope.
Local Notation S := Datatypes.S.

(** ** Finitely many components. *)
Lemma fin_eq n (a b : fin n) : proj1_sig a = proj1_sig b -> a = b.
Proof. destruct a as [i l], b as [j l']. cbn. intros ->. f_equal. apply Peano_dec.le_unique. Qed.
Lemma fin_bounded n (v : fin n -> R) : exists r, 0 <= r /\ bnd r v.
Proof.
  set (v' := fun i => match lt_dec i n with Specif.left l => v (exist _ i l) | Specif.right _ => 0 end).
  assert (B : forall m, exists r, 0 <= r /\ forall i, (i < m)%nat -> Rabs (v' i) <= r).
  { induction m as [|m (r & P & B)]; [exists 0; split; [lra|intros; lia]|].
    exists (r + Rabs (v' m)). pose proof (Rabs_pos (v' m)). split; [lra|]. intros i Hi.
    destruct (Nat.eq_dec i m) as [->|]; [lra|]. specialize (B i ltac:(lia)). lra. }
  destruct (B n) as (r & P & Br). exists r. split; [exact P|]. intro k. specialize (Br (proj1_sig k) (proj2_sig k)). unfold v' in Br.
  destruct (lt_dec (proj1_sig k) n) as [l|l]; [|exfalso; apply l; exact (proj2_sig k)].
  replace k with (exist (fun i => (i < n)%nat) (proj1_sig k) l) by (now apply fin_eq). exact Br.
Qed.
Definition extend {n} (u : fin n -> R) (i : nat) : R := match lt_dec i n with Specif.left l => u (exist _ i l) | Specif.right _ => 0 end.

Lemma contract {J} (u : J -> R) B : 0 <= B -> (exists r, bnd r u) -> (forall r, bnd r u -> bnd (r / 2 + B) u) -> bnd (2 * B) u.
Proof.
  intros PB (r & Hr) Hc.
  assert (K : forall k, bnd (r / 2 ^ k + 2 * B) u).
  { induction k as [|k IH]; intro j.
    - cbn [pow]. specialize (Hr j). lra.
    - pose proof (Hc _ IH j) as Q. replace (r / 2 ^ S k + 2 * B) with ((r / 2 ^ k + 2 * B) / 2 + B); [exact Q|].
      cbn [pow]. field. apply pow_nonzero. lra. }
  intro j. destruct (Rle_or_lt (Rabs (u j)) (2 * B)) as [L|L]; [exact L|].
  destruct (halves r (Rabs (u j) - 2 * B) ltac:(lra)) as (k & Hk). specialize (K k j). lra.
Qed.

(** ** The equations of the method. *)
Section Scheme.
Context {J : Type}.
Variables (F : (J -> R) -> J -> R) (DF : (J -> R) -> (J -> R) -> J -> R).
Definition scheme (x : J -> R) (h : R) (g : nat -> J -> R) (x' : J -> R) : Prop :=
  (forall i k, (i < 6)%nat -> g i k = 1 / 4 * (h * DF x (g i) k
     + h * F (fun j => x j + sumn i (fun m => aR i m * g m j)) k + sumn i (fun m => cR i m * g m k)))
  /\ forall k, x' k = x k + sumn 6 (fun m => wR m * g m k).
End Scheme.

Lemma stages_nth n f ft W x t dt : forall st gs done, ros_stages n f ft W x t dt done st gs ->
  length gs = length st /\ forall i, (i < length st)%nat -> exists xk,
   veq n xk (fun j => x j + lc (rs_a (nth i st (mkRstage [] 0 0 []))) (done ++ firstn i gs) j) /\
   S_LU.solves n W (nth i gs (fun _ => 0)) (fun j => f xk (t + rs_alpha (nth i st (mkRstage [] 0 0 [])) * dt) j
     + dt * rs_d (nth i st (mkRstage [] 0 0 [])) * ft j + lc (rs_c (nth i st (mkRstage [] 0 0 []))) (done ++ firstn i gs) j / dt).
Proof.
  induction st as [|s st IH]; intros [|g gs] done Hs; try destruct Hs; [split; [reflexivity|cbn; intros; lia]|].
  rename H into H1. rename H0 into H2. destruct (IH gs (done ++ [g]) H2) as [L HI]. split; [cbn; lia|].
  intros [|i] Hi.
  - cbn [nth firstn]. rewrite app_nil_r. exact H1.
  - cbn [nth firstn]. destruct (HI i ltac:(cbn in Hi; lia)) as (xk & A & B). rewrite <- app_assoc in A, B. exists xk. split; assumption.
Qed.

Lemma lc_sum j : forall m gs, (length m <= length gs)%nat -> lc m gs j = sumn (length m) (fun k => nth k m 0 * nth k gs (fun _ => 0) j).
Proof.
  induction m as [|a m IH]; intros [|g gs] L; cbn [length] in L; try lia; try reflexivity.
  cbn [lc length]. rewrite sumn_shift, IH by lia. reflexivity.
Qed.

Lemma W_apply n gam dt Jm g r : (r < n)%nat -> mvec n (ros_W n gam dt Jm) g r = g r / gam / dt - mvec n Jm g r.
Proof.
  intro Hr. unfold mvec. rewrite (sigma_ext n _ (fun c => / gam * / dt * (ident r c * g c) + -1 * (Jm r c * g c))).
  - rewrite sigma_plus, !sigma_scal. pose proof (mvec_ident n g r Hr) as E. unfold mvec in E. rewrite E. unfold Rdiv. ring.
  - intros c _. unfold ros_W, Rdiv. ring.
Qed.

Section Model.
Variables (eps : R) (n : nat).
Variables (f : (nat -> R) -> R -> nat -> R) (jac : (nat -> R) -> R -> nat -> nat -> R) (dft : (nat -> R) -> R -> nat -> R).
Variables (F : (fin n -> R) -> fin n -> R) (DF : (fin n -> R) -> (fin n -> R) -> fin n -> R).
Hypothesis Hsys : ros_system n f jac dft F DF.
Notation co := (default_rosenbrock (N := RNum eps)).

Lemma ros_nonsingular M x t h : 0 <= M -> h <> 0 -> M * Rabs h <= 2 -> (forall u r, bnd r u -> bnd (M * r) (DF (restrict x) u)) ->
  nonsingular n (ros_W n (ro_gamma co) h (jac x t)).
Proof.
  intros HM Hh0 Hh HB u Hu c Hc.
  assert (B : bnd (2 * 0) (restrict (n := n) u)).
  { apply contract; [lra|destruct (fin_bounded n (restrict u)) as (r & _ & B); now exists r|]. intros r Hr k.
    specialize (Hu (proj1_sig k) (proj2_sig k)). rewrite W_apply in Hu by exact (proj2_sig k). rewrite (rsy_jac _ _ _ _ _ _ Hsys) in Hu.
    pose proof (HB _ _ Hr k) as Q. pose proof (Hr k) as Hk. pose proof (Rabs_pos (restrict u k)) as Pk.
    assert (E : restrict u k = 1 / 4 * h * DF (restrict x) (restrict u) k).
    { change (ro_gamma co) with (25 / 100) in Hu. unfold restrict at 1.
      apply (f_equal (fun z => z * (25 / 100 * h))) in Hu. rewrite Rmult_0_l in Hu.
      replace ((u (proj1_sig k) / (25 / 100) / h - DF (restrict x) (restrict u) k) * (25 / 100 * h))
        with (u (proj1_sig k) - 1 / 4 * h * DF (restrict x) (restrict u) k) in Hu by (field; exact Hh0). lra. }
    rewrite E, !Rabs_mult, (Rabs_pos_eq (1 / 4)) by lra. pose proof (Rabs_pos h).
    assert (Rabs h * Rabs (DF (restrict x) (restrict u) k) <= Rabs h * (M * r)) by (apply Rmult_le_compat_l; lra).
    assert (M * Rabs h * r <= 2 * r) by (apply Rmult_le_compat_r; lra). lra. }
  specialize (B (exist _ c Hc)). unfold restrict in B. cbn in B.
  destruct (Req_dec (u c) 0) as [Z|Z]; [exact Z|]. apply Rabs_pos_lt in Z. lra.
Qed.

Lemma ros_scheme x t h xout xerr : h <> 0 ->
  ros_result n f (dft x t) (jac x t) (ro_gamma co) (rows eps co) (weights eps co) x t h xout xerr ->
  exists g, scheme F DF (restrict x) h g (restrict xout).
Proof.
  intros Hh (gs0 & Hs & Hx). set (gs := gs0 ++ [xerr]) in *.
  destruct (stages_nth _ _ _ _ _ _ _ _ _ _ Hs) as [L HI]. change (length (rows eps co)) with 6%nat in *.
  assert (EA : forall i, (i < 6)%nat -> rs_a (nth i (rows eps co) (mkRstage [] 0 0 [])) = map Q2R (nth i arowsQ [])).
  { intros i Hi. pose proof (aR_rows eps) as E. apply (f_equal (fun l => nth i l [])) in E.
    change (@nil R) with (rs_a (mkRstage [] 0 0 [])) in E at 1. rewrite map_nth in E.
    change (@nil R) with (map Q2R []) in E. rewrite map_nth in E. exact E. }
  assert (EC : forall i, (i < 6)%nat -> rs_c (nth i (rows eps co) (mkRstage [] 0 0 [])) = map Q2R (nth i crowsQ [])).
  { intros i Hi. pose proof (cR_rows eps) as E. apply (f_equal (fun l => nth i l [])) in E.
    change (@nil R) with (rs_c (mkRstage [] 0 0 [])) in E at 1. rewrite map_nth in E.
    change (@nil R) with (map Q2R []) in E. rewrite map_nth in E. exact E. }
  exists (fun i => restrict (nth i gs (fun _ => 0))). split.
  - intros i k Hi. destruct (HI i Hi) as (xk & Hxk & Hsol). specialize (Hsol (proj1_sig k) (proj2_sig k)). cbv beta in Hsol.
    rewrite W_apply in Hsol by exact (proj2_sig k). rewrite (rsy_jac _ _ _ _ _ _ Hsys), (rsy_f _ _ _ _ _ _ Hsys), (rsy_dft _ _ _ _ _ _ Hsys) in Hsol.
    assert (Ef : forall (w : list R) j, length w = i -> lc w ([] ++ firstn i gs) j = sumn i (fun m => nth m w 0 * nth m gs (fun _ => 0) j)).
    { intros w j Lw. cbn [app]. rewrite lc_sum by (rewrite firstn_length; lia). rewrite Lw. apply sumn_ext. intros m Hm. f_equal.
      rewrite <- (firstn_skipn i gs) at 2. rewrite app_nth1; [reflexivity|]. rewrite firstn_length. lia. }
    rewrite (EC i Hi), (Ef (map Q2R (nth i crowsQ []))) in Hsol by (rewrite map_length; now apply crow_len).
    assert (Er : restrict xk = (fun j : fin n => restrict x j + sumn i (fun m => aR i m * restrict (nth m gs (fun _ => 0)) j))).
    { extensionality j. unfold restrict at 1. rewrite (Hxk _ (proj2_sig j)). rewrite (EA i Hi), (Ef (map Q2R (nth i arowsQ []))) by (rewrite map_length; now apply arow_len). reflexivity. }
    rewrite Er in Hsol. change (ro_gamma co) with (25 / 100) in Hsol.
    change (sumn i (fun m => cR i m * restrict (nth m gs (fun _ => 0)) k)) with (sumn i (fun m => nth m (map Q2R (nth i crowsQ [])) 0 * nth m gs (fun _ => 0) (proj1_sig k))).
    set (Sc := sumn i _) in Hsol |- *.
    set (Fk := F _ k) in Hsol |- *. set (Dk := DF _ _ k) in Hsol |- *. unfold restrict. 
    set (gk := nth i gs (fun _ => 0) (proj1_sig k)) in Hsol |- *.
    apply (f_equal (fun z => z * (25 / 100 * h))) in Hsol.
    replace ((gk / (25 / 100) / h - Dk) * (25 / 100 * h)) with (gk - 1 / 4 * h * Dk) in Hsol by (field; exact Hh).
    match type of Hsol with _ = ?r => replace r with (1 / 4 * (h * Fk + Sc)) in Hsol by (field; exact Hh) end. lra.
  - intro k. unfold restrict. rewrite (Hx _ (proj2_sig k)). f_equal. rewrite wR_weights.
    rewrite lc_sum by (rewrite map_length; change (length wQ) with 6%nat; lia). rewrite map_length. reflexivity.
Qed.
End Model.

(** ** Sums. *)
Lemma abs_sum i (w e : nat -> R) B : (forall m, (m < i)%nat -> Rabs (e m) <= B) -> Rabs (sumn i (fun m => w m * e m)) <= sumn i (fun m => Rabs (w m)) * B.
Proof.
  intro HB. rewrite <- !lsum_sumn. assert (L : forall m, In m (seq 0 i) -> Rabs (e m) <= B) by (intros m Hm; apply in_seq in Hm; apply HB; lia).
  revert L. generalize (seq 0 i) as l. induction l as [|m l IH]; intro L; [unfold lsum; cbn; rewrite Rabs_R0; lra|].
  rewrite !lsum_cons. eapply Rle_trans; [apply Rabs_triang|]. rewrite Rabs_mult.
  pose proof (Rmult_le_compat_l (Rabs (w m)) _ _ (Rabs_pos _) (L m (or_introl eq_refl))). specialize (IH (fun k Hk => L k (or_intror Hk))). lra.
Qed.
Lemma abs_sum_pos i (w : nat -> R) : 0 <= sumn i (fun m => Rabs (w m)).
Proof. rewrite <- lsum_sumn. generalize (seq 0 i) as l. induction l as [|m l IH]; [unfold lsum; cbn; lra|]. rewrite lsum_cons. pose proof (Rabs_pos (w m)). lra. Qed.

(** ** Growth of a difference. *)
Lemma stage_grow M H C : 0 <= M -> 0 <= H -> 0 <= C -> M * H <= 2 -> forall i, (i <= 6)%nat -> exists K, 0 <= K /\
  forall n (F : (fin n -> R) -> fin n -> R) DF x z h d g gz x' z', ros_lipschitz M F DF -> Rabs h <= H -> 0 <= d -> (forall j, Rabs (x j - z j) <= d) ->
  scheme F DF x h g x' -> scheme F DF z h gz z' -> (forall m, (m < 6)%nat -> bnd (C * Rabs h) (gz m)) ->
  forall m, (m < i)%nat -> bnd (K * Rabs h * d) (fun k => g m k - gz m k).
Proof.
  intros HM HH HC Hs. induction i as [|i IH]; intro Hi; [exists 0; split; [lra|intros; lia]|].
  destruct (IH ltac:(lia)) as (K & PK & B). clear IH.
  set (A1 := sumn i (fun m => Rabs (aR i m))). set (A2 := sumn i (fun m => Rabs (cR i m))).
  assert (PA1 : 0 <= A1) by apply abs_sum_pos. assert (PA2 : 0 <= A2) by apply abs_sum_pos.
  set (K2 := 1 / 2 * (M * C * H + M * (1 + A1 * (K * H)) + A2 * K)).
  assert (P1 : 0 <= M * C * H) by (repeat apply Rmult_le_pos; assumption).
  assert (P2 : 0 <= A1 * (K * H)) by (repeat apply Rmult_le_pos; assumption).
  assert (P3 : 0 <= A2 * K) by (apply Rmult_le_pos; assumption).
  assert (P4 : 0 <= M * (1 + A1 * (K * H))) by (apply Rmult_le_pos; lra).
  exists (K + K2). split; [unfold K2; lra|].
  intros n F DF x z h d g gz x' z' HL Hh Hd Hxz Hsx Hsz Hgz m Hm.
  pose proof (Rabs_pos h) as Ph. assert (Phd : 0 <= Rabs h * d) by now apply Rmult_le_pos.
  specialize (B n F DF x z h d g gz x' z' HL Hh Hd Hxz Hsx Hsz Hgz).
  assert (Hm2 : (m < i)%nat \/ m = i) by lia. destruct Hm2 as [Hm2| ->].
  { intro k. specialize (B m Hm2 k). assert (0 <= K2 * (Rabs h * d)) by (apply Rmult_le_pos; [unfold K2; lra|exact Phd]). cbv beta in *. lra. }
  assert (Bi : bnd (2 * (1 / 4 * (M * C * H + M * (1 + A1 * (K * H)) + A2 * K) * (Rabs h * d))) (fun k => g i k - gz i k)).
  { apply contract.
    - apply Rmult_le_pos; [lra|exact Phd].
    - destruct (fin_bounded n (fun k => g i k - gz i k)) as (r & _ & Hr). now exists r.
    - intros r Hr k. rewrite (proj1 Hsx i k ltac:(lia)), (proj1 Hsz i k ltac:(lia)).
      set (ux := fun j => x j + sumn i (fun m => aR i m * g m j)). set (uz := fun j => z j + sumn i (fun m => aR i m * gz m j)).
      assert (Hu : forall j, Rabs (ux j - uz j) <= d + A1 * (K * Rabs h * d)).
      { intro j. unfold ux, uz. replace (x j + sumn i (fun m => aR i m * g m j) - (z j + sumn i (fun m => aR i m * gz m j)))
          with ((x j - z j) + sumn i (fun m => aR i m * (g m j - gz m j))).
        2:{ replace (sumn i (fun m => aR i m * (g m j - gz m j))) with (sumn i (fun m => aR i m * g m j) + -1 * sumn i (fun m => aR i m * gz m j)); [ring|].
            rewrite <- sumn_scale, <- sumn_plus. apply sumn_ext. intros. ring. }
        eapply Rle_trans; [apply Rabs_triang|]. apply Rplus_le_compat; [apply Hxz|]. apply abs_sum. intros m Hm3. exact (B m Hm3 j). }
      pose proof (rl_F _ _ _ HL ux uz _ Hu k) as Q1. cbv beta in Q1.
      pose proof (rl_bnd _ _ _ HL x _ r Hr k) as Q2. rewrite (rl_lin _ _ _ HL x (g i) (gz i) k) in Q2.
      pose proof (rl_DF _ _ _ HL x z d (gz i) _ Hxz (Hgz i ltac:(lia)) k) as Q3. cbv beta in Q3.
      assert (Q4 : Rabs (sumn i (fun m => cR i m * g m k) - sumn i (fun m => cR i m * gz m k)) <= A2 * (K * Rabs h * d)).
      { replace (sumn i (fun m => cR i m * g m k) - sumn i (fun m => cR i m * gz m k)) with (sumn i (fun m => cR i m * (g m k - gz m k))).
        - apply abs_sum. intros m Hm3. exact (B m Hm3 k).
        - replace (sumn i (fun m => cR i m * (g m k - gz m k))) with (sumn i (fun m => cR i m * g m k) + -1 * sumn i (fun m => cR i m * gz m k)); [ring|].
          rewrite <- sumn_scale, <- sumn_plus. apply sumn_ext. intros. ring. }
      set (s1 := sumn i (fun m => cR i m * g m k)) in *. set (s2 := sumn i (fun m => cR i m * gz m k)) in *.
      replace (1 / 4 * (h * DF x (g i) k + h * F ux k + s1) - 1 / 4 * (h * DF z (gz i) k + h * F uz k + s2))
        with (1 / 4 * (h * ((DF x (g i) k - DF x (gz i) k) + (DF x (gz i) k - DF z (gz i) k) + (F ux k - F uz k)) + (s1 - s2))) by ring.
      rewrite Rabs_mult, (Rabs_pos_eq (1 / 4)) by lra.
      pose proof (Rabs_pos (DF x (g i) k - DF x (gz i) k)) as Z0.
      assert (Z1 : Rabs (h * ((DF x (g i) k - DF x (gz i) k) + (DF x (gz i) k - DF z (gz i) k) + (F ux k - F uz k)) + (s1 - s2))
        <= Rabs h * (M * r + M * d * (C * Rabs h) + M * (d + A1 * (K * Rabs h * d))) + A2 * (K * Rabs h * d)).
      { eapply Rle_trans; [apply Rabs_triang|]. apply Rplus_le_compat; [|exact Q4]. rewrite Rabs_mult. apply Rmult_le_compat_l; [exact Ph|].
        eapply Rle_trans; [apply Rabs_triang|]. apply Rplus_le_compat; [|exact Q1]. eapply Rle_trans; [apply Rabs_triang|]. lra. }
      pose proof (Hr k) as Hrk. cbv beta in Hrk. pose proof (Rabs_pos (g i k - gz i k)) as Pr.
      assert (Z2 : Rabs h * (M * r) <= 2 * r).
      { replace (Rabs h * (M * r)) with (M * Rabs h * r) by ring. apply Rmult_le_compat_r; [lra|]. apply Rle_trans with (M * H); [apply Rmult_le_compat_l; lra|exact Hs]. }
      assert (Z3 : Rabs h * (M * d * (C * Rabs h)) <= M * C * H * (Rabs h * d)).
      { replace (Rabs h * (M * d * (C * Rabs h))) with (M * C * Rabs h * (Rabs h * d)) by ring. apply Rmult_le_compat_r; [exact Phd|].
        apply Rmult_le_compat_l; [now apply Rmult_le_pos|exact Hh]. }
      assert (Z4 : Rabs h * (M * (d + A1 * (K * Rabs h * d))) <= M * (1 + A1 * (K * H)) * (Rabs h * d)).
      { replace (Rabs h * (M * (d + A1 * (K * Rabs h * d)))) with (M * (1 + A1 * (K * Rabs h)) * (Rabs h * d)) by ring. apply Rmult_le_compat_r; [exact Phd|].
        apply Rmult_le_compat_l; [exact HM|]. apply Rplus_le_compat_l. apply Rmult_le_compat_l; [exact PA1|]. apply Rmult_le_compat_l; assumption. }
      lra. }
  intro k. specialize (Bi k). cbv beta in *. assert (0 <= K * (Rabs h * d)) by now apply Rmult_le_pos. unfold K2. lra.
Qed.

Lemma step_grow M H C : 0 <= M -> 0 <= H -> 0 <= C -> M * H <= 2 -> exists Lam, 0 <= Lam /\
  forall n (F : (fin n -> R) -> fin n -> R) DF x z h d g gz x' z', ros_lipschitz M F DF -> Rabs h <= H -> 0 <= d -> (forall j, Rabs (x j - z j) <= d) ->
  scheme F DF x h g x' -> scheme F DF z h gz z' -> (forall m, (m < 6)%nat -> bnd (C * Rabs h) (gz m)) ->
  forall k, Rabs (x' k - z' k) <= (1 + Rabs h * Lam) * d.
Proof.
  intros HM HH HC Hs. destruct (stage_grow M H C HM HH HC Hs 6 (le_n _)) as (K & PK & B).
  pose proof (abs_sum_pos 6 wR) as PA. exists (sumn 6 (fun m => Rabs (wR m)) * K). split; [now apply Rmult_le_pos|].
  intros n F DF x z h d g gz x' z' HL Hh Hd Hxz Hsx Hsz Hgz k.
  specialize (B n F DF x z h d g gz x' z' HL Hh Hd Hxz Hsx Hsz Hgz).
  rewrite (proj2 Hsx k), (proj2 Hsz k).
  replace (x k + sumn 6 (fun m => wR m * g m k) - (z k + sumn 6 (fun m => wR m * gz m k))) with ((x k - z k) + sumn 6 (fun m => wR m * (g m k - gz m k))).
  2:{ replace (sumn 6 (fun m => wR m * (g m k - gz m k))) with (sumn 6 (fun m => wR m * g m k) + -1 * sumn 6 (fun m => wR m * gz m k)); [ring|].
      rewrite <- sumn_scale, <- sumn_plus. apply sumn_ext. intros. ring. }
  eapply Rle_trans; [apply Rabs_triang|]. pose proof (abs_sum 6 wR (fun m => g m k - gz m k) _ (fun m Hm => B m Hm k)) as Q. specialize (Hxz k).
  replace ((1 + Rabs h * (sumn 6 (fun m => Rabs (wR m)) * K)) * d) with (d + sumn 6 (fun m => Rabs (wR m)) * (K * Rabs h * d)) by ring. lra.
Qed.

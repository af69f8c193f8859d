(** rosenbrock4 on autonomous systems: local error and runs. *)
From Coq Require Import List Arith ZArith Reals Lia Lra FunctionalExtensionality.
From Verif Require Import M_Num M_Sign M_Run M_Plain M_RK M_Implicit S_Real S_LU S_RK S_BSeries S_Conv S_Integrate S_Grid S_Implicit S_RosConv
  P_R P_Plain P_PlainR P_PlainA P_LU P_Implicit P_RKOrder P_BSeries P_Butcher P_SympConv P_OneStepX P_Integrate P_RosSeries P_Ros P_RosOrd P_RosConv T_Implicit.
Import ListNotations.
Local Open Scope R_scope.
Local Notation S := Datatypes.S.

Section Local.
Variables (n : nat) (M H : R).
Hypothesis HM : 0 <= M.
Hypothesis HH : 0 <= H.
Hypothesis Hsm : M * H <= 2.
Notation insts := (@inst (fin n) 4 M H).
Record fam := mkFam { fq : insts; fg : nat -> fin n -> R;
  fs : forall i k, (i < 6)%nat -> fg i k = 1 / 4 * (ih _ _ _ fq * D 4 M H fq [fg i] k
     + ih _ _ _ fq * G 4 M H fq (fun j => sumn i (fun m => aR i m * fg m j)) k + sumn i (fun m => cR i m * fg m k)) }.
Definition fh (q : fam) : R := ih _ _ _ (fq q).

Lemma excess_sum h : lsum (trees 4) (fun t => / 10 ^ 15 * (M * h) ^ tsize t) = h * ros_excess M h.
Proof.
  transitivity (lsum (map tsize (trees 4)) (fun n => / 10 ^ 15 * (M * h) ^ n)); [now rewrite lsum_map|].
  replace (map tsize (trees 4)) with [1; 2; 3; 4; 4; 3; 4; 4; 4]%nat by (vm_compute; reflexivity).
  unfold lsum, ros_excess. set (d := / 10 ^ 15). cbn [map rsum fold_right]. ring.
Qed.

Lemma fam_small : exists C, 0 <= C /\ forall (q : fam) m, (m < 6)%nat -> bnd (C * Rabs (fh q)) (fg q m).
Proof.
  assert (K : forall k, (k <= 6)%nat -> exists C, 0 <= C /\ forall (q : fam) m, (m < k)%nat -> bnd (C * Rabs (fh q)) (fg q m)).
  { induction k as [|k IH]; intro Hk; [exists 0; split; [lra|intros; lia]|].
    destruct (IH ltac:(lia)) as (C & PC & B).
    destruct (stage_small fh H (fun q => i3 _ _ _ (fq q)) HH 4 M HM (fun q => G 4 M H (fq q)) (fun q => D 4 M H (fq q))
      (fun q => Dlin 4 M H (fq q)) (fun q => Dbnd 4 M H (fq q)) (fun q => Drem 4 M H (fq q)) ltac:(lia) (1 / 4) ltac:(lra) ltac:(lra) 6 aR cR (fun i q => fg q i)
      (fun i q _ => let '(ex_intro _ r (conj _ Hr)) := fin_bounded n (fg q i) in ex_intro _ r Hr) (fun i q j Hi => fs q i j Hi) k ltac:(lia)) as (C2 & P2 & B2).
    exists (C + C2). split; [lra|]. intros q m Hm j. pose proof (Rabs_pos (fh q)) as Ph.
    assert (Hm2 : (m < k)%nat \/ m = k) by lia. destruct Hm2 as [Hm2| ->].
    - specialize (B q m Hm2 j). assert (0 <= C2 * Rabs (fh q)) by now apply Rmult_le_pos. lra.
    - specialize (B2 q j). rewrite pow_1 in B2. assert (0 <= C * Rabs (fh q)) by now apply Rmult_le_pos. cbv beta in B2. lra. }
  exact (K 6%nat (le_n _)).
Qed.

Lemma fam_local : exists E, 0 <= E /\ forall (q : fam) j,
  Rabs (py _ _ (ip _ _ _ (fq q)) (it _ _ _ (fq q)) j + sumn 6 (fun m => wR m * fg q m j) - py _ _ (ip _ _ _ (fq q)) (it _ _ _ (fq q) + fh q) j)
  <= E * Rabs (fh q) ^ 5 + Rabs (fh q) * ros_excess M (Rabs (fh q)).
Proof.
  destruct (ros_weigh fh H (fun q => i3 _ _ _ (fq q)) HH 4 M HM (fun q => G 4 M H (fq q)) (fun q => D 4 M H (fq q))
      (fun q => Dlin 4 M H (fq q)) (fun q => Dbnd 4 M H (fq q)) (fun q => Drem 4 M H (fq q)) ltac:(lia) (1 / 4) ltac:(lra) ltac:(lra) 6 aR cR (fun i q => fg q i)
      (fun i q _ => let '(ex_intro _ r (conj _ Hr)) := fin_bounded n (fg q i) in ex_intro _ r Hr) (fun i q j Hi => fs q i j Hi) rho rho_eq 4 wR (le_n _)) as (C1 & P1 & B1).
  destruct (exact_series (J := fin n) 4 M H HM HH ltac:(lia) 4 (le_n _)) as (C2 & P2 & B2).
  exists (C1 + C2). split; [lra|]. intros q j. specialize (B1 q j). specialize (B2 (fq q) j). cbv beta in *.
  set (Z1 := series fh (fun q => D 4 M H (fq q)) 4 (fun t => sumn 6 (fun m => wR m * rho t m)) q j) in *.
  set (Z2 := series (ih 4 M H) (D 4 M H) 4 (fun t => / IZR (gamma t)) (fq q) j) in *.
  assert (B3 : Rabs (Z1 - Z2) <= Rabs (fh q) * ros_excess M (Rabs (fh q))).
  { rewrite <- excess_sum.
    unfold Z1, Z2, series. replace (lsum (trees 4) (fun t => fh q ^ tsize t * (beta t * sumn 6 (fun m => wR m * rho t m)) * elem (fun q => D 4 M H (fq q)) q t j)
      - lsum (trees 4) (fun t => ih 4 M H (fq q) ^ tsize t * (beta t * / IZR (gamma t)) * elem (D 4 M H) (fq q) t j))
      with (lsum (trees 4) (fun t => fh q ^ tsize t * beta t * elem (D 4 M H) (fq q) t j * (sumn 6 (fun m => wR m * rho t m) - / IZR (gamma t)))).
    2:{ match goal with |- _ = ?a - ?b => replace (a - b) with (a + -1 * b) by ring end.
        rewrite <- lsum_scale, <- lsum_plus. apply lsum_ext. intros t _. unfold fh.
        change (elem (fun q0 => D 4 M H (fq q0)) q t) with (elem (D 4 M H) (fq q) t). ring. }
    assert (In1 : forall t, In t (trees 4) -> In t (trees 4)) by auto. revert In1. generalize (trees 4) at 1 3 4 as l.
    induction l as [|t l IHl]; intro In1; [unfold lsum; cbn [map rsum fold_right]; rewrite Rabs_R0; lra|].
    rewrite !lsum_cons. eapply Rle_trans; [apply Rabs_triang|]. apply Rplus_le_compat; [|apply IHl; intros; apply In1; now right].
    assert (It : In t (trees 4)) by (apply In1; now left). pose proof (in_trees 4 t It) as St.
    rewrite !Rabs_mult, <- RPow_abs, (Rabs_pos_eq (beta t)) by apply (beta_01 _ t (le_n _)).
    pose proof (beta_01 _ t (le_n _)) as [b1 b2].
    pose proof (elem_le 4 M (D 4 M H (fq q)) HM (Dbnd 4 M H (fq q)) 4 t St (le_n _) j) as Be.
    rewrite Rpow_mult_distr. pose proof (order_near t It) as Hw.
    set (x := Rabs (fh q) ^ tsize t) in *. assert (Px : 0 <= x) by (apply pow_le, Rabs_pos).
    set (e := Rabs (elem (D 4 M H) (fq q) t j)) in *. assert (Pe : 0 <= e) by apply Rabs_pos.
    set (d := Rabs (sumn 6 (fun m => wR m * rho t m) - / IZR (gamma t))) in *. assert (Pd : 0 <= d) by apply Rabs_pos.
    change (Rabs (elem (D 4 M H) (fq q) t j) <= M ^ tsize t) in Be. fold e in Be.
    replace (x * beta t * e * d) with (d * (beta t * e * x)) by ring.
    apply Rmult_le_compat; [exact Pd| |exact Hw|].
    - apply Rmult_le_pos; [apply Rmult_le_pos; lra|exact Px].
    - apply Rmult_le_compat_r; [exact Px|]. nra. }
  fold (fh q) in B2.
  replace (py _ _ (ip _ _ _ (fq q)) (it _ _ _ (fq q)) j + sumn 6 (fun m => wR m * fg q m j) - py _ _ (ip _ _ _ (fq q)) (it _ _ _ (fq q) + fh q) j)
    with ((sumn 6 (fun m => wR m * fg q m j) - Z1) + (- (py _ _ (ip _ _ _ (fq q)) (it _ _ _ (fq q) + fh q) j - py _ _ (ip _ _ _ (fq q)) (it _ _ _ (fq q)) j - Z2) + (Z1 - Z2))) by ring.
  eapply Rle_trans; [apply Rabs_triang|]. eapply Rle_trans; [apply Rplus_le_compat_l, Rabs_triang|]. rewrite Rabs_Ropp. lra.
Qed.

Theorem ros_local : exists E C, 0 <= E /\ 0 <= C /\ forall (F : (fin n -> R) -> fin n -> R) DF y DD (T : R -> Prop),
  (forall s u c, T s -> T u -> 0 <= c <= 1 -> T (s + c * (u - s))) ->
  taylor 4 M (fun v => exists t, T t /\ v = restrict (y t)) F DD -> ros_solves T F y ->
  (forall t u (k : fin n), T t -> DD (restrict (y t)) [u] k = DF (restrict (y t)) u k) ->
  forall t h g x', T t -> T (t + h) -> Rabs h <= H -> scheme F DF (restrict (y t)) h g x' ->
  (forall k, Rabs (x' k - restrict (y (t + h)) k) <= E * Rabs h ^ 5 + Rabs h * ros_excess M (Rabs h))
  /\ forall m, (m < 6)%nat -> bnd (C * Rabs h) (g m).
Proof.
  destruct fam_local as (E & PE & B). destruct fam_small as (C & PC & BC). exists E, C. split; [exact PE|]. split; [exact PC|].
  intros F DF y DD T Tc Tay Sol HD t h g x' Ht Hth Hh [Hg Hx].
  set (P := mkProb 4 M T F DD (fun t => restrict (y t)) Tc Tay (fun u k Hu => Sol u k Hu)).
  set (q := mkInst 4 M H P t h Ht Hth Hh).
  assert (Hs : forall i k, (i < 6)%nat -> g i k = 1 / 4 * (ih _ _ _ q * D 4 M H q [g i] k
     + ih _ _ _ q * G 4 M H q (fun j => sumn i (fun m => aR i m * g m j)) k + sumn i (fun m => cR i m * g m k))).
  { intros i k Hi. rewrite (Hg i k Hi) at 1. rewrite <- (HD t (g i) k Ht). reflexivity. }
  split; [|exact (BC (mkFam q g Hs))]. intro k. rewrite (Hx k). exact (B (mkFam q g Hs) k).
Qed.
End Local.

(** ** The model. *)
Section Run.
Variables (eps : R) (n : nat).
Notation co := (default_rosenbrock (N := RNum eps)).
Lemma stp_scheme M f jac dft F DF m x t h : ros_system n f jac dft F DF -> 0 <= M -> h <> 0 -> M * Rabs h <= 2 ->
  (forall u r, bnd r u -> bnd (M * r) (DF (restrict x) u)) ->
  exists g, scheme F DF (restrict x) h g (restrict (snd (ros_stp eps n f jac dft m x t h))).
Proof.
  intros Hsys HM Hh Hs HB. pose proof (ros_nonsingular eps n f jac dft F DF Hsys M x t h HM Hh Hs HB) as Hn.
  set (m2 := rwrite (N := RNum eps) false (rwrite (N := RNum eps) false m ROut (m ROut)) RErr (m RErr)).
  pose proof (C87_stages eps n f jac dft m2 x t h Hn) as K. cbv zeta in K.
  assert (E : snd (ros_stp eps n f jac dft m x t h) = snd (fst (ros_step (N := RNum eps) n f jac dft co m2 x t h))).
  { unfold ros_stp. cbv zeta. cbn [snd]. unfold rread. cbn [rplace].
    rewrite (ros_in_out (N := RNum eps) n f jac dft co m x (m ROut) (m RErr) t h ROut ltac:(discriminate)).
    unfold ros_out_of_place, ros_step. cbn [fst snd].
    replace (rwrite (N := RNum eps) false m2 RX x) with (rwrite (N := RNum eps) false (rwrite (N := RNum eps) false (rwrite (N := RNum eps) false m RX x) ROut (m ROut)) RErr (m RErr)); [reflexivity|].
    extensionality l. unfold m2, rwrite. cbn [rplace]. destruct l; reflexivity. }
  rewrite E. clear E.
  destruct (ros_step (N := RNum eps) n f jac dft co m2 x t h) as [[m' xo] xe]. destruct K as [K _]. cbn [fst snd].
  exact (ros_scheme eps n f jac dft F DF Hsys x t h xo xe Hh K).
Qed.

Theorem ros_conv M H : 0 <= M -> 0 <= H -> M * H <= 2 -> exists G E, 0 <= G /\ 0 <= E /\
  forall f jac dft F DF (y : R -> nat -> R) DD (T : R -> Prop), ros_system n f jac dft F DF ->
  (forall s u c, T s -> T u -> 0 <= c <= 1 -> T (s + c * (u - s))) ->
  taylor 4 M (fun v => exists t, T t /\ v = restrict (y t)) F DD -> ros_solves T F y ->
  (forall t u (k : fin n), T t -> DD (restrict (y t)) [u] k = DF (restrict (y t)) u k) ->
  (forall t h m, T t -> T (t + h) -> h <> 0 -> Rabs h <= H ->
     near_n n (E * Rabs h ^ 5 + Rabs h * ros_excess M (Rabs h)) (snd (ros_stp eps n f jac dft m (y t) t h)) (y (t + h)))
  /\ (ros_lipschitz M F DF ->
      forall (W : Type) (t0 tend dt D : R) x m (w : W) fuel tr,
      0 <= eps -> dt <> 0 -> 0 <= dir dt * (tend - t0) -> Rabs dt <= H -> 0 <= D -> near_n n D x (y t0) ->
      (forall t, span eps t0 tend (dir dt) t -> T t) ->
      (exists r, integrate_const (N := RNum eps) rec_obs (plain_step (ros_stp eps n f jac dft)) fuel m w x t0 tend dt = (tr, Ok r)) \/
      (exists r, integrate_adaptive_plain (N := RNum eps) rec_obs (plain_step (ros_stp eps n f jac dft)) fuel m w x t0 tend dt = (tr, Ok r)) \/
      (exists r N, integrate_n_steps (N := RNum eps) rec_obs (plain_step (ros_stp eps n f jac dft)) m w x t0 dt N = (tr, Ok r)
                /\ dir dt * (t0 + INR N * dt - tend) <= eps) ->
      forall x' t', In (x', t') (obs_of tr) ->
      near_n n (exp (G * Rabs (t' - t0)) * (D + (E * Rabs dt ^ 4 + ros_excess M (Rabs dt)) * Rabs (t' - t0))) x' (y t')).
Proof.
  intros HM HH Hs. destruct (ros_local n M H HM HH Hs) as (E & C & PE & PC & B).
  destruct (step_grow M H C HM HH PC Hs) as (Lam & PL & BG). exists Lam, E. split; [exact PL|]. split; [exact PE|].
  intros f jac dft F DF y DD T Hsys Tc Tay Sol HD.
  assert (HMh : forall h, Rabs h <= H -> M * Rabs h <= 2) by (intros h Hh; apply Rle_trans with (M * H); [apply Rmult_le_compat_l; assumption|exact Hs]).
  assert (Hsch : forall t h m, T t -> h <> 0 -> Rabs h <= H -> exists g, scheme F DF (restrict (y t)) h g (restrict (snd (ros_stp eps n f jac dft m (y t) t h)))).
  { intros t h m Ht Hh0 Hh. apply (stp_scheme M); [exact Hsys|exact HM|exact Hh0|now apply HMh|]. intros u r Hu k. rewrite <- (HD t u k Ht).
    pose proof (ty_bnd _ _ _ _ _ Tay (restrict (y t)) [u] [r] k ltac:(exists t; split; [exact Ht|reflexivity]) ltac:(cbn; lia) ltac:(constructor; [exact Hu|constructor])) as Q.
    cbn [fold_right] in Q. rewrite Rmult_1_r in Q. exact Q. }
  split.
  { intros t h m Ht Hth Hh0 Hh k Hk. destruct (Hsch t h m Ht Hh0 Hh) as (g & Hg).
    exact (proj1 (B F DF y DD T Tc Tay Sol HD t h g _ Ht Hth Hh Hg) (exist _ k Hk)). }
  intros HL W t0 tend dt D x m w fuel tr He Hd Hdir Hdt HD0 Hx Hsp Hrun x' t' Hin.
  set (Step := fun (x : nat -> R) (t h : R) x' => exists m, x' = snd (ros_stp eps n f jac dft m x t h)).
  set (Step2 := fun (x : nat -> R) (t h : R) x' => h <> 0 /\ Step x t h x').
  set (Tn := span eps t0 tend (dir dt)) in *.
  assert (Hstp : forall s x t dt, Step x t dt (snd (ros_stp eps n f jac dft s x t dt))) by (intros s0 x0 t1 d1; now exists s0).
  assert (Hl : exists l, obs_of tr = (x, t0) :: l /\ linked (stepT Step (dir dt) Tn (Rabs dt)) ((x, t0) :: l)).
  { destruct Hrun as [[r E1]|[[r E1]|(r & N & E1 & Hn)]].
    - exact (const_linked Step eps He (ros_stp eps n f jac dft) Hstp t0 tend dt Hd Hdir x fuel m w tr r E1).
    - exact (adaptive_linked Step eps He (ros_stp eps n f jac dft) Hstp t0 tend dt Hd Hdir x fuel m w tr r E1).
    - destruct (n_steps_pure (N := RNum eps) (ros_stp eps n f jac dft) m w x t0 dt N) as (tr2 & E2 & Ho & _).
      pose proof (eq_trans (eq_sym E1) E2) as E3. apply (f_equal fst) in E3. cbn [fst] in E3. subst tr2.
      destruct (grid_list eps (ros_stp eps n f jac dft) t0 dt x m N) as [l El]. exists l. split; [exact (eq_trans Ho El)|].
      refine (eq_ind _ (fun q => linked (stepT Step (dir dt) Tn (Rabs dt)) q) _ _ El).
      apply (grid_linked Step eps (ros_stp eps n f jac dft) Hstp); [exact Hd|].
      apply (grid_span eps He t0 tend dt Hdir N). now right. }
  destruct Hl as (l & Ho & Hl). rewrite Ho in Hin.
  apply (linked_impl _ (stepT Step2 (dir dt) Tn (Rabs dt))) in Hl.
  2:{ intros a b (A1 & A2 & A3). split; [|split; assumption]. split; [|exact A1]. intro Z. rewrite Z in A2. lra. }
  set (Cc := E * Rabs dt ^ 4 + ros_excess M (Rabs dt)).
  pose proof (Rabs_pos dt) as Pdt.
  assert (Hmono : forall h h', 0 <= h <= h' -> 0 <= ros_excess M h <= ros_excess M h').
  { intros h h' Hhh. unfold ros_excess. assert (D0 : 0 <= / 10 ^ 15) by (left; apply Rinv_0_lt_compat; apply pow_lt; lra).
    assert (X2 : 0 <= h ^ 2 <= h' ^ 2) by (split; [apply pow_le; lra|apply pow_incr; lra]).
    assert (X3 : 0 <= h ^ 3 <= h' ^ 3) by (split; [apply pow_le; lra|apply pow_incr; lra]).
    pose proof (pow_le M 2 HM) as P2. pose proof (pow_le M 3 HM) as P3. pose proof (pow_le M 4 HM) as P4.
    assert (Y1 : 0 <= M ^ 2 * h <= M ^ 2 * h') by (split; [apply Rmult_le_pos; lra|apply Rmult_le_compat_l; lra]).
    assert (Y2 : 0 <= 2 * M ^ 3 * h ^ 2 <= 2 * M ^ 3 * h' ^ 2) by (split; [apply Rmult_le_pos; lra|apply Rmult_le_compat_l; lra]).
    assert (Y3 : 0 <= 5 * M ^ 4 * h ^ 3 <= 5 * M ^ 4 * h' ^ 3) by (split; [apply Rmult_le_pos; lra|apply Rmult_le_compat_l; lra]).
    set (dd := / 10 ^ 15) in *.
    split; [apply Rmult_le_pos; lra|apply Rmult_le_compat_l; lra]. }
  assert (PCc : 0 <= Cc).
  { unfold Cc. pose proof (Hmono (Rabs dt) (Rabs dt) ltac:(lra)) as [X1 _]. pose proof (pow_le (Rabs dt) 4 Pdt) as X2.
    pose proof (Rmult_le_pos _ _ PE X2). lra. }
  assert (Hloc : forall x t h D x', 0 <= D -> Tn t -> Tn (t + h) -> Rabs h <= Rabs dt -> near_n n D x (y t) -> Step2 x t h x' ->
    near_n n ((1 + Rabs h * Lam) * D + Cc * Rabs h ^ 1) x' (y (t + h))).
  { intros z t h D1 z' HD1 Ht Hth Hh Hz (Hh0 & m1 & ->) k Hk.
    destruct (Hsch t h m1 (Hsp t Ht) Hh0 ltac:(lra)) as (gy & Hgy).
    destruct (stp_scheme M f jac dft F DF m1 z t h Hsys HM Hh0 (HMh h ltac:(lra)) (rl_bnd _ _ _ HL (restrict z))) as (gz & Hgz).
    destruct (B F DF y DD T Tc Tay Sol HD t h gy _ (Hsp t Ht) (Hsp (t + h) Hth) ltac:(lra) Hgy) as [L1 L2].
    pose proof (BG n F DF (restrict z) (restrict (y t)) h D1 gz gy _ _ HL ltac:(lra) HD1 (fun j => Hz _ (proj2_sig j)) Hgz Hgy L2 (exist _ k Hk)) as G1.
    specialize (L1 (exist _ k Hk)). unfold restrict in G1, L1. cbn [proj1_sig] in G1, L1. pose proof (Rabs_pos h) as Ph.
    assert (X1 : E * Rabs h ^ 5 + Rabs h * ros_excess M (Rabs h) <= Cc * Rabs h ^ 1).
    { unfold Cc. rewrite pow_1. destruct (Hmono (Rabs h) (Rabs dt) ltac:(lra)) as [X1 X2].
      assert (X3 : Rabs h ^ 4 <= Rabs dt ^ 4) by (apply pow_incr; lra).
      assert (X4 : E * Rabs h ^ 4 <= E * Rabs dt ^ 4) by (apply Rmult_le_compat_l; assumption).
      replace (E * Rabs h ^ 5 + Rabs h * ros_excess M (Rabs h)) with ((E * Rabs h ^ 4 + ros_excess M (Rabs h)) * Rabs h) by ring.
      apply Rmult_le_compat_r; lra. }
    set (a := snd (ros_stp eps n f jac dft m1 z t h) k) in *. set (b := snd (ros_stp eps n f jac dft m1 (y t) t h) k) in *.
    replace (a - y (t + h) k) with ((a - b) + (b - y (t + h) k)) by ring.
    eapply Rle_trans; [apply Rabs_triang|]. lra. }
  pose proof (onestep_error Step2 (dir dt) (dir_pm' dt) Tn Lam Cc (Rabs dt) 0 PL PCc
    (fun x t D => near_n n D x (y t)) ltac:(intros z t D1 D2 HD12 Hz i Hi; specialize (Hz i Hi); lra) Hloc (Rabs dt) ltac:(lra)
    l x t0 D HD0 (T_start eps He t0 tend dt Hdir) Hx Hl x' t' Hin) as [_ R1].
  rewrite pow_O, Rmult_1_r in R1. exact R1.
Qed.
End Run.

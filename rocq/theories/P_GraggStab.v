(** Stability of the modified midpoint method and of its extrapolation; error of one step near a solution. *)
From Coq Require Import List Arith Bool ZArith Reals Lia Lra FunctionalExtensionality.
From Verif Require Import M_Num M_Run M_RK M_Midpoint S_RK S_BSeries S_Conv S_Midpoint P_R P_RK P_RKOrder P_Midpoint P_BSInd P_Neville P_ConvOrd P_Extrap P_Gragg P_GraggConv.
Import ListNotations.
Local Open Scope R_scope.
Local Ltac toR := match goal with |- @eq _ ?l ?r => change (@eq R l r) end.

Section Stab.
Variable eps : R.
Notation NN := (RNum eps).
Context {I : Type}.
Variable T : R -> Prop.
Hypothesis Tconv : forall s u c, T s -> T u -> 0 <= c <= 1 -> T (s + c * (u - s)).
Variable f : (I -> R) -> R -> (I -> R).
Variables L H : R.
Hypothesis HL0 : 0 <= L.
Hypothesis HL : lipschitz T L f.
Variables (x x' : I -> R) (t h D : R).
Hypothesis HD : 0 <= D.
Hypothesis Ht : T t.
Hypothesis Hth : T (t + h).
Hypothesis Hh : Rabs h <= H.
Hypothesis Hx : forall j, Rabs (x j - x' j) <= D.
Variable n : nat.
Hypothesis Hn : (1 <= n)%nat.
Notation u := (h / INR n)%R.
Notation Z y := (gz (N := NN) f y (f y t) t u).
Notation q := (1 + 2 * H * L).

Lemma u_pos : 0 <= Rabs u <= H.
Proof.
  split; [apply Rabs_pos|]. assert (P : 1 <= INR n) by (change 1 with (INR 1); apply le_INR; exact Hn).
  unfold Rdiv. rewrite Rabs_mult, (Rabs_pos_eq (/ INR n)) by (left; apply Rinv_0_lt_compat; lra).
  apply Rle_trans with (Rabs h * 1); [|lra]. apply Rmult_le_compat_l; [apply Rabs_pos|].
  rewrite <- Rinv_1. apply Rinv_le_contravar; lra.
Qed.
Lemma u_sum : INR n * Rabs u = Rabs h.
Proof.
  assert (P : 0 < INR n) by (apply lt_0_INR; lia). unfold Rdiv. rewrite Rabs_mult, (Rabs_pos_eq (/ INR n)) by (left; now apply Rinv_0_lt_compat).
  field. lra.
Qed.
Lemma node m : (m <= n)%nat -> T (t + INR m * u).
Proof.
  intro Hm. assert (P : 0 < INR n) by (apply lt_0_INR; lia).
  replace (t + INR m * u) with (t + (INR m / INR n) * ((t + h) - t)) by (field; lra). apply Tconv; [exact Ht|exact Hth|].
  split; [apply Rmult_le_pos; [apply pos_INR|left; now apply Rinv_0_lt_compat]|].
  apply Rmult_le_reg_r with (INR n); [exact P|]. unfold Rdiv. rewrite Rmult_assoc, Rinv_l, Rmult_1_r, Rmult_1_l by lra. apply le_INR. exact Hm.
Qed.
Lemma q_one m : 1 <= q ^ m.
Proof. pose proof u_pos. apply pow_R1_Rle. assert (0 <= H * L) by (apply Rmult_le_pos; lra). lra. Qed.

Lemma gz_near : forall m, (S m <= n)%nat -> (forall i, Rabs (Z x m i - Z x' m i) <= q ^ m * D) /\ (forall i, Rabs (Z x (S m) i - Z x' (S m) i) <= q ^ S m * D).
Proof.
  pose proof u_pos as [U1 U2]. assert (HHL : 0 <= H * L) by (apply Rmult_le_pos; lra).
  induction m as [|m IH]; intro Hm.
  - split; intro i; [unfold gz; cbn [gpair fst pow]; rewrite Rmult_1_l; apply Hx|].
    unfold gz. cbn [gpair fst pow nadd nmul nofZ RNum].
    pose proof (Hx i) as Hi. pose proof (HL x x' t D Ht Hx i) as B.
    replace (1 * x i + u * f x t i - (1 * x' i + u * f x' t i)) with ((x i - x' i) + u * (f x t i - f x' t i)) by ring.
    eapply Rle_trans; [apply Rabs_triang|]. rewrite Rabs_mult.
    assert (Rabs u * Rabs (f x t i - f x' t i) <= H * (L * D)) by (apply Rmult_le_compat; auto using Rabs_pos).
    assert (0 <= H * (L * D)) by (rewrite <- Rmult_assoc; now apply Rmult_le_pos). lra.
  - destruct (IH ltac:(lia)) as [A B]. split; [exact B|]. intro i. rewrite !gz_SS. cbn [nadd nmul nofZ RNum]. rewrite !gth_R.
    set (s := t + INR (S m) * u). assert (Ts : T s) by (apply node; lia).
    pose proof (HL (Z x (S m)) (Z x' (S m)) s _ Ts B i) as C. specialize (A i).
    set (a := Z x m i) in *. set (b := Z x' m i) in *. set (g := f (Z x (S m)) s i) in *. set (g' := f (Z x' (S m)) s i) in *.
    change (Rabs (1 * a + 2 * u * g - (1 * b + 2 * u * g')) <= q ^ S (S m) * D).
    replace (1 * a + 2 * u * g - (1 * b + 2 * u * g')) with ((a - b) + 2 * (u * (g - g'))) by ring.
    eapply Rle_trans; [apply Rabs_triang|]. rewrite !Rabs_mult, (Rabs_pos_eq 2) by lra.
    assert (P1 : Rabs u * Rabs (g - g') <= H * (L * (q ^ S m * D))) by (apply Rmult_le_compat; auto using Rabs_pos).
    pose proof (q_one m) as Q1. assert (P2 : q ^ m * D <= q ^ S m * D).
    { apply Rmult_le_compat_r; [exact HD|]. cbn [pow]. nra. }
    replace (q ^ S (S m) * D) with (q ^ S m * D + 2 * (H * (L * (q ^ S m * D)))) by (cbn [pow]; ring). lra.
Qed.
Lemma gz_near' m : (m <= n)%nat -> forall i, Rabs (f (Z x m) (t + INR m * u) i - f (Z x' m) (t + INR m * u) i) <= L * (q ^ n * D).
Proof.
  intros Hm i. apply HL; [now apply node|]. intro j.
  assert (B : Rabs (Z x m j - Z x' m j) <= q ^ m * D).
  { destruct (Nat.eq_dec m n) as [E|E]; [|apply (gz_near m ltac:(lia))]. destruct m as [|m]; [lia|]. apply (gz_near m ltac:(lia)). }
  eapply Rle_trans; [exact B|]. apply Rmult_le_compat_r; [exact HD|]. apply Rle_pow; [|exact Hm]. pose proof (q_one 1). cbn [pow] in *. lra.
Qed.

Lemma gz_drift i : forall m, (S m <= n)%nat ->
  Rabs ((Z x m i - Z x' m i) - (x i - x' i)) <= INR m * (Rabs u * (L * (q ^ n * D)))
  /\ Rabs ((Z x (S m) i - Z x' (S m) i) - (x i - x' i)) <= INR (S m) * (Rabs u * (L * (q ^ n * D))).
Proof.
  set (kap := Rabs u * (L * (q ^ n * D))).
  assert (Hk : forall m, (m <= n)%nat -> Rabs (u * (f (Z x m) (t + INR m * u) i - f (Z x' m) (t + INR m * u) i)) <= kap).
  { intros m Hm. rewrite Rabs_mult. apply Rmult_le_compat_l; [apply Rabs_pos|]. now apply gz_near'. }
  induction m as [|m IH]; intro Hm.
  - split.
    + unfold gz. cbn [gpair fst INR]. rewrite Rmult_0_l. replace (x i - x' i - (x i - x' i)) with 0 by ring. rewrite Rabs_R0. lra.
    + specialize (Hk 0%nat ltac:(lia)). cbn [INR] in Hk. replace (t + 0 * u) with t in Hk by ring. 
      unfold gz in Hk |- *. cbn [gpair fst INR nadd nmul nofZ RNum] in Hk |- *.
      replace (1 * x i + u * f x t i - (1 * x' i + u * f x' t i) - (x i - x' i)) with (u * (f x t i - f x' t i)) by ring. lra.
  - destruct (IH ltac:(lia)) as [A B]. split; [exact B|]. specialize (Hk (S m) ltac:(lia)). rewrite !gz_SS. cbn [nadd nmul nofZ RNum]. rewrite !gth_R.
    set (s := t + INR (S m) * u) in *.
    set (a := Z x m i) in *. set (b := Z x' m i) in *. set (g := f (Z x (S m)) s i) in *. set (g' := f (Z x' (S m)) s i) in *.
    change (Rabs (1 * a + 2 * u * g - (1 * b + 2 * u * g') - (x i - x' i)) <= INR (S (S m)) * kap).
    replace (1 * a + 2 * u * g - (1 * b + 2 * u * g') - (x i - x' i)) with ((a - b - (x i - x' i)) + 2 * (u * (g - g'))) by ring.
    eapply Rle_trans; [apply Rabs_triang|]. rewrite (Rabs_mult 2), (Rabs_pos_eq 2) by lra. rewrite !S_INR. lra.
Qed.

Theorem mm_drift i : Rabs ((mm_val (N := NN) f n x (f x t) t h i - mm_val (N := NN) f n x' (f x' t) t h i) - (x i - x' i)) <= Rabs h * (L * q ^ n) * D.
Proof.
  unfold mm_val, smoothed. rewrite nofnat_R. cbn [ndiv nadd nmul nofZ RNum]. rewrite gth_R.
  assert (En : exists m, n = S m) by (exists (n - 1)%nat; lia). destruct En as [m En].
  destruct (gz_drift i m ltac:(lia)) as [A B].
  pose proof (gz_near' n (le_n _) i) as C. replace (n - 1)%nat with m by lia. rewrite <- En in B.
  set (a := Z x m i) in *. set (b := Z x' m i) in *. set (c := Z x n i) in *. set (d := Z x' n i) in *.
  set (g := f (Z x n) (t + INR n * u) i) in *. set (g' := f (Z x' n) (t + INR n * u) i) in *.
  change (Rabs (1 / 2 * a + 1 / 2 * c + 1 / 2 * u * g - (1 / 2 * b + 1 / 2 * d + 1 / 2 * u * g') - (x i - x' i)) <= Rabs h * (L * q ^ n) * D).
  assert (EQ : forall a b c d g g' v x y : R, 1 / 2 * a + 1 / 2 * c + 1 / 2 * v * g - (1 / 2 * b + 1 / 2 * d + 1 / 2 * v * g') - (x - y)
    = / 2 * ((a - b - (x - y)) + ((c - d - (x - y)) + v * (g - g')))) by (intros; field).
  rewrite EQ. clear EQ.
  rewrite Rabs_mult, (Rabs_pos_eq (/ 2)) by lra.
  assert (P : Rabs (u * (g - g')) <= Rabs u * (L * (q ^ n * D))) by (rewrite Rabs_mult; apply Rmult_le_compat_l; [apply Rabs_pos|exact C]).
  pose proof (Rabs_triang (a - b - (x i - x' i)) ((c - d - (x i - x' i)) + u * (g - g'))) as T1.
  pose proof (Rabs_triang (c - d - (x i - x' i)) (u * (g - g'))) as T2.
  rewrite <- u_sum. set (kap := L * (q ^ n * D)) in *.
  replace (INR n * Rabs u * (L * q ^ n) * D) with (INR n * (Rabs u * kap)) by (unfold kap; ring).
  assert (E : INR m = INR n - 1) by (rewrite En, S_INR; ring). rewrite E in A. set (v := Rabs u * kap) in *. lra.
Qed.
End Stab.

Lemma ew_total sq K k m : (forall i j, (i < j <= K)%nat -> (0 < sq i < sq j)%nat) -> (m <= k <= K)%nat -> sumn (S K) (ew (hsq sq 1) k m) = 1.
Proof.
  intros Hq Hkm. transitivity (sumn (S K) (fun l => ew (hsq sq 1) k m l * 1)); [apply sumn_ext; intros; ring|].
  rewrite <- (nv_ew (hsq sq 1) K (fun _ => 1) m k) by lia.
  rewrite (nv_poly (hsq sq 1) K (hsq_distinct sq 1 ltac:(lra) K Hq) [1] m k (fun _ => 1)); [cbn; ring|lia|cbn; lia|]. intros; cbn; ring.
Qed.

(** Growth of the extrapolated method. *)
Definition ext_growth (sq : nat -> nat) (K k m : nat) (L H : R) : R :=
  sumn (S K) (fun j => Rabs (ew (hsq sq 1) k m j) * (L * (1 + 2 * H * L) ^ sq j)).
Lemma ext_growth_nonneg sq K k m L H : 0 <= L -> 0 <= H -> 0 <= ext_growth sq K k m L H.
Proof.
  intros HL HH. unfold ext_growth. assert (E : sumn (S K) (fun _ => 0 * 0) = 0) by (rewrite sumn_scale; ring). rewrite <- E. apply sumn_le.
  intros j _. assert (0 <= H * L) by now apply Rmult_le_pos. rewrite Rmult_0_l. apply Rmult_le_pos; [apply Rabs_pos|]. apply Rmult_le_pos; [exact HL|]. apply pow_le. lra.
Qed.

Section Local.
Variable eps : R.
Notation NN := (RNum eps).
Context {I : Type}.
Variable T : R -> Prop.
Hypothesis Tconv : forall s u c, T s -> T u -> 0 <= c <= 1 -> T (s + c * (u - s)).
Variable f : (I -> R) -> R -> (I -> R).
Variables L H : R.
Hypothesis HL0 : 0 <= L.
Hypothesis HL : lipschitz T L f.
Variable y : R -> I -> R.
Variables (E : R) (p : nat).

Lemma mm_local n x t h D : (1 <= n)%nat -> 0 <= D -> T t -> T (t + h) -> Rabs h <= H -> (forall j, Rabs (x j - y t j) <= D) ->
  (forall i, Rabs (mm_val (N := NN) f n (y t) (f (y t) t) t h i - y (t + h) i) <= E * Rabs h ^ S p) ->
  forall i, Rabs (mm_val (N := NN) f n x (f x t) t h i - y (t + h) i) <= (1 + Rabs h * (L * (1 + 2 * H * L) ^ n)) * D + E * Rabs h ^ S p.
Proof.
  intros Hn HD Ht Hth Hh Hx Hc i. specialize (Hc i). specialize (Hx i) as Hi.
  pose proof (mm_drift eps T Tconv f L H HL0 HL x (y t) t h D HD Ht Hth Hh Hx n Hn i) as B.
  set (a := mm_val (N := NN) f n x (f x t) t h i) in *. set (b := mm_val (N := NN) f n (y t) (f (y t) t) t h i) in *.
  change (Rabs (a - y (t + h) i) <= (1 + Rabs h * (L * (1 + 2 * H * L) ^ n)) * D + E * Rabs h ^ S p).
  replace (a - y (t + h) i) with ((a - b - (x i - y t i)) + ((x i - y t i) + (b - y (t + h) i))) by ring.
  eapply Rle_trans; [apply Rabs_triang|]. pose proof (Rabs_triang (x i - y t i) (b - y (t + h) i)). lra.
Qed.

Lemma ext_local sq K k m x t h D : (forall i j, (i < j <= K)%nat -> (0 < sq i < sq j)%nat) -> (forall i, (i <= K)%nat -> (1 <= sq i)%nat) -> (m <= k <= K)%nat ->
  0 <= D -> T t -> T (t + h) -> Rabs h <= H -> (forall j, Rabs (x j - y t j) <= D) ->
  (forall i, Rabs (nev (N := NN) sq (fun l => mm_val (N := NN) f (sq l) (y t) (f (y t) t) t h) k m i - y (t + h) i) <= E * Rabs h ^ S p) ->
  forall i, Rabs (nev (N := NN) sq (fun l => mm_val (N := NN) f (sq l) x (f x t) t h) k m i - y (t + h) i) <= (1 + Rabs h * ext_growth sq K k m L H) * D + E * Rabs h ^ S p.
Proof.
  intros Hq Hq1 Hkm HD Ht Hth Hh Hx Hc i. specialize (Hc i). specialize (Hx i) as Hi. revert Hc.
  rewrite !(nev_nv eps sq 1 ltac:(lra) K Hq _ i m k Hkm). rewrite !(nv_ew (hsq sq 1) K _ m k) by lia.
  set (w := ew (hsq sq 1) k m). set (va := fun l => mm_val (N := NN) f (sq l) x (f x t) t h i). set (vb := fun l => mm_val (N := NN) f (sq l) (y t) (f (y t) t) t h i).
  intro Hc. 
  assert (Hc' : Rabs (sumn (S K) (fun j => w j * vb j) - y (t + h) i) <= E * Rabs h ^ S p) by exact Hc. clear Hc.
  change (Rabs (sumn (S K) (fun j => w j * va j) - y (t + h) i) <= (1 + Rabs h * ext_growth sq K k m L H) * D + E * Rabs h ^ S p).
  assert (W1 : sumn (S K) w = 1) by (apply ew_total; assumption).
  assert (B : Rabs (sumn (S K) (fun j => w j * (va j - vb j - (x i - y t i)))) <= Rabs h * ext_growth sq K k m L H * D).
  { eapply Rle_trans; [apply sumn_abs|]. unfold ext_growth.
    replace (Rabs h * sumn (S K) (fun j => Rabs (ew (hsq sq 1) k m j) * (L * (1 + 2 * H * L) ^ sq j)) * D)
      with (sumn (S K) (fun j => (Rabs h * D) * (Rabs (ew (hsq sq 1) k m j) * (L * (1 + 2 * H * L) ^ sq j)))) by (rewrite sumn_scale; ring).
    apply sumn_le. intros j Hj. fold w. rewrite Rabs_mult.
    replace (Rabs h * D * (Rabs (w j) * (L * (1 + 2 * H * L) ^ sq j))) with (Rabs (w j) * (Rabs h * (L * (1 + 2 * H * L) ^ sq j) * D)) by ring.
    apply Rmult_le_compat_l; [apply Rabs_pos|].
    exact (mm_drift eps T Tconv f L H HL0 HL x (y t) t h D HD Ht Hth Hh Hx (sq j) (Hq1 j ltac:(lia)) i). }
  assert (E1 : sumn (S K) (fun j => w j * va j) = sumn (S K) (fun j => w j * (va j - vb j - (x i - y t i))) + sumn (S K) (fun j => w j * vb j) + (x i - y t i) * sumn (S K) w).
  { rewrite <- (sumn_scale (S K) (x i - y t i) w), <- !sumn_plus. apply sumn_ext. intros. change (carrier NN) with R in *. ring. }
  rewrite E1, W1. set (A := sumn (S K) (fun j => w j * (va j - vb j - (x i - y t i)))) in *. set (Bq := sumn (S K) (fun j => w j * vb j)) in *.
  replace (A + Bq + (x i - y t i) * 1 - y (t + h) i) with (A + ((x i - y t i) + (Bq - y (t + h) i))) by ring.
  eapply Rle_trans; [apply Rabs_triang|]. pose proof (Rabs_triang (x i - y t i) (Bq - y (t + h) i)). lra.
Qed.
End Local.

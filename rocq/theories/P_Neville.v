(** The extrapolation table computes the value at zero of the interpolating polynomial. *)
From Coq Require Import ZArith List Bool Arith Reals Lia Lra FunctionalExtensionality.
From Verif Require Import M_Num M_Run M_RK M_Midpoint M_BS S_Midpoint P_R P_BS P_BSInd P_Midpoint.
Import ListNotations.
Local Open Scope R_scope.

(** *** Divided differences on the nodes s_(k-m) .. s_k. *)
Section DD.
Variable s : nat -> R.
Fixpoint dd (g : nat -> R) (k m : nat) : R :=
  match m with
  | O => g k
  | S m' => (dd g k m' - dd g (k - 1) m') / (s k - s (k - 1 - m')%nat)
  end.
Fixpoint nv (g : nat -> R) (k m : nat) : R :=
  match m with
  | O => g k
  | S m' => (s (k - 1 - m')%nat * nv g k m' - s k * nv g (k - 1) m') / (s (k - 1 - m')%nat - s k)
  end.
Fixpoint prodn (k m : nat) : R := match m with O => s k | S m' => s (k - S m')%nat * prodn k m' end.

Variable K : nat.
Hypothesis Hd : forall i j, (i < j <= K)%nat -> s i <> s j.

Lemma dd_ext g1 g2 : (forall k, g1 k = g2 k) -> forall m k, dd g1 k m = dd g2 k m.
Proof. intros H. induction m; intro k; cbn [dd]; [apply H|]. now rewrite !IHm. Qed.
Lemma dd_const a : forall m k, dd (fun _ => a) k (S m) = 0.
Proof.
  induction m; intro k.
  - cbn [dd]. unfold Rdiv. rewrite Rminus_eq_0. ring.
  - cbn [dd] in *. rewrite !IHm. unfold Rdiv. ring.
Qed.
Lemma dd_plus g1 g2 : forall m k, dd (fun i => g1 i + g2 i) k m = dd g1 k m + dd g2 k m.
Proof. induction m; intro k; cbn [dd]; [reflexivity|]. rewrite !IHm. unfold Rdiv. ring. Qed.

Lemma dd_mul g : forall m k, (S m <= k <= K)%nat -> dd (fun i => s i * g i) k (S m) = s k * dd g k (S m) + dd g (k - 1) m.
Proof.
  induction m as [|m IH]; intros k Hk.
  - cbn [dd]. assert (s (k - 1)%nat <> s k) by (apply Hd; lia). replace (k - 1 - 0)%nat with (k - 1)%nat by lia. field. lra.
  - cbn [dd]. fold (dd (fun i => s i * g i) k (S m)).
    change ((dd (fun i => s i * g i) k (S m) - dd (fun i => s i * g i) (k - 1) (S m)) / (s k - s (k - 1 - S m)%nat)
      = s k * ((dd g k (S m) - dd g (k - 1) (S m)) / (s k - s (k - 1 - S m)%nat)) + dd g (k - 1) (S m)).
    rewrite !IH by lia.
    assert (N1 : s (k - 1 - S m)%nat <> s k) by (apply Hd; lia).
    assert (N2 : s (k - 1 - S m)%nat <> s (k - 1)%nat) by (apply Hd; lia).
    assert (E : dd g (k - 1) m - dd g (k - 1 - 1) m = (s (k - 1)%nat - s (k - 1 - S m)%nat) * dd g (k - 1) (S m)).
    { cbn [dd]. replace (k - 1 - 1 - m)%nat with (k - 1 - S m)%nat by lia. field. lra. }
    apply Rmult_eq_reg_r with (s k - s (k - 1 - S m)%nat); [|lra].
    unfold Rdiv. rewrite Rmult_assoc, Rinv_l, Rmult_1_r by lra.
    match goal with |- _ = (s k * (?a * / ?b) + ?c) * _ => replace ((s k * (a * / b) + c) * b) with (s k * a + c * b) by (field; lra) end.
    lra.
Qed.

Lemma dd_poly : forall r m k, (m <= k <= K)%nat -> (length r <= m)%nat -> dd (fun i => peval r (s i)) k m = 0.
Proof.
  induction r as [|b r IH]; intros m k Hk Hr.
  - cbn [peval]. destruct m as [|m]; [reflexivity|apply dd_const].
  - destruct m as [|m]; [simpl in Hr; lia|]. cbn [peval].
    rewrite (dd_plus (fun _ => b) (fun i => s i * peval r (s i))), dd_const, dd_mul by lia.
    rewrite !IH by (simpl in Hr; lia). ring.
Qed.

Lemma prodn_step k m : (S m <= k)%nat -> s k * prodn (k - 1) m = prodn k (S m).
Proof.
  induction m as [|m IH]; intro H.
  - cbn [prodn]. ring.
  - cbn [prodn]. replace (k - 1 - S m)%nat with (k - S (S m))%nat by lia.
    transitivity (s (k - S (S m))%nat * (s k * prodn (k - 1) m)); [ring|]. rewrite IH by lia. cbn [prodn]. ring.
Qed.

(** Extrapolation of s * g. *)
Lemma nv_mul g : forall m k, (m <= k <= K)%nat -> nv (fun i => s i * g i) k m = (-1) ^ m * prodn k m * dd g k m.
Proof.
  induction m as [|m IH]; intros k Hk; cbn [nv].
  - cbn. ring.
  - rewrite !IH by lia. cbn [dd].
    assert (N1 : s (k - 1 - m)%nat <> s k) by (apply Hd; lia).
    assert (E1 : s (k - 1 - m)%nat * prodn k m = prodn k (S m)) by (cbn [prodn]; do 2 f_equal; lia).
    pose proof (prodn_step k m ltac:(lia)) as E2.
    replace (s (k - 1 - m)%nat * ((-1) ^ m * prodn k m * dd g k m) - s k * ((-1) ^ m * prodn (k - 1) m * dd g (k - 1) m))
      with ((-1) ^ m * prodn k (S m) * (dd g k m - dd g (k - 1) m)).
    2:{ transitivity ((-1) ^ m * (s (k - 1 - m)%nat * prodn k m) * dd g k m - (-1) ^ m * (s k * prodn (k - 1) m) * dd g (k - 1) m); [|ring].
        rewrite E1, E2. ring. }
    rewrite <- tech_pow_Rmult. field. lra.
Qed.
Lemma nv_const_plus a g : forall m k, (m <= k <= K)%nat -> nv (fun i => a + g i) k m = a + nv g k m.
Proof.
  induction m as [|m IH]; intros k Hk; cbn [nv]; [reflexivity|]. rewrite !IH by lia.
  assert (N1 : s (k - 1 - m)%nat <> s k) by (apply Hd; lia). field. lra.
Qed.
Lemma nv_ext g1 g2 : forall m k, (forall i, (i <= k)%nat -> g1 i = g2 i) -> nv g1 k m = nv g2 k m.
Proof. induction m; intros k H; cbn [nv]; [apply H; lia|]. rewrite (IHm k H), (IHm (k - 1)%nat); [reflexivity|]. intros i Hi. apply H. lia. Qed.

(** The value at zero of every polynomial of degree at most [m] through the entries. *)
Lemma nv_poly p m k g : (m <= k <= K)%nat -> (length p <= S m)%nat ->
  (forall i, (i <= k)%nat -> g i = peval p (s i)) -> nv g k m = peval p 0.
Proof.
  intros Hk Hp Hg. rewrite (nv_ext g (fun i => peval p (s i)) m k Hg).
  destruct p as [|a r].
  - clear. revert k. induction m; intro k; cbn [nv peval]; [reflexivity|]. rewrite !IHm. cbn [peval]. unfold Rdiv. ring.
  - cbn [peval]. rewrite (nv_const_plus a (fun i => s i * peval r (s i))), nv_mul by exact Hk.
    simpl in Hp. rewrite dd_poly by lia. ring.
Qed.
End DD.

(** *** Interpolating polynomials exist. *)
Fixpoint padd (p q : list R) : list R :=
  match p, q with [], _ => q | _, [] => p | a :: p', b :: q' => (a + b) :: padd p' q' end.
Lemma padd_eval : forall p q z, peval (padd p q) z = peval p z + peval q z.
Proof. induction p as [|a p IH]; intros [|b q] z; cbn [padd peval]; try ring. rewrite IH. ring. Qed.
Lemma padd_len : forall p q, length (padd p q) = Nat.max (length p) (length q).
Proof. induction p as [|a p IH]; intros [|b q]; cbn [padd length Nat.max]; auto. Qed.
Lemma pscale_eval c p z : peval (map (Rmult c) p) z = c * peval p z.
Proof. induction p; cbn [map peval]; [ring|]. rewrite IHp. ring. Qed.
(** prod over i < n of (z - s i). *)
Fixpoint pnodes (s : nat -> R) (n : nat) : list R :=
  match n with O => [1] | S n' => padd (0 :: pnodes s n') (map (Rmult (- s n')) (pnodes s n')) end.
Lemma pnodes_eval s n z : peval (pnodes s (S n)) z = (z - s n) * peval (pnodes s n) z.
Proof. cbn [pnodes]. rewrite padd_eval, pscale_eval. cbn [peval]. ring. Qed.
Lemma pnodes_len s n : length (pnodes s n) = S n.
Proof. induction n; [reflexivity|]. cbn [pnodes]. rewrite padd_len, map_length. simpl length. rewrite IHn. lia. Qed.
Lemma pnodes_zero s n i : (i < n)%nat -> peval (pnodes s n) (s i) = 0.
Proof.
  induction n as [|n IH]; intro H; [lia|]. rewrite pnodes_eval. destruct (Nat.eq_dec i n) as [->|Q]; [ring|].
  rewrite IH by lia. ring.
Qed.
Lemma pnodes_nz s n z : (forall i, (i < n)%nat -> z <> s i) -> peval (pnodes s n) z <> 0.
Proof.
  induction n as [|n IH]; intro H; [cbn; lra|]. rewrite pnodes_eval. apply Rmult_integral_contrapositive_currified.
  - specialize (H n ltac:(lia)). lra.
  - apply IH. intros i Hi. apply H. lia.
Qed.
Lemma interpolant_exists s y : forall K, (forall i j, (i < j <= K)%nat -> s i <> s j) ->
  exists p, (length p <= S K)%nat /\ forall i, (i <= K)%nat -> peval p (s i) = y i.
Proof.
  induction K as [|K IH]; intro Hd.
  - exists [y 0%nat]. split; [simpl; lia|]. intros i Hi. replace i with 0%nat by lia. cbn. ring.
  - destruct IH as (p & Lp & Ep); [intros i j H; apply Hd; lia|].
    set (w := peval (pnodes s (S K)) (s (S K))).
    assert (Nw : w <> 0).
    { apply pnodes_nz. intros i Hi. apply not_eq_sym, Hd. lia. }
    exists (padd p (map (Rmult ((y (S K) - peval p (s (S K))) / w)) (pnodes s (S K)))). split.
    + rewrite padd_len, map_length, pnodes_len. lia.
    + intros i Hi. rewrite padd_eval, pscale_eval. destruct (Nat.eq_dec i (S K)) as [->|Q].
      * fold w. field. exact Nw.
      * rewrite pnodes_zero by lia. rewrite Ep by lia. ring.
Qed.

(** *** The tables of the code *)
Section Code.
Variable eps : R.
Notation NN := (RNum eps).
Context {I : Type}.
Variable q : nat -> nat.
Variable h : R.
Hypothesis Hh : h <> 0.
Variable K : nat.
Hypothesis Hq : forall i j, (i < j <= K)%nat -> (0 < q i < q j)%nat.

(** h_k^2 *)
Definition hsq (k : nat) : R := Rsqr (h / INR (q k)).

Lemma q_pos i : (i <= K)%nat -> (0 < K)%nat -> 0 < INR (q i).
Proof.
  intros Hi HK. apply lt_0_INR. destruct (Nat.eq_dec i K) as [->|Q].
  - pose proof (Hq 0 K ltac:(lia)). lia.
  - pose proof (Hq i K ltac:(lia)). lia.
Qed.
Lemma hsq_distinct i j : (i < j <= K)%nat -> hsq i <> hsq j.
Proof.
  intros Hij E. pose proof (q_pos i ltac:(lia) ltac:(lia)) as Pi. pose proof (q_pos j ltac:(lia) ltac:(lia)) as Pj.
  assert (L : INR (q i) < INR (q j)) by (apply lt_INR; apply Hq; lia).
  unfold hsq, Rsqr in E.
  set (a := INR (q i)) in *. set (b := INR (q j)) in *.
  assert (Ha : h / a * (h / a) * (a * a) = h * h) by (field; lra).
  assert (Hb : h / b * (h / b) * (b * b) = h * h) by (field; lra).
  rewrite <- E in Hb. set (z := h / a * (h / a)) in *. assert (Z : z * ((b - a) * (b + a)) = 0) by lra.
  assert (0 < h * h) by nra. assert (z <> 0) by (intro Q; rewrite Q in Ha; lra).
  apply Rmult_integral in Z. destruct Z as [Z|Z]; [contradiction|]. nra.
Qed.

Lemma nev_nv (y : nat -> vec NN I) i : forall m k, (m <= k <= K)%nat ->
  nev (N := NN) q y k m i = nv hsq (fun k => y k i) k m.
Proof.
  induction m as [|m IH]; intros k Hk; [reflexivity|]. cbn [nev nv]. unfold ex_comb. cbn [scale_sum fold_left fst snd].
  rewrite !IH by lia. unfold ex_coeff. rewrite !nofnat_R. cbn [nadd nsub nmul ndiv nopp nofZ RNum].
  set (a := nv _ _ k m). set (b := nv _ _ (k - 1) m).
  set (j := (k - 1 - m)%nat). assert (Hj : (j < k)%nat) by (unfold j; lia).
  pose proof (q_pos j ltac:(lia) ltac:(lia)) as Pj. pose proof (q_pos k ltac:(lia) ltac:(lia)) as Pk.
  assert (L : INR (q j) < INR (q k)) by (apply lt_INR; apply Hq; lia).
  unfold hsq, Rsqr. assert (INR (q k) * INR (q k) - INR (q j) * INR (q j) <> 0) by nra.
  match goal with |- ?l = ?r => change (@eq R l r) end. field. repeat split; try lra.
  replace (h * h * (INR (q k) * INR (q k)) - h * h * (INR (q j) * INR (q j))) with (h * h * (INR (q k) * INR (q k) - INR (q j) * INR (q j))) by ring.
  apply Rmult_integral_contrapositive_currified; [nra|assumption].
Qed.

Lemma nev_poly (y : nat -> vec NN I) i p : (length p <= S K)%nat ->
  (forall k, (k <= K)%nat -> y k i = peval p (hsq k)) -> nev (N := NN) q y K K i = peval p 0.
Proof.
  intros Hp Hy. rewrite nev_nv by lia. apply nv_poly with K; auto using hsq_distinct.
Qed.
End Code.

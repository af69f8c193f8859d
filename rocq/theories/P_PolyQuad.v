(** Sums over polynomials: trapezoid and midpoint sums, repeated differences, Taylor's formula. *)
From Coq Require Import List Arith Reals Lia Lra Factorial.
From Verif Require Import M_BSDense S_RK S_Midpoint P_RKOrder P_Neville P_EvenPoly.
Import ListNotations.
Local Open Scope R_scope.

(** The h^(n+1) term of a difference of two values cancels. *)
Lemma ep_eval_diff n F b a : ep (S n) F -> exists p, (length p <= S (n / 2))%nat /\ forall h, F b h - F a h = peval p (Rsqr h).
Proof.
  intro E. induction E as [|c i l Hi|F G _ IF _ IG|F G _ IF He].
  - exists []. split; [cbn; lia|]. intro h. cbn. ring.
  - destruct i as [|i].
    + exists []. split; [cbn; lia|]. intro h. cbn [peval pow]. ring.
    + destruct (ep_eval (2 * l) (fun x h => (c * (b ^ S i - a ^ S i)) * x ^ 0 * h ^ (2 * l)) 0 (ep_mono (2 * l) (c * (b ^ S i - a ^ S i)) 0 l ltac:(lia))) as (p & Lp & Ep).
      exists p. split.
      * replace (2 * l / 2)%nat with l in Lp by (rewrite Nat.mul_comm, Nat.div_mul; lia).
        assert (l <= n / 2)%nat by (apply Nat.div_le_lower_bound; lia). lia.
      * intro h. rewrite <- Ep. replace (0 ^ 0) with 1 by (cbn; ring). ring.
  - destruct IF as (p & Lp & Ep), IG as (q & Lq & Eq). exists (padd p q). split; [rewrite padd_len; lia|].
    intro h. rewrite padd_eval, <- Ep, <- Eq. ring.
  - destruct IF as (p & Lp & Ep). exists p. split; [exact Lp|]. intro h. rewrite !He. apply Ep.
Qed.

(** *** Constant functions and antiderivatives *)
Lemma zero_deriv_const f : (forall s, derivable_pt_lim f s 0) -> forall a b, f a = f b.
Proof.
  intro H. set (pr := fun s => exist (fun l => derivable_pt_abs f s l) 0 (H s) : derivable_pt f s).
  assert (C : constant f) by (apply (null_derivative_1 f pr); reflexivity). exact C.
Qed.
Lemma same_deriv f g d : (forall s, derivable_pt_lim f s (d s)) -> (forall s, derivable_pt_lim g s (d s)) -> forall a b, f b - f a = g b - g a.
Proof.
  intros Hf Hg a b. pose proof (zero_deriv_const (fun s => f s - g s)) as C.
  assert (Z : forall s, derivable_pt_lim (fun s => f s - g s) s 0).
  { intro s. replace 0 with (d s - d s) by ring. apply (derivable_pt_lim_minus f g); auto. }
  specialize (C Z a b). cbv beta in C. lra.
Qed.

(** Taylor's formula when the derivative of order M+1 vanishes. *)
Lemma lim_sumn n (g : nat -> R -> R) (g' : nat -> R -> R) s : (forall m, (m < n)%nat -> derivable_pt_lim (g m) s (g' m s)) ->
  derivable_pt_lim (fun z => sumn n (fun m => g m z)) s (sumn n (fun m => g' m s)).
Proof.
  induction n as [|n IH]; intro H.
  - apply (lim_ext (fun _ => 0)); [reflexivity|]. apply derivable_pt_lim_const.
  - rewrite sumn_S. apply (lim_ext (fun z => sumn n (fun m => g m z) + g n z)); [intro z; now rewrite sumn_S|].
    apply (derivable_pt_lim_plus (fun z => sumn n (fun m => g m z)) (g n)); [apply IH; intros; apply H; lia|apply H; lia].
Qed.
Lemma lim_shift f x l z : derivable_pt_lim f (x + z) l -> derivable_pt_lim (fun w => f (x + w)) z l.
Proof.
  intros H e He. destruct (H e He) as [d Hd]. exists d. intros h H1 H2. specialize (Hd h H1 H2).
  replace (x + (z + h)) with (x + z + h) by ring. exact Hd.
Qed.
Lemma poly_taylor : forall M (F : nat -> R -> R), (forall m s, (m <= M)%nat -> derivable_pt_lim (F m) s (F (S m) s)) ->
  (forall s, F (S M) s = 0) -> forall x z, F O (x + z) = sumn (S M) (fun m => z ^ m / INR (fact m) * F m x).
Proof.
  induction M as [|M IH]; intros F HF H0 x z.
  - rewrite sumn_S. unfold sumn. cbn. unfold Rdiv. rewrite Rinv_1. replace (0 + 1 * 1 * F 0%nat x) with (F 0%nat x) by ring.
    apply zero_deriv_const. intro s. specialize (HF 0%nat s ltac:(lia)). now rewrite H0 in HF.
  - specialize (IH (fun m => F (S m)) (fun m s H => HF (S m) s ltac:(lia)) H0 x).
    set (g := fun m w => w ^ m / INR (fact m) * F m x).
    set (g' := fun m w => match m with O => 0 | S m' => w ^ m' / INR (fact m') * F m x end).
    assert (D : forall w, derivable_pt_lim (fun w => sumn (S (S M)) (fun m => g m w)) w (F 1%nat (x + w))).
    { intro w. rewrite IH. replace (sumn (S M) (fun m => w ^ m / INR (fact m) * F (S m) x)) with (sumn (S (S M)) (fun m => g' m w)).
      2:{ rewrite sumn_shift. unfold g'. ring. }
      apply lim_sumn. intros m _. unfold g, g'. destruct m as [|m].
      - apply (lim_ext (fun _ => / INR (fact 0) * F 0%nat x)); [intro; cbn; unfold Rdiv; ring|]. apply derivable_pt_lim_const.
      - apply (lim_ext (fun w => (F (S m) x / INR (fact (S m))) * w ^ S m)); [intro; unfold Rdiv; ring|].
        replace (w ^ m / INR (fact m) * F (S m) x) with (F (S m) x / INR (fact (S m)) * (INR (S m) * w ^ pred (S m))).
        + apply derivable_pt_lim_scal, derivable_pt_lim_pow.
        + cbn [pred]. rewrite fact_simpl, mult_INR. field. split; [apply INR_fact_neq_0|apply not_0_INR; lia]. }
    assert (E : forall w, derivable_pt_lim (fun w => F 0%nat (x + w)) w (F 1%nat (x + w))).
    { intro w. apply lim_shift. apply HF. lia. }
    pose proof (same_deriv _ _ (fun w => F 1%nat (x + w)) E D 0 z) as Q. cbv beta in Q.
    assert (Z : sumn (S (S M)) (fun m => g m 0) = F 0%nat (x + 0)).
    { rewrite sumn_shift, sumn_zero; [unfold g; change (INR (fact 0)) with 1; cbn [pow]; rewrite !Rplus_0_r; field|].
      intros m _. unfold g. cbn [pow]. unfold Rdiv. ring. }
    change (F 0%nat (x + z) = sumn (S (S M)) (fun m => g m z)). lra.
Qed.

(** *** Repeated central differences *)
Definition cdsum (f : R -> R) (kappa : nat) (x h : R) : R :=
  sumn (S kappa) (fun c => (-1) ^ c * INR (binom kappa c) * f (x + (INR kappa - 2 * INR c) * h)).
Lemma binom_big : forall n k, (n < k)%nat -> binom n k = 0%nat.
Proof.
  induction n as [|n IH]; intros [|k] H; try lia; [reflexivity|]. cbn [binom]. rewrite !IH by lia. reflexivity.
Qed.
Lemma binom_0 n : binom n 0 = 1%nat. Proof. now destruct n. Qed.
Lemma binom_diag n : binom n n = 1%nat.
Proof. induction n as [|n IH]; [reflexivity|]. cbn [binom]. rewrite IH, binom_big by lia. reflexivity. Qed.

Lemma cdsum_S f kappa x h : cdsum f (S kappa) x h = cdsum f kappa (x + h) h - cdsum f kappa (x - h) h.
Proof.
  unfold cdsum.
  assert (E1 : sumn (S kappa) (fun c => (-1) ^ c * INR (binom kappa c) * f (x + h + (INR kappa - 2 * INR c) * h))
             = f (x + (INR (S kappa)) * h) + sumn (S kappa) (fun c => (-1) ^ S c * INR (binom kappa (S c)) * f (x + (INR (S kappa) - 2 * INR (S c)) * h))).
  { transitivity (sumn (S (S kappa)) (fun c => (-1) ^ c * INR (binom kappa c) * f (x + (INR (S kappa) - 2 * INR c) * h))).
    - rewrite (sumn_S (S kappa)), (binom_big kappa (S kappa)) by lia. change (INR 0) with 0. rewrite Rmult_0_r, Rmult_0_l, Rplus_0_r.
      apply sumn_ext. intros c _. do 2 f_equal. rewrite S_INR. ring.
    - rewrite sumn_shift. f_equal. rewrite binom_0. cbn [pow]. change (INR 1) with 1. rewrite !Rmult_1_l. f_equal. change (INR 0) with 0. ring. }
  rewrite E1. rewrite sumn_shift.
  replace ((-1) ^ 0 * INR (binom (S kappa) 0) * f (x + (INR (S kappa) - 2 * INR 0) * h)) with (f (x + INR (S kappa) * h)).
  2:{ rewrite binom_0. cbn [pow]. change (INR 1) with 1. rewrite !Rmult_1_l. f_equal. change (INR 0) with 0. ring. }
  assert (E2 : sumn (S kappa) (fun m => (-1) ^ S m * INR (binom (S kappa) (S m)) * f (x + (INR (S kappa) - 2 * INR (S m)) * h))
    = sumn (S kappa) (fun c => (-1) ^ S c * INR (binom kappa (S c)) * f (x + (INR (S kappa) - 2 * INR (S c)) * h))
      + -1 * sumn (S kappa) (fun c => (-1) ^ c * INR (binom kappa c) * f (x - h + (INR kappa - 2 * INR c) * h))).
  { rewrite <- sumn_scale, <- sumn_plus. apply sumn_ext. intros c _. cbn [binom]. rewrite plus_INR.
    replace (x - h + (INR kappa - 2 * INR c) * h) with (x + (INR (S kappa) - 2 * INR (S c)) * h) by (rewrite !S_INR; ring).
    cbn [pow]. ring. }
  rewrite E2. ring.
Qed.

(** The sequence of difference quotients of a polynomial; for h = 0 the derivatives. *)
Lemma cd_seq p n : (length p <= S n)%nat -> forall K, exists G : nat -> R -> R -> R,
  (forall x h, G O x h = peval p x) /\ (forall k, (k <= K)%nat -> ep (n - k) (G k)) /\ (forall k, (k < K)%nat -> cdiff (G k) (G (S k))).
Proof.
  intros Hp. induction K as [|K (G & G0 & Ge & Gd)].
  - exists (fun _ x _ => peval p x). split; [reflexivity|]. split; [|intros; lia]. intros k Hk. replace (n - k)%nat with n by lia. now apply ep_poly.
  - destruct (ep_cdiff (n - K) (G K) (Ge K ltac:(lia))) as (F & F1 & F2).
    exists (fun k => if Nat.eqb k (S K) then F else G k). split; [|split].
    + exact G0.
    + intros k Hk. destruct (Nat.eqb_spec k (S K)) as [->|Q]; [|apply Ge; lia]. now replace (n - S K)%nat with (n - K - 1)%nat by lia.
    + intros k Hk. destruct (Nat.eqb_spec k (S K)) as [->|Q]; [lia|]. destruct (Nat.eqb_spec (S k) (S K)) as [Q2|Q2].
      * replace k with K by lia. exact F2.
      * apply Gd. lia.
Qed.
Lemma cd_seq_sum p (G : nat -> R -> R -> R) K : (forall x h, G O x h = peval p x) -> (forall k, (k < K)%nat -> cdiff (G k) (G (S k))) ->
  forall k x h, (k <= K)%nat -> cdsum (peval p) k x h = (2 * h) ^ k * G k x h.
Proof.
  intros G0 Gd. induction k as [|k IH]; intros x h Hk.
  - unfold cdsum. rewrite sumn_S. unfold sumn. cbn. rewrite G0. rewrite Rmult_1_l, Rplus_0_l, Rmult_1_l, Rmult_1_l. f_equal. ring.
  - rewrite cdsum_S, !IH by lia. destruct (Gd k ltac:(lia)) as [D _]. specialize (D x h).
    replace ((2 * h) ^ k * G k (x + h) h - (2 * h) ^ k * G k (x - h) h) with ((2 * h) ^ k * (G k (x + h) h - G k (x - h) h)) by ring.
    rewrite D. cbn [pow]. ring.
Qed.
Lemma ep0_const F : ep 0 F -> forall x y h, F x h = F y h.
Proof.
  intro E. induction E as [|c i l Hi|F G _ IF _ IG|F G _ IF He]; intros x y h.
  - reflexivity.
  - now replace i with 0%nat by lia.
  - now rewrite (IF x y), (IG x y).
  - rewrite !He. apply IF.
Qed.
Lemma cdiff_const F G : (forall x y h, F x h = F y h) -> cdiff F G -> forall x, G x 0 = 0.
Proof.
  intros HF [_ D] x. specialize (D x). apply (uniqueness_limite _ x _ _ D).
  apply (lim_ext (fun _ => F x 0)); [intro z; apply HF|]. apply derivable_pt_lim_const.
Qed.

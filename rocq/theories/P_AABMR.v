(** adaptive_adams_bashforth_moulton over the reals: its recurrences are Newton interpolation. *)
From Coq Require Import ZArith List Bool Arith Lia Reals Lra.
From Verif Require Import M_Num M_Run M_RK M_CtrlRK M_Midpoint M_Adams M_AABM S_RK S_Adams S_AABM P_R P_Poly P_BS P_Adams P_AABM P_AABM2 P_Newton.
Import ListNotations.
Local Open Scope R_scope.

Section R.
Variable eps : R.
Notation NN := (RNum eps).
Context {I : Type}.
Notation hist := (list (R * (I -> R))).
Notation TM := (tms (N := NN) (I := I)).
Variable i : I.
Definition DV (h : hist) (m : nat) : R := nth m (map (fun p => snd p i) h) 0.
Definition distinct (h : hist) : Prop := forall m m', (m < m')%nat -> (m' < length h)%nat -> TM h m <> TM h m'.

Lemma nodup_distinct (h : hist) : NoDup (map fst h) -> distinct h.
Proof.
  intros H m m' H1 H2 E. rewrite (NoDup_nth _ 0) in H. unfold tms in E.
  assert (m = m') by (apply H; rewrite ?map_length; (lia || exact E)). lia.
Qed.
Lemma distinct_tl p h : distinct (p :: h) -> distinct h.
Proof. intros H m m' H1 H2. apply (H (S m) (S m')); simpl; lia. Qed.

Lemma w_shift (p : R * (I -> R)) h j s : w (TM (p :: h)) 1 j s = w (TM h) 0 j s.
Proof. unfold w. rewrite <- (seq_shift j 0), map_map. reflexivity. Qed.
Lemma D_shift p h : forall j a, D (TM (p :: h)) (DV (p :: h)) (S a) j = D (TM h) (DV h) a j.
Proof. induction j as [|j IH]; intro a; [reflexivity|]. cbn [D]. now rewrite !IH. Qed.

Lemma w1_neq0 h : distinct h -> forall j, (j < length h)%nat -> w (TM h) 1 j (TM h 0) <> 0.
Proof.
  intros H j. induction j as [|j IH]; intro Hj; [rewrite w_0; lra|]. rewrite w_S.
  apply Rmult_integral_contrapositive_currified; [apply IH; lia|]. specialize (H 0%nat (1 + j)%nat ltac:(lia) ltac:(lia)). lra.
Qed.

Lemma bS_R t' h : distinct h -> forall j, (j < length h)%nat ->
  @eq R (bS (N := NN) t' h j) (w (TM h) 0 j t' / w (TM h) 1 j (TM h 0)).
Proof.
  intros H j. induction j as [|j IH]; intro Hj; [rewrite !w_0; cbn; lra|].
  cbn [bS]. rewrite IH by lia. rewrite !w_S. cbn [Nat.add].
  pose proof (w1_neq0 h H j ltac:(lia)) as W. specialize (H 0%nat (S j) ltac:(lia) ltac:(lia)).
  cbn [nmul ndiv nsub RNum]. field. split; [change (@eq R (TM h 0%nat) (TM h (S j)) -> False) in H; lra|exact W].
Qed.

Lemma scale2_R (a b c d : R) : @eq R (scale_sum (N := NN) [(a, b); (c, d)]) (a * b + c * d).
Proof. reflexivity. Qed.
Lemma scale1_R (a b : R) : @eq R (scale_sum (N := NN) [(a, b)]) (a * b).
Proof. reflexivity. Qed.

Lemma pS_R : forall h, distinct h -> forall j, (j < length h)%nat ->
  @eq R (pS (N := NN) h j i) (w (TM h) 1 j (TM h 0) * D (TM h) (DV h) 0 j).
Proof.
  induction h as [|[t' d] h IH]; intros H; [intros; simpl in *; lia|].
  induction j as [|j IHj]; intro Hj; [rewrite w_0; cbn; lra|].
  change (pS (N := NN) ((t', d) :: h) (S j) i)
    with (scale_sum (N := NN) [(1, pS (N := NN) ((t', d) :: h) j i); (- bS (N := NN) t' h j, pS (N := NN) h j i)]).
  rewrite scale2_R, IHj by lia. rewrite w_S, !w_shift.
  pose proof (distinct_tl _ _ H) as H'. cbn [length] in Hj. rewrite (IH H' j) by lia. rewrite (bS_R t' h H' j) by lia.
  cbn [D]. rewrite D_shift. pose proof (w1_neq0 h H' j ltac:(lia)) as W.
  change (TM ((t', d) :: h) 0) with t'. change (TM ((t', d) :: h) (1 + j)) with (TM h j).
  change (TM ((t', d) :: h) (0 + S j)) with (TM h j).
  assert (Q : t' - TM h j <> 0). { specialize (H 0%nat (S j) ltac:(lia) ltac:(simpl; lia)). change (TM ((t', d) :: h) 0) with t' in H.
    change (TM ((t', d) :: h) (S j)) with (TM h j) in H. lra. }
  cbn [nopp RNum nofZ]. field. split; [exact Q|exact W].
Qed.

Lemma cS_R (dt : R) (h : hist) t' : TM h 0 + dt = t' -> dt <> 0 -> forall j q, @eq R (cS (N := NN) t' dt h j q) (Lq q (Pp (TM h) t' dt j)).
Proof.
  intros E Hdt. assert (E' : t' - TM h 0 = dt) by lra.
  assert (B0 : forall q, @eq R (cS (N := NN) t' dt h 0 q) (Lq q (Pp (TM h) t' dt 0))).
  { intro q. cbn [cS Pp Lq]. rewrite nofnat_R. cbn [nofZ ndiv RNum]. ring. }
  assert (B1 : forall q, @eq R (cS (N := NN) t' dt h 1 q) (Lq q (Pp (TM h) t' dt 1))).
  { intro q. rewrite Lq_Pp_S. cbn [cS Pp Lq]. rewrite E', nofnat_R. cbn [nofZ ndiv RNum]. rewrite mult_INR.
    assert (INR (q + 1) <> 0) by (apply not_0_INR; lia). assert (INR (q + 2) <> 0) by (apply not_0_INR; lia).
    replace (S q + 1)%nat with (q + 2)%nat by lia.
    assert (Es : INR (q + 2) = INR (q + 1) + 1) by (replace (q + 2)%nat with (S (q + 1)) by lia; apply S_INR).
    field_simplify_eq; [|repeat split; assumption]. rewrite Es. ring. }
  intro j. induction j as [|[|j] IH]; intro q; [apply B0|apply B1|].
  rewrite cS_S, Lq_Pp_S, !IH. replace (q + 1)%nat with (S q) by lia. cbn [nsub nmul ndiv RNum]. unfold Rdiv. ring.
Qed.

Lemma predS_R (h : hist) (dt : R) (x : I -> R) : forall k, @eq R (predS (N := NN) h dt k x i)
  (x i + dt * sumf k (fun j => cS (N := NN) (TM h 0 + dt)%R dt h j 0 * (bS (N := NN) (TM h 0 + dt)%R h j * pS (N := NN) h j i))).
Proof.
  induction k as [|k IH]; [simpl; ring|]. cbn [predS sumf]. rewrite scale2_R, IH. cbn [nadd nmul nofZ RNum]. ring.
Qed.

Section Step.
Variables (h : hist) (t dt : R).
Hypothesis Ht : TM h 0 = t.
Hypothesis Hh : (0 < length h)%nat.
Hypothesis Hnd : NoDup (t + dt :: map fst h).

Lemma st_distinct : distinct h.
Proof. apply nodup_distinct. inversion Hnd. assumption. Qed.
Lemma st_new m : (m < length h)%nat -> t + dt <> TM h m.
Proof.
  intros Hm E. inversion Hnd as [|a l Hn _]. apply Hn. rewrite E. unfold tms. apply nth_In. now rewrite map_length.
Qed.
Lemma st_dt : dt <> 0.
Proof. pose proof (st_new 0 Hh) as H. rewrite Ht in H. lra. Qed.

Lemma interp_nth q k : interpolates q i (firstn k h) -> forall m, (m < k)%nat -> (m < length h)%nat -> peval q (TM h m) = DV h m.
Proof.
  unfold interpolates. intros H m Hm Hl. rewrite Forall_forall in H.
  assert (E : nth_error (firstn k h) m = nth_error h m).
  { clear -Hm. revert k Hm. revert m. induction h as [|p l IH]; intros m k Hm; [now rewrite firstn_nil|].
    destruct k as [|k]; [lia|]. destruct m as [|m]; [reflexivity|]. cbn. apply IH. lia. }
  destruct (nth_error h m) as [p|] eqn:En; [|apply nth_error_None in En; lia].
  specialize (H p (nth_error_In _ _ E)). unfold tms, DV.
  rewrite (nth_error_nth _ _ _ (map_nth_error fst m h En)). rewrite (nth_error_nth _ _ _ (map_nth_error (fun p => snd p i) m h En)). exact H.
Qed.

Theorem predictor_R k (x : I -> R) q X : (k <= length h)%nat -> (length q <= k)%nat -> interpolates q i (firstn k h) -> antiderivative X q ->
  @eq R (predS (N := NN) h dt k x i) (x i + (X (t + dt) - X t)).
Proof.
  intros Hk Lq' Hq HX. pose proof st_distinct as Hd. rewrite predS_R, Ht.
  pose proof (newton_integral (TM h) (t + dt) dt X q k (fun j => D (TM h) (DV h) 0 j) HX) as G.
  replace (X t) with (X (t + dt - dt)) by (f_equal; ring).
  rewrite G.
  - f_equal. f_equal. apply sumf_ext. intros j Hj. rewrite (cS_R dt h (t + dt)) by (exact st_dt || now rewrite Ht).
    rewrite (pS_R h Hd) by lia. rewrite (bS_R _ h Hd) by lia. pose proof (w1_neq0 h Hd j ltac:(lia)). field. assumption.
  - intro s. apply newton_pred; [exact Lq'| |].
    + intros m Hm. apply (interp_nth q k); [exact Hq|exact Hm|lia].
    + intros m m' H1 H2. apply Hd; lia.
  - intros m Hm. apply st_new. lia.
Qed.

Theorem corrector_R k (x : I -> R) q X d : (k <= length h)%nat -> (length q <= S k)%nat -> interpolates q i ((t + dt, d) :: firstn k h) -> antiderivative X q ->
  @eq R (scale_sum (N := NN) [(1, predS (N := NN) h dt k x i); (dt * cS (N := NN) (t + dt)%R dt h k 0, pS (N := NN) (((t + dt)%R, d) :: h) k i)])
  (x i + (X (t + dt) - X t)).
Proof.
  intros Hk Lq' Hq HX. pose proof st_distinct as Hd. rewrite scale2_R, predS_R, Ht.
  assert (Hq1 : peval q (t + dt) = d i) by (inversion Hq; assumption).
  assert (Hq2 : interpolates q i (firstn k h)) by (inversion Hq; assumption).
  set (h1 := (t + dt, d) :: h).
  assert (Hd1 : distinct h1) by (apply nodup_distinct; exact Hnd).
  set (a := fun j => if (j <? k)%nat then D (TM h) (DV h) 0 j else D (TM h1) (DV h1) 0 k).
  replace (X t) with (X (t + dt - dt)) by (f_equal; ring).
  rewrite (newton_integral (TM h) (t + dt) dt X q (S k) a HX).
  - cbn [sumf]. unfold a at 2. rewrite Nat.ltb_irrefl.
    rewrite (cS_R dt h (t + dt)) by (exact st_dt || now rewrite Ht).
    rewrite (pS_R h1 Hd1 k) by (simpl; lia). unfold h1 at 1. rewrite w_shift. change (TM h1 0) with (t + dt).
    rewrite (sumf_ext k _ (fun j => a j * w (TM h) 0 j (t + dt) * Lq 0 (Pp (TM h) (t + dt) dt j))).
    + ring.
    + intros j Hj. unfold a. replace (j <? k)%nat with true by (symmetry; apply Nat.ltb_lt; exact Hj).
      rewrite (cS_R dt h (t + dt)) by (exact st_dt || now rewrite Ht).
      rewrite (pS_R h Hd) by lia. rewrite (bS_R _ h Hd) by lia. pose proof (w1_neq0 h Hd j ltac:(lia)). field. assumption.
  - intro s. rewrite (newton_corr (TM h) (DV h) q k (t + dt) (d i) s); [| | |exact Hq1| |].
    + cbn [sumf]. unfold a at 2. rewrite Nat.ltb_irrefl. f_equal.
      apply sumf_ext. intros j Hj. unfold a. now replace (j <? k)%nat with true by (symmetry; apply Nat.ltb_lt; exact Hj).
    + exact Lq'.
    + intros m Hm. apply (interp_nth q k); [exact Hq2|exact Hm|lia].
    + intros m m' H1 H2. apply Hd; lia.
    + intros m Hm. apply st_new. lia.
  - intros m Hm. apply st_new. lia.
Qed.
End Step.
End R.

(** extrapolation_stepper; exactness of modified_midpoint. *)
From Coq Require Import ZArith List Bool Arith Reals Lia Lra FunctionalExtensionality.
From Verif Require Import M_Num M_Run M_RK M_Midpoint M_BS S_Midpoint P_R P_RK P_BS P_BSInd P_Midpoint P_Neville.
Import ListNotations.

Section E.
Context {N : Num} {I : Type}.
Variable sys : vec N I -> N -> vec N I.
Variable order : nat.
Notation K := (es_kmax order).

Definition es_y (x dx : vec N I) (t dt : N) (k : nat) : vec N I := mm_val sys (es_seq k) x dx t dt.

Lemma es_loop_nev x dx t dt : forall n k m table out, (n + k = K + 1)%nat -> (0 < k)%nat -> (K <= length table)%nat ->
  nev_inv es_seq (es_y x dx t dt) k table out ->
  exists m' table', es_loop sys order false n k m table x dx t out dt = Ok (m', table', nev es_seq (es_y x dx t dt) K K)
    /\ length table' = length table /\ (0 < n -> nth_error table' 0 = Some (nev es_seq (es_y x dx t dt) K (K - 1)))%nat.
Proof.
  induction n as [|n IH]; intros k m table out Hn Hk Hl Hi.
  - exists m, table. cbn [es_loop]. split; [|split; [reflexivity|lia]]. destruct (Hi Hk) as [_ ->]. do 3 f_equal; lia.
  - cbn [es_loop]. unfold es_seqs. rewrite (vget_nth _ _ _ (nth_error_map_seq es_seq (K + 1) k ltac:(lia))). cbn [rbind].
    pose proof (mm_step_val sys m (es_seq k) x dx t dt ltac:(unfold es_seq; lia)) as Hm.
    destruct (mm_step sys m (es_seq k) x dx t dt) as [m1 yy]. cbn [snd] in Hm. subst yy.
    destruct (extrapolate_nev es_seq (es_y x dx t dt) (K + 1) k table out ltac:(lia) ltac:(lia) Hi) as (t1 & t2 & E1 & E2 & L2 & H2 & Z).
    fold (es_y x dx t dt k). rewrite E1. cbn [rbind]. unfold es_coeff. rewrite E2. cbn [rbind].
    destruct n as [|n].
    + cbn [es_loop]. exists m1, t2. replace k with K in * by lia. split; [reflexivity|]. split; [exact L2|]. intros _. exact Z.
    + destruct (IH (S k) m1 t2 (nev es_seq (es_y x dx t dt) k k) ltac:(lia) ltac:(lia) ltac:(lia) H2) as (m' & t' & E & L & Z').
      exists m', t'. split; [exact E|]. split; [lia|]. intros _. apply Z'. lia.
Qed.

(** The out-of-place step. *)
Lemma es_impl_nev s x dx t dt : (K <= length (es_table s))%nat ->
  exists s', es_impl sys order false s x dx t dt = Ok (s', nev es_seq (es_y x dx t dt) K K)
   /\ length (es_table s') = length (es_table s) /\ ((0 < K)%nat -> nth_error (es_table s') 0 = Some (nev es_seq (es_y x dx t dt) K (K - 1))).
Proof.
  intro Hl. unfold es_impl, es_seqs. rewrite (vget_nth _ _ _ (nth_error_map_seq es_seq (K + 1) 0 ltac:(lia))). cbn [rbind].
  pose proof (mm_step_val sys (es_mm s) (es_seq 0) x dx t dt ltac:(unfold es_seq; lia)) as Hm.
  destruct (mm_step sys (es_mm s) (es_seq 0) x dx t dt) as [m1 yy]. cbn [snd] in Hm. subst yy.
  destruct (es_loop_nev x dx t dt K 1 m1 (es_table s) (mm_val sys (es_seq 0) x dx t dt) ltac:(lia) ltac:(lia) Hl) as (m' & t' & E & L & Z).
  - intros _. split; [intros j Hj; lia|reflexivity].
  - rewrite E. cbn [rbind]. eexists. split; [reflexivity|]. cbn [es_table]. split; [exact L|exact Z].
Qed.

Lemma es_dxdt_out s1 s2 x t dt : (K <= length (es_table s1))%nat -> (K <= length (es_table s2))%nat ->
  exists s1' s2' out, es_do_step_out sys order s1 x t dt = Ok (s1', out) /\ es_do_step_dxdt sys order s2 x (sys x t) t dt = Ok (s2', out).
Proof.
  intros H1 H2. unfold es_do_step_out, es_do_step_dxdt.
  destruct (es_impl_nev s1 x (sys x t) t dt H1) as (s1' & E1 & _).
  destruct (es_impl_nev s2 x (sys x t) t dt H2) as (s2' & E2 & _).
  rewrite E1, E2. cbn [rbind]. eauto.
Qed.
End E.

Local Open Scope R_scope.
Local Ltac toR := match goal with |- @eq _ ?l ?r => change (@eq R l r) end.
Section R.
Variable eps : R.
Notation NN := (RNum eps).
Context {I : Type}.

Lemma es_seq_inc K : forall i j, (i < j <= K)%nat -> (0 < es_seq i < es_seq j)%nat.
Proof. intros. unfold es_seq. lia. Qed.

(** Right-hand sides linear in t. *)
Variables a b : I -> R.
Notation f := (fun (_ : I -> R) (t : R) (i : I) => a i + b i * t).
Lemma gth_R (t h : R) m : gth (N := NN) t h m = t + INR m * h.
Proof. induction m; [cbn; toR; ring|]. cbn [gth]. rewrite IHm, S_INR. cbn [nadd RNum]. toR. ring. Qed.

Definition lin_exact (x : I -> R) (t h : R) (m : nat) (i : I) : R :=
  x i + a i * (INR m * h) + b i * (t * (INR m * h) + (INR m * h) * (INR m * h) / 2).

Lemma gz_lin (x : I -> R) (t h : R) : forall m i,
  gz (N := NN) f x (f x t) t h (2 * m) i = lin_exact x t h (2 * m) i
  /\ gz (N := NN) f x (f x t) t h (2 * m + 1) i = lin_exact x t h (2 * m + 1) i - b i * (h * h) / 2.
Proof.
  induction m as [|m IH]; intro i.
  - split; unfold gz, lin_exact; cbn [gpair fst Nat.mul Nat.add]; cbn [nadd nmul nofZ RNum]; simpl INR; toR; field.
  - destruct (IH i) as [I1 I2]. replace (2 * S m)%nat with (S (S (2 * m))) by lia. replace (S (S (2 * m)) + 1)%nat with (S (S (2 * m + 1))) by lia.
    rewrite !gz_SS. rewrite I1, I2, !gth_R. cbn [nadd nmul nofZ RNum]. unfold lin_exact.
    rewrite !S_INR, plus_INR, mult_INR. simpl INR. split; toR; field.
Qed.

Lemma mm_lin n (x : I -> R) (t dt : R) (i : I) : (1 <= n)%nat ->
  smoothed (N := NN) f (dt / INR n)%R (gz (N := NN) f x (f x t) t (dt / INR n)%R) (gth (N := NN) t (dt / INR n)%R) n i
  = x i + a i * dt + b i * (t * dt + dt * dt / 2).
Proof.
  intros Hn. assert (Pn : 0 < INR n) by (apply lt_0_INR; lia).
  set (h := dt / INR n). assert (Eh : INR n * h = dt) by (subst h; field; lra).
  unfold smoothed. rewrite gth_R. cbn [nadd nmul ndiv nofZ RNum]. rewrite Eh.
  destruct (Nat.Even_or_Odd n) as [[m Em]|[m Em]].
  - destruct m as [|m]; [lia|]. destruct (gz_lin x t h m i) as [_ A]. destruct (gz_lin x t h (S m) i) as [A2 _].
    rewrite <- Em in A2. replace (2 * m + 1)%nat with (n - 1)%nat in A by lia. rewrite A, A2. unfold lin_exact. rewrite Eh.
    assert (En : INR (n - 1) * h = dt - h) by (rewrite minus_INR by lia; simpl (INR 1); lra). rewrite En. toR. field.
  - destruct (gz_lin x t h m i) as [A A2]. rewrite <- Em in A2. replace (2 * m)%nat with (n - 1)%nat in A by lia.
    rewrite A, A2. unfold lin_exact. rewrite Eh.
    assert (En : INR (n - 1) * h = dt - h) by (rewrite minus_INR by lia; simpl (INR 1); lra). rewrite En. toR. field.
Qed.
End R.

(** bulirsch_stoer_dense_out: the values in the tables of the dense output (any arithmetic). *)
From Coq Require Import ZArith List Bool Arith Lia FunctionalExtensionality.
From Verif Require Import M_Num M_Sign M_Run M_Checker M_RK M_CtrlRK M_Midpoint M_BS M_BSDense S_Midpoint P_Midpoint P_BS P_BSDense P_BSInd P_BSDInd.
Import ListNotations.
Local Open Scope num_scope.
Local Open Scope res_scope.

Lemma vset_row {A} sizes (ll : list (list A)) a row n : sized sizes ll -> nth_error sizes a = Some n -> length row = n ->
  exists ll', vset ll a row = Ok ll' /\ sized sizes ll' /\ nth_error ll' a = Some row /\ forall b, b <> a -> nth_error ll' b = nth_error ll b.
Proof.
  intros H Hn Hr. destruct (vset_sized sizes ll a row n H Hn Hr) as (ll' & E & S).
  destruct (sized_row _ _ _ _ H Hn) as (r & Er & _).
  assert (L : (a < length ll)%nat) by (apply nth_error_Some; congruence).
  destruct (vset_lt ll a row L) as (l2 & E2 & _ & G & O). rewrite E in E2. injection E2 as <-. exists ll'. auto.
Qed.

Section V.
Context {N : Num} {I : Type}.
Notation vec := (vec N I).

Lemma dget_row (ll : list (list vec)) a b row : nth_error ll a = Some row -> dget ll a b = vget row b.
Proof. intro E. unfold dget. rewrite (vget_nth _ _ _ E). reflexivity. Qed.
Lemma dset_spec sizes (ll : list (list vec)) a b n v : sized sizes ll -> nth_error sizes a = Some n -> (b < n)%nat ->
  exists ll', dset ll a b v = Ok ll' /\ sized sizes ll' /\ dget ll' a b = Ok v
    /\ forall a' b', a' <> a \/ b' <> b -> dget ll' a' b' = dget ll a' b'.
Proof.
  intros H Hn Hb. destruct (sized_row _ _ _ _ H Hn) as (row & E & L). unfold dset.
  rewrite (vget_nth _ _ _ E). cbn [rbind]. destruct (vset_lt row b v ltac:(lia)) as (r' & E2 & L2 & G2 & O2). rewrite E2. cbn [rbind].
  destruct (vset_row _ ll a r' n H Hn ltac:(lia)) as (ll' & E3 & S3 & G3 & O3). exists ll'. split; [exact E3|]. split; [exact S3|]. split.
  - rewrite (dget_row _ _ _ _ G3). now apply vget_nth.
  - intros a' b' Hab. destruct (Nat.eq_dec a' a) as [->|Q].
    + destruct Hab as [Q|Q]; [congruence|]. rewrite (dget_row _ _ _ _ G3), (dget_row _ _ _ _ E). unfold vget. now rewrite O2 by auto.
    + unfold dget, vget. now rewrite O3 by exact Q.
Qed.

Variable sys : vec -> N -> vec.

(** *** The midpoint: derivatives and the value in the middle. *)
Section Mid.
Variables (x dx : vec) (t h : N).
Notation z := (gz sys x dx t h).
Notation D m := (sys (z (S m)) (gth t h (S m))).

Lemma mmd_rounds_val2 steps : forall n i xmp (derivs : list vec), (1 <= i)%nat -> (i + n = length derivs)%nat ->
  (forall m, (m < i)%nat -> nth_error derivs m = Some (D m)) ->
  exists xmp' d', mmd_rounds sys steps n i (gth t h i) h (nofZ 2 * h) (z (i - 1)%nat) (z i) xmp derivs
      = Ok (z (i + n - 1)%nat, z (i + n)%nat, xmp', d')
    /\ length d' = length derivs /\ (forall m, (m < i + n)%nat -> nth_error d' m = Some (D m))
    /\ ((i <= steps / 2 - 1 < i + n)%nat -> xmp' = z (steps / 2)%nat) /\ ((steps / 2 - 1 < i)%nat -> xmp' = xmp).
Proof.
  induction n as [|n IH]; intros i xmp derivs Hi Hl Hd; cbn [mmd_rounds].
  - exists xmp, derivs. rewrite Nat.add_0_r. repeat split; auto; lia.
  - pose proof (Hd (i - 1)%nat ltac:(lia)) as Hd1. replace (S (i - 1)) with i in Hd1 by lia.
    rewrite (vget_nth _ _ _ Hd1). cbn [rbind].
    set (x1 := fun j => scale_sum _).
    assert (Ex : x1 = z (S i)).
    { destruct i as [|i]; [lia|]. unfold x1. rewrite gz_SS. replace (S i - 1)%nat with i by lia. reflexivity. }
    change (nadd (gth t h i) h) with (gth t h (S i)).
    destruct (vset_lt derivs i (sys x1 (gth t h (S i))) ltac:(lia)) as (d1 & E & L & G & O). rewrite E. cbn [rbind].
    match goal with |- context [mmd_rounds sys steps n (S i) _ h _ _ x1 ?xm d1] => set (xm1 := xm) end.
    destruct (IH (S i) xm1 d1 ltac:(lia) ltac:(lia)) as (xmp' & d' & E2 & L2 & N2 & X2 & Y2).
    { intros m Hm. destruct (Nat.eq_dec m i) as [->|Q]; [now rewrite Ex in G|]. rewrite O by exact Q. apply Hd. lia. }
    replace (S i - 1)%nat with i in E2 by lia. rewrite Ex.
    replace (i + S n)%nat with (S i + n)%nat by lia.
    exists xmp', d'. split; [exact E2|]. split; [lia|]. split; [exact N2|]. split.
    + intro Hs. destruct (Nat.eq_dec i (steps / 2 - 1)) as [Q|Q]; [|apply X2; lia].
      rewrite Y2 by lia. unfold xm1. rewrite (proj2 (Nat.eqb_eq _ _) Q), Ex. f_equal. lia.
    + intro Hs. rewrite Y2 by lia. unfold xm1. destruct (Nat.eqb_spec i (steps / 2 - 1)); [lia|reflexivity].
Qed.
End Mid.

Lemma half_seq j : (bsd_seq j / 2 = 2 * j + 1)%nat.
Proof. unfold bsd_seq. replace (2 + 4 * j)%nat with ((2 * j + 1) * 2)%nat by lia. now rewrite Nat.div_mul by lia. Qed.

(** The values of stage [j]. *)
Definition sub (dt : N) (j : nat) : N := dt / nofnat (bsd_seq j).
Definition mpv (x dx : vec) (t dt : N) (j : nat) : vec := gz sys x dx t (sub dt j) (2 * j + 1).
Definition drv (x dx : vec) (t dt : N) (j m : nat) : vec := sys (gz sys x dx t (sub dt j) (S m)) (gth t (sub dt j) (S m)).

Lemma mmd_step_val2 j (x dxdt : vec) t dt xmp derivs : length derivs = bsd_seq j ->
  exists d', mmd_step sys (bsd_seq j) x dxdt t dt xmp derivs = Ok (mm_val sys (bsd_seq j) x dxdt t dt, mpv x dxdt t dt j, d')
    /\ length d' = bsd_seq j /\ forall m, (m < bsd_seq j)%nat -> nth_error d' m = Some (drv x dxdt t dt j m).
Proof.
  intros L. unfold mmd_step, mpv, drv, sub. set (h := dt / nofnat (bsd_seq j)).
  set (x1 := fun j => scale_sum _). change x1 with (gz sys x dxdt t h 1).
  change (t + h) with (gth t h 1).
  assert (Ls : (2 <= bsd_seq j)%nat) by (unfold bsd_seq; lia).
  destruct (vset_lt derivs 0 (sys (gz sys x dxdt t h 1) (gth t h 1)) ltac:(lia)) as (d1 & E & L1 & G & _).
  rewrite E. cbn [rbind].
  match goal with |- context [mmd_rounds sys _ _ 1 _ h _ _ _ ?xm d1] => set (xm1 := xm) end.
  destruct (mmd_rounds_val2 x dxdt t h (bsd_seq j) (bsd_seq j - 1) 1 xm1 d1 ltac:(lia) ltac:(lia)) as (xmp' & d' & E2 & L2 & N2 & X2 & Y2).
  { intros m Hm. replace m with 0%nat by lia. exact G. }
  change (gz sys x dxdt t h (1 - 1)) with x in E2.
  match type of E2 with ?a = _ => match goal with |- context [mmd_rounds ?q ?w ?e ?r ?y ?u ?i ?o ?p ?s ?f] => change (mmd_rounds q w e r y u i o p s f) with a end end.
  rewrite E2. cbn [rbind].
  replace (1 + (bsd_seq j - 1) - 1)%nat with (bsd_seq j - 1)%nat in * by lia.
  replace (1 + (bsd_seq j - 1))%nat with (bsd_seq j) in * by lia.
  pose proof (N2 (bsd_seq j - 1)%nat ltac:(lia)) as N3. replace (S (bsd_seq j - 1)) with (bsd_seq j) in N3 by lia.
  rewrite (vget_nth _ _ _ N3). cbn [rbind].
  assert (Hx : xmp' = gz sys x dxdt t h (2 * j + 1)).
  { rewrite <- half_seq. pose proof (half_seq j) as Hs. destruct j as [|j].
    - rewrite Y2 by (rewrite Hs; lia). reflexivity.
    - apply X2. rewrite Hs. unfold bsd_seq. lia. }
  exists d'. rewrite Hx. split; [reflexivity|]. split; [lia|exact N2].
Qed.

(** *** Extrapolation of the dense output tables. *)
Section Exd.
Variable osi : nat.
Variable y : nat -> vec.
Notation q := (fun j => bsd_seq (j + osi)).
Notation T := (nev q y).

Lemma exd_down_nev k : (k + osi <= 8)%nat -> forall j (table : list vec), (1 <= j <= k)%nat -> (k < length table)%nat ->
  nth_error table j = Some (T k (k - j)) -> (forall i, (i < j)%nat -> nth_error table i = Some (T (k - 1) (k - 1 - i))) ->
  exists t', exd_down k j osi table = Ok t' /\ length t' = length table
    /\ (forall i, (1 <= i <= j)%nat -> nth_error t' i = Some (T k (k - i))) /\ nth_error t' 0 = nth_error table 0
    /\ (forall i, (j < i)%nat -> nth_error t' i = nth_error table i).
Proof.
  intro Hk. induction j as [|[|j] IH]; intros table Hj Hl Ht Hb; [lia| |].
  - exists table. cbn. repeat split; auto. intros i Hi. replace i with 1%nat by lia. exact Ht.
  - cbn [exd_down]. unfold bsd_coeff. rewrite cget_ok by (unfold k_max; lia). cbn [rbind].
    rewrite (vget_nth _ _ _ Ht). cbn [rbind]. rewrite (vget_nth _ _ _ (Hb (S j) ltac:(lia))). cbn [rbind].
    match goal with |- context [vset table (S j) ?v] => destruct (vset_lt table (S j) v ltac:(lia)) as (t1 & E & L & G & O) end.
    rewrite E. cbn [rbind].
    destruct (IH t1 ltac:(lia) ltac:(lia)) as (t2 & E2 & L2 & A2 & Z2 & B2).
    + rewrite G. f_equal. replace (k - S j)%nat with (S (k - S (S j))) by lia. cbn [nev]. unfold ex_coeff.
      replace (k - 1 - (k - S (S j)) + osi)%nat with (S (S j) + osi - 1)%nat by lia.
      replace (k - 1 - S j)%nat with (k - S (S j))%nat by lia. reflexivity.
    + intros i Hi. rewrite O by lia. apply Hb. lia.
    + exists t2. split; [exact E2|]. split; [lia|]. split; [|split].
      * intros i Hi. destruct (Nat.eq_dec i (S (S j))) as [->|Q]; [|apply A2; lia].
        rewrite B2 by lia. rewrite O by lia. exact Ht.
      * rewrite Z2. apply O. lia.
      * intros i Hi. rewrite B2 by lia. apply O. lia.
Qed.

(** Before round [k]: the entries below [k] are extrapolated, the others (up to [K]) are raw. *)
Definition exd_inv (K k : nat) (table : list vec) : Prop :=
  (forall i, (i < k)%nat -> nth_error table i = Some (T (k - 1) (k - 1 - i)))
  /\ (forall i, (k <= i <= K)%nat -> nth_error table i = Some (y i)).

Lemma extrapolate_dense_nev K k (table : list vec) : (1 <= k <= K)%nat -> (k + osi <= 8)%nat -> (k < length table)%nat -> exd_inv K k table ->
  exists t', extrapolate_dense_out k osi table = Ok t' /\ length t' = length table /\ exd_inv K (S k) t'.
Proof.
  intros Hk Ho L [Ha Hb]. unfold extrapolate_dense_out.
  destruct (exd_down_nev k Ho k table ltac:(lia) L) as (t1 & E & L1 & A1 & Z1 & B1); [rewrite Nat.sub_diag; apply Hb; lia|exact Ha|].
  rewrite E. cbn [rbind]. unfold bsd_coeff. rewrite cget_ok by (unfold k_max; lia). cbn [rbind].
  rewrite (vget_nth _ _ _ (A1 1%nat ltac:(lia))). cbn [rbind]. rewrite (Ha 0%nat ltac:(lia)) in Z1. rewrite (vget_nth _ _ _ Z1). cbn [rbind].
  match goal with |- context [vset t1 0 ?v] => destruct (vset_lt t1 0 v ltac:(lia)) as (t2 & E2 & L2 & G2 & O2) end.
  exists t2. split; [exact E2|]. split; [lia|]. split.
  - intros i Hi. replace (S k - 1)%nat with k by lia. destruct (Nat.eq_dec i 0) as [->|Q].
    + rewrite G2. f_equal. destruct k as [|k]; [lia|]. replace (S k - 0)%nat with (S k) by lia. cbn [nev]. unfold ex_coeff.
      replace (S k - 1 - k + osi)%nat with osi by lia. replace (S k - 1 - 0)%nat with k by lia. replace (S k - 1)%nat with k by lia. reflexivity.
    + rewrite O2 by exact Q. apply A1. lia.
  - intros i Hi. rewrite O2 by lia. rewrite B1 by lia. apply Hb. lia.
Qed.

Lemma pd_ext_nev K : forall n j (row : list vec), (1 <= j)%nat -> (j + n = S K)%nat -> (K + osi <= 8)%nat -> (K < length row)%nat ->
  exd_inv K j row -> exists r', pd_ext n j osi row = Ok r' /\ length r' = length row /\ exd_inv K (S K) r'.
Proof.
  induction n as [|n IH]; intros j row Hj Hn Ho L Hi; cbn [pd_ext].
  - exists row. replace j with (S K) in Hi by lia. auto.
  - destruct (extrapolate_dense_nev K j row ltac:(lia) ltac:(lia) ltac:(lia) Hi) as (r1 & E & L1 & H1). rewrite E. cbn [rbind].
    rewrite <- L1. apply IH; auto; lia.
Qed.
End Exd.
End V.

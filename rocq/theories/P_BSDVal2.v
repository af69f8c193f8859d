(** bulirsch_stoer_dense_out: what a completed step leaves in the members (any arithmetic). *)
From Coq Require Import ZArith List Bool Arith Lia FunctionalExtensionality.
From Verif Require Import M_Num M_Sign M_Run M_Checker M_RK M_CtrlRK M_Midpoint M_BS M_BSDense S_Midpoint P_Midpoint P_BS P_BSDense P_BSInd P_BSDInd P_BSDVal.
Import ListNotations.
Local Open Scope num_scope.
Local Open Scope res_scope.

Section V.
Context {N : Num} {I : Type}.
Notation vec := (vec N I).
Notation okder := (sized (A := vec) derivs_sizes).
Notation okdif := (sized (A := vec) diffs_sizes).

(** *** Finite differences of the stored derivatives [F j m]. *)
Section FD.
Variable dxdt : vec.
Variable F : nat -> nat -> vec.

Fixpoint fdacc (n c j kappa : nat) (sign fac : N) (cur : vec) : vec :=
  match n with
  | O => cur
  | S n' => fdacc n' (S c) j kappa (sign * nofZ (-1)) fac
      (fun i => scale_sum [(nofZ 1, cur i);
         if Nat.leb (2 * c) (2 * j + kappa) then (sign * fac * nofnat (binom kappa c), F j (2 * j + kappa - 2 * c)%nat i) else (sign * fac, dxdt i)])
  end.
Definition fdv (j kappa : nat) (fac : N) : vec :=
  fdacc kappa 1 j kappa (nofZ (-1)) fac (fun i => scale_sum [(fac, F j (2 * j + kappa)%nat i)]).

Variable derivs : list (list vec).
Hypothesis Hd : okder derivs.
(** [derivs] holds them for the stages up to [k]. *)
Variable k : nat.
Hypothesis Hk : (k <= 8)%nat.
Hypothesis HF : forall j m, (j <= k)%nat -> (m < bsd_seq j)%nat -> dget derivs j m = Ok (F j m).

Lemma fd_loop_val j kappa : (j <= k)%nat -> (kappa <= 2 * j + 1)%nat ->
  forall n c sign fac diffs cur, okdif diffs -> (1 <= c)%nat -> (c + n = kappa + 1)%nat ->
  dget diffs kappa (j - kappa / 2) = Ok cur ->
  exists d', fd_loop n c j kappa (2 * j) sign fac dxdt derivs diffs = Ok d' /\ okdif d'
    /\ dget d' kappa (j - kappa / 2) = Ok (fdacc n c j kappa sign fac cur)
    /\ forall a b, a <> kappa \/ b <> (j - kappa / 2)%nat -> dget d' a b = dget diffs a b.
Proof.
  intros Hj Hka. pose proof (half_bound kappa j Hka) as Hh.
  induction n as [|n IH]; intros c sign fac diffs cur Hdi Hc Hn Ec; cbn [fd_loop fdacc].
  - eauto.
  - rewrite Ec. cbn [rbind].
    destruct (Nat.leb_spec (2 * c) (2 * j + kappa)) as [Q|Q].
    + rewrite (HF j (2 * j + kappa - 2 * c)) by (unfold bsd_seq; lia). cbn [rbind].
      match goal with |- context [dset diffs ?a ?b ?v] =>
        destruct (dset_spec _ diffs a b _ v Hdi (diffs_size kappa ltac:(lia)) ltac:(lia)) as (d1 & E1 & H1 & G1 & O1) end.
      rewrite E1. cbn [rbind]. destruct (IH (S c) (sign * nofZ (-1)) fac d1 _ H1 ltac:(lia) ltac:(lia) G1) as (d2 & E2 & H2 & G2 & O2).
      exists d2. split; [exact E2|]. split; [exact H2|]. split; [exact G2|]. intros a b Hab. rewrite O2 by exact Hab. now apply O1.
    + match goal with |- context [dset diffs ?a ?b ?v] =>
        destruct (dset_spec _ diffs a b _ v Hdi (diffs_size kappa ltac:(lia)) ltac:(lia)) as (d1 & E1 & H1 & G1 & O1) end.
      rewrite E1. cbn [rbind]. destruct (IH (S c) (sign * nofZ (-1)) fac d1 _ H1 ltac:(lia) ltac:(lia) G1) as (d2 & E2 & H2 & G2 & O2).
      exists d2. split; [exact E2|]. split; [exact H2|]. split; [exact G2|]. intros a b Hab. rewrite O2 by exact Hab. now apply O1.
Qed.

Lemma finite_difference_val diffs j kappa fac : okdif diffs -> (j <= k)%nat -> (kappa <= 2 * j + 1)%nat ->
  exists d', finite_difference j kappa fac dxdt derivs diffs = Ok d' /\ okdif d'
    /\ dget d' kappa (j - kappa / 2) = Ok (fdv j kappa fac)
    /\ forall a b, a <> kappa \/ b <> (j - kappa / 2)%nat -> dget d' a b = dget diffs a b.
Proof.
  intros Hdi Hj Hka. unfold finite_difference. pose proof (half_bound kappa j Hka) as Hh.
  rewrite (vget_nth _ _ _ (bs_seqs_nth bsd_seq j ltac:(lia))). cbn [rbind].
  rewrite half_seq. replace (2 * j + 1 - 1)%nat with (2 * j)%nat by lia.
  destruct (Nat.eqb_spec kappa 0) as [->|K].
  - rewrite (HF j (2 * j)) by (unfold bsd_seq; lia). cbn [rbind]. cbn [Nat.div]. 
    match goal with |- context [dset diffs ?a ?b ?v] =>
        destruct (dset_spec _ diffs a b _ v Hdi (diffs_size 0 ltac:(lia)) ltac:(cbn; lia)) as (d1 & E1 & H1 & G1 & O1) end.
    exists d1. split; [exact E1|]. split; [exact H1|]. change (0 / 2)%nat with 0%nat. rewrite Nat.sub_0_r. split; [|exact O1].
    rewrite G1. unfold fdv. cbn [fdacc]. now rewrite Nat.add_0_r.
  - rewrite (HF j (2 * j + kappa)) by (unfold bsd_seq; lia). cbn [rbind].
    match goal with |- context [dset diffs ?a ?b ?v] =>
        destruct (dset_spec _ diffs a b _ v Hdi (diffs_size kappa ltac:(lia)) ltac:(lia)) as (d1 & E1 & H1 & G1 & O1) end.
    rewrite E1. cbn [rbind]. destruct (fd_loop_val j kappa Hj Hka kappa 1 (nofZ (-1)) fac d1 _ H1 ltac:(lia) ltac:(lia) G1) as (d2 & E2 & H2 & G2 & O2).
    exists d2. split; [exact E2|]. split; [exact H2|]. split; [exact G2|]. intros a b Hab. rewrite O2 by exact Hab. now apply O1.
Qed.

(** The factor of the difference of order [kappa]. *)
Fixpoint fpow (d : N) (kappa : nat) : N := match kappa with O => nofZ 1 | S m => fpow d m * d end.

Lemma fd_row_val j d : (j <= k)%nat -> forall n kappa diffs, okdif diffs -> (n + kappa = 2 * j + 2)%nat ->
  exists d', fd_row n j kappa (fpow d kappa) d dxdt derivs diffs = Ok d' /\ okdif d'
    /\ (forall a, (kappa <= a < 2 * j + 2)%nat -> dget d' a (j - a / 2) = Ok (fdv j a (fpow d a)))
    /\ forall a b, ((a < kappa \/ 2 * j + 2 <= a) \/ b <> j - a / 2)%nat -> dget d' a b = dget diffs a b.
Proof.
  intro Hj. induction n as [|n IH]; intros kappa diffs Hdi Hn; cbn [fd_row].
  - exists diffs. split; [reflexivity|]. split; [exact Hdi|]. split; [intros; lia|auto].
  - destruct (finite_difference_val diffs j kappa (fpow d kappa) Hdi Hj ltac:(lia)) as (d1 & E & H1 & G1 & O1). rewrite E. cbn [rbind].
    destruct (IH (S kappa) d1 H1 ltac:(lia)) as (d2 & E2 & H2 & G2 & O2). exists d2. split; [exact E2|]. split; [exact H2|]. split.
    + intros a Ha. destruct (Nat.eq_dec a kappa) as [->|Q]; [|apply G2; lia]. rewrite O2 by lia. exact G1.
    + intros a b Hab. rewrite O2 by lia. apply O1. destruct (Nat.eq_dec a kappa) as [->|Q]; [right; lia|now left].
Qed.

(** *** All stages *)
Variable mpvs : nat -> vec.
Variable dt : N.
Definition dspc (j : nat) : N := nofnat (bsd_seq j) / (nofZ 2 * dt).

Lemma pd_rows_val : forall n j (mp : list vec) diffs, okdif diffs -> (n + j = k + 1)%nat -> length mp = 9%nat ->
  exd_inv 0 mpvs k (Nat.max 1 j) mp ->
  (forall j' a, (j' < j)%nat -> (a <= 2 * j' + 1)%nat -> dget diffs a (j' - a / 2) = Ok (fdv j' a (fpow (dspc j') a))) ->
  exists mp' d', pd_rows n j dt dxdt derivs mp diffs = Ok (mp', d') /\ okdif d' /\ length mp' = 9%nat
    /\ exd_inv 0 mpvs k (S k) mp'
    /\ (forall j' a, (j' <= k)%nat -> (a <= 2 * j' + 1)%nat -> dget d' a (j' - a / 2) = Ok (fdv j' a (fpow (dspc j') a))).
Proof.
  induction n as [|n IH]; intros j mp diffs Hdi Hn L Hm Hv; cbn [pd_rows].
  - exists mp, diffs. replace j with (S k) in * by lia. split; [reflexivity|]. split; [exact Hdi|]. split; [exact L|]. split; [exact Hm|].
    intros j' a Hj'. apply Hv. lia.
  - rewrite (vget_nth _ _ _ (bs_seqs_nth bsd_seq j ltac:(lia))). cbn [rbind]. fold (dspc j).
    destruct (fd_row_val j (dspc j) ltac:(lia) (2 * j + 2) 0 diffs Hdi ltac:(lia)) as (d1 & E1 & H1 & G1 & O1).
    cbn [fpow] in E1. rewrite E1. cbn [rbind].
    assert (V1 : forall j' a, (j' < S j)%nat -> (a <= 2 * j' + 1)%nat -> dget d1 a (j' - a / 2) = Ok (fdv j' a (fpow (dspc j') a))).
    { intros j' a Hj' Ha. destruct (Nat.eq_dec j' j) as [->|Q]; [apply G1; lia|].
      pose proof (half_bound a j' Ha) as Hh. rewrite O1 by (right; lia). apply Hv; lia. }
    destruct (Nat.ltb_spec 0 j) as [Q|Q].
    + replace (Nat.max 1 j) with j in Hm by lia.
      destruct (extrapolate_dense_nev 0 mpvs k j mp ltac:(lia) ltac:(lia) ltac:(lia) Hm) as (m1 & E2 & L2 & H2). rewrite E2. cbn [rbind].
      apply IH; auto; lia.
    + cbn [rbind]. replace j with 0%nat in * by lia. apply IH; auto; lia.
Qed.

(** The extrapolated differences and their coefficients. *)
Definition fdy (kappa b : nat) : vec := fdv (b + kappa / 2) kappa (fpow (dspc (b + kappa / 2)) kappa).
Definition fdx (kappa : nat) : vec := nev (fun j => bsd_seq (j + kappa / 2)) (fdy kappa) (k - kappa / 2) (k - kappa / 2).
Fixpoint dcf (kappa : nat) : N := match kappa with O => dt / nofZ 2 | S m => dcf m * (dt / nofnat (2 * (m + 2))) end.

Lemma pd_cols_val : forall n kappa diffs, (n + kappa = 2 * k + 2)%nat -> okdif diffs ->
  (forall j' a, (kappa <= a)%nat -> (j' <= k)%nat -> (a <= 2 * j' + 1)%nat -> dget diffs a (j' - a / 2) = Ok (fdv j' a (fpow (dspc j') a))) ->
  (forall a, (a < kappa)%nat -> dget diffs a 0 = Ok (fun i => fdx a i * dcf a)) ->
  exists d', pd_cols n kappa k (dcf kappa) dt diffs = Ok d' /\ okdif d'
    /\ forall a, (a < 2 * k + 2)%nat -> dget d' a 0 = Ok (fun i => fdx a i * dcf a).
Proof.
  induction n as [|n IH]; intros kappa diffs Hn Hdi Hr Hv; cbn [pd_cols].
  - exists diffs. replace kappa with (2 * k + 2)%nat in * by lia. auto.
  - destruct (sized_row _ _ _ _ Hdi (diffs_size kappa ltac:(lia))) as (row & Er & Lr). rewrite (vget_nth _ _ _ Er). cbn [rbind].
    pose proof (half_bound kappa k ltac:(lia)) as Hh.
    assert (Hy : forall b, (b <= k - kappa / 2)%nat -> nth_error row b = Some (fdy kappa b)).
    { intros b Hb. apply vget_Ok. rewrite <- (dget_row _ _ _ _ Er). pose proof (Nat.div_mod kappa 2). pose proof (Nat.mod_upper_bound kappa 2).
      specialize (Hr (b + kappa / 2)%nat kappa ltac:(lia) ltac:(lia) ltac:(lia)). replace (b + kappa / 2 - kappa / 2)%nat with b in Hr by lia. exact Hr. }
    destruct (pd_ext_nev (kappa / 2) (fdy kappa) (k - kappa / 2) (k - kappa / 2) 1 row ltac:(lia) ltac:(lia) ltac:(lia) ltac:(lia)) as (r1 & E1 & L1 & A1 & B1).
    { split; [intros i Hi; replace i with 0%nat by lia; apply Hy; lia|]. intros i Hi. apply Hy. lia. }
    rewrite E1. cbn [rbind].
    pose proof (A1 0%nat ltac:(lia)) as A0. replace (S (k - kappa / 2) - 1)%nat with (k - kappa / 2)%nat in A0 by lia. rewrite Nat.sub_0_r in A0.
    rewrite (vget_nth _ _ _ A0). cbn [rbind].
    match goal with |- context [vset r1 0 ?v] => destruct (vset_lt r1 0 v ltac:(lia)) as (r2 & E2 & L2 & G2 & O2) end.
    rewrite E2. cbn [rbind].
    destruct (vset_row _ diffs kappa r2 _ Hdi (diffs_size kappa ltac:(lia)) ltac:(lia)) as (d1 & E3 & H3 & G3 & O3). rewrite E3. cbn [rbind].
    destruct (IH (S kappa) d1 ltac:(lia) H3) as (d2 & E4 & H4 & G4).
    + intros j' a Ha Hj' Ha'. unfold dget, vget. rewrite O3 by lia. apply Hr; lia.
    + intros a Ha. destruct (Nat.eq_dec a kappa) as [->|Q].
      * rewrite (dget_row _ _ _ _ G3). apply vget_nth. exact G2.
      * unfold dget, vget. rewrite O3 by exact Q. apply Hv. lia.
    + exists d2. split; [exact E4|]. auto.
Qed.

Lemma prepare_val idx cfg ci (x : vec) mp diffs : okdif diffs -> length mp = 9%nat -> (forall i, (i <= k)%nat -> nth_error mp i = Some (mpvs i)) ->
  exists mp' d' e, prepare_dense_output idx cfg ci k x dxdt dt derivs mp diffs = Ok (mp', d', e)
    /\ okdif d' /\ length mp' = 9%nat /\ nth_error mp' 0 = Some (nev bsd_seq mpvs k k)
    /\ forall a, (a < 2 * k + 2)%nat -> dget d' a 0 = Ok (fun i => fdx a i * dcf a).
Proof.
  intros Hdi L Hm. unfold prepare_dense_output.
  destruct (pd_rows_val (k + 1) 0 mp diffs Hdi ltac:(lia) L) as (m1 & d1 & E1 & H1 & L1 & [A1 _] & V1).
  { split; [intros i Hi; replace i with 0%nat by lia; apply Hm; lia|]. intros i Hi. apply Hm. lia. }
  { intros; lia. }
  rewrite E1. cbn [rbind].
  destruct (pd_cols_val (2 * k + 2) 0 d1 ltac:(lia) H1) as (d2 & E2 & H2 & V2); [intros; apply V1; lia|intros; lia|].
  cbn [dcf] in E2. rewrite E2. cbn [rbind].
  assert (Z : nth_error m1 0 = Some (nev bsd_seq mpvs k k)).
  { rewrite A1 by lia. replace (S k - 1 - 0)%nat with k by lia. replace (S k - 1)%nat with k by lia. f_equal.
    replace (fun j => bsd_seq (j + 0)) with bsd_seq by (extensionality j; now rewrite Nat.add_0_r). reflexivity. }
  destruct ci.
  - rewrite (V2 (2 * k + 1)%nat) by lia. cbn [rbind]. eexists _, _, _. split; [reflexivity|]. auto.
  - eexists _, _, _. split; [reflexivity|]. auto.
Qed.
End FD.

(** *** The stages *)
Variable idx : list I.
Variable pw : N -> N -> N.
Variable cfg : err_cfg N.
Variable max_dt : N.
Variable ctrl_interp : bool.
Variable sys : vec -> N -> vec.

Definition bsd_dinv2 (x dx : vec) (t dt : N) (k : nat) (d : bsd_data (N := N) (I := I)) : Prop :=
  bsd_dinv sys x dx t dt k d /\ let '(table, mp, derivs, out) := d in
  forall j, (j < k)%nat -> nth_error mp j = Some (mpv sys x dx t dt j)
    /\ forall m, (m < bsd_seq j)%nat -> dget derivs j m = Ok (drv sys x dx t dt j m).

Lemma bsd_stage_val x dx t dt k d : (k <= 8)%nat -> bsd_dinv2 x dx t dt k d ->
  exists d' e, bsd_stage idx cfg sys x dx t dt k d = Ok (d', e) /\ bsd_dinv2 x dx t dt (S k) d'
    /\ ((1 <= k)%nat -> e = bsd_err idx cfg sys x dx t dt k).
Proof.
  intros Hk [Hi Hv]. destruct (bsd_stage_nev idx cfg sys x dx t dt k d Hk Hi) as (d' & e & E & Hi' & He).
  exists d', e. split; [exact E|]. split; [|exact He]. split; [exact Hi'|]. clear Hi' He.
  destruct d as [[[table mp] derivs] out]. destruct Hi as (L & Lm & Hd & _). unfold bsd_stage in E.
  rewrite (vget_nth _ _ _ (bs_seqs_nth bsd_seq k Hk)) in E. cbn [rbind] in E.
  destruct (vget_lt mp k ltac:(lia)) as [xm Hx]. rewrite (vget_nth _ _ _ Hx) in E. cbn [rbind] in E.
  destruct (sized_row _ _ _ _ Hd (derivs_size k Hk)) as (row & Er & Lr). rewrite (vget_nth _ _ _ Er) in E. cbn [rbind] in E.
  destruct (mmd_step_val2 sys k x dx t dt xm row Lr) as (row' & Es & Ls & Ns). rewrite Es in E. cbn [rbind] in E.
  destruct (vset_lt mp k (mpv sys x dx t dt k) ltac:(lia)) as (mp1 & Em & Lm1 & Gm & Om). rewrite Em in E. cbn [rbind] in E.
  destruct (vset_row _ derivs k row' _ Hd (derivs_size k Hk) Ls) as (d1 & Ed & Hd1 & Gd & Od). rewrite Ed in E. cbn [rbind] in E.
  assert (V : forall j, (j < S k)%nat -> nth_error mp1 j = Some (mpv sys x dx t dt j)
    /\ forall m, (m < bsd_seq j)%nat -> dget d1 j m = Ok (drv sys x dx t dt j m)).
  { intros j Hj. destruct (Nat.eq_dec j k) as [->|Q].
    - split; [exact Gm|]. intros m Hm. rewrite (dget_row _ _ _ _ Gd). apply vget_nth. now apply Ns.
    - destruct (Hv j ltac:(lia)) as [V1 V2]. split; [rewrite Om by exact Q; exact V1|]. intros m Hm.
      unfold dget, vget. rewrite Od by exact Q. now apply V2. }
  destruct (Nat.eqb k 0).
  - injection E as <- _. exact V.
  - apply rbind_Ok in E. destruct E as (t1 & _ & E). apply rbind_Ok in E. destruct E as ([t2 out2] & _ & E).
    apply rbind_Ok in E. destruct E as (a & _ & E). injection E as <- _. exact V.
Qed.

Lemma bsd_run_val s x dx t dt out : bsd_inv s ->
  exists kf rej k' h table mp derivs,
    bs_run pw true (bsd_stage idx cfg sys x dx t dt) (bd_kopt s) (bd_first s) (bd_lastrej s) dt
         (bd_table s, bd_mp s, bd_derivs s, out)
       = Ok ((table, mp, derivs, bsd_T sys x dx t dt kf kf), kf, rej, k', h)
    /\ bsd_dinv2 x dx t dt (S kf) (table, mp, derivs, bsd_T sys x dx t dt kf kf).
Proof.
  intros ((Lt & Lm & Hd & Hdi) & Hk & Hf). unfold bs_run.
  assert (Hd0 : bsd_dinv2 x dx t dt 0 (bd_table s, bd_mp s, bd_derivs s, out)).
  { split; [split; [exact Lt|]; split; [exact Lm|]; split; [exact Hd|]; intro Q; lia|]. intros; lia. }
  destruct (bs_loop_oracle pw true (bsd_stage idx cfg sys x dx t dt) (bsd_err idx cfg sys x dx t dt) (bsd_dinv2 x dx t dt)
             (bsd_stage_val x dx t dt) (bd_kopt s) (bd_first s) (bd_lastrej s) dt Hk Hf (bd_kopt s + 2) 0
             (bd_table s, bd_mp s, bd_derivs s, out) 0 zeros zeros) as (d' & kf & rej & k' & h & E1 & E2 & H); auto; try lia.
  destruct d' as [[[table mp] derivs] out']. assert (Eo : out' = bsd_T sys x dx t dt kf kf).
  { destruct H as [(_ & _ & _ & H) _]. destruct H as [H Ho]; [lia|]. replace (S kf - 1)%nat with kf in Ho by lia. exact Ho. }
  subst out'. exists kf, rej, k', h, table, mp, derivs. split; [exact E2|exact H].
Qed.

(** *** A completed step *)
Record stepped (x dx : vec) (t dt : N) (s' : bsd N I) : Prop := {
  sd_t : bd_t s' = t + dt;
  sd_k : (1 <= bd_kfinal s' <= 8)%nat;
  sd_mp : nth_error (bd_mp s') 0 = Some (nev bsd_seq (mpv sys x dx t dt) (bd_kfinal s') (bd_kfinal s'));
  sd_diff : forall a, (a < 2 * bd_kfinal s' + 2)%nat ->
    dget (bd_diffs s') a 0 = Ok (fun i => fdx dx (drv sys x dx t dt) (bd_kfinal s') dt a i * dcf dt a) }.

Lemma bsd_try_val s s' : bsd_inv s -> bsd_try idx pw cfg max_dt ctrl_interp sys s = Ok (s', true) ->
  stepped (bd_curx s) (bd_curdx s) (bd_t s) (bd_dt s) s'
  /\ bd_oldx s' = bsd_T sys (bd_curx s) (bd_curdx s) (bd_t s) (bd_dt s) (bd_kfinal s') (bd_kfinal s')
  /\ bd_olddx s' = sys (bd_oldx s') (bd_t s').
Proof.
  intros Hi E.
  destruct (bsd_try_ok idx pw cfg max_dt ctrl_interp sys (fun _ _ _ _ _ _ => True) (fun _ _ _ _ _ _ _ _ _ _ => Logic.I) s Hi) as (s1 & ok & E1 & _ & Hp).
  rewrite E in E1. injection E1 as <- <-. destruct Hp as (_ & _ & _ & _ & _ & Ht & [(_ & _ & Hp & _)|(Hl & _ & Hkf & _)]); [discriminate|].
  pose proof Hi as ((Lt & Lm & Hd & Hdi) & Hk & Hf).
  unfold bsd_try in E. rewrite Hl in E.
  destruct (bsd_run_val s (bd_curx s) (bd_curdx s) (bd_t s) (bd_dt s) (bd_oldx s) Hi) as (kf & rej & k' & h & table & mp & derivs & Er & Hv).
  rewrite Er in E. cbn [rbind] in E. destruct Hv as [(Lt' & Lm' & Hd' & _) Hv].
  destruct rej; cbn [rbind] in E; [discriminate|].
  assert (K : bd_kfinal s' = kf).
  { apply rbind_Ok in E. destruct E as ([[[[[a b] c] d] e] f] & _ & E). injection E as <- _. reflexivity. }
  rewrite K in Hkf.
  destruct (prepare_val (bd_curdx s) (drv sys (bd_curx s) (bd_curdx s) (bd_t s) (bd_dt s)) derivs kf ltac:(lia)
              (fun j m Hj Hm => proj2 (Hv j ltac:(lia)) m Hm)
              (mpv sys (bd_curx s) (bd_curdx s) (bd_t s) (bd_dt s)) (bd_dt s) idx cfg ctrl_interp (bd_curx s) mp (bd_diffs s) Hdi Lm'
              (fun i Hi' => proj1 (Hv i ltac:(lia)))) as (mp' & di' & er & Ep & _ & _ & Gm & Gd).
  rewrite Ep in E. cbn [rbind] in E. destruct (ngt er (nofZ 10)); cbn [rbind] in E; [discriminate|].
  injection E as E. subst s'. split; [|split].
  - split; [exact Ht|rewrite K; exact Hkf|exact Gm|exact Gd].
  - unfold bd_oldx. cbn. destruct (bd_cur1 s); reflexivity.
  - unfold bd_oldx, bd_olddx. cbn. destruct (bd_cur1 s); reflexivity.
Qed.

Lemma bsd_attempts_val : forall fuel cnt s s2, bsd_inv s -> bsd_attempts idx pw cfg max_dt ctrl_interp sys fuel cnt s = Ok s2 ->
  bd_curx s2 = bd_curx s /\ bd_tlast s2 = bd_tlast s /\ exists dt,
    stepped (bd_curx s) (bd_curdx s) (bd_t s) dt s2
    /\ bd_oldx s2 = bsd_T sys (bd_curx s) (bd_curdx s) (bd_t s) dt (bd_kfinal s2) (bd_kfinal s2)
    /\ bd_olddx s2 = sys (bd_oldx s2) (bd_t s2).
Proof.
  induction fuel as [|fuel IH]; intros cnt s s2 Hs E; cbn [bsd_attempts] in E; [discriminate|].
  destruct (bsd_try_ok idx pw cfg max_dt ctrl_interp sys (fun _ _ _ _ _ _ => True) (fun _ _ _ _ _ _ _ _ _ _ => Logic.I) s Hs) as (s1 & ok & E1 & (Hz & Hk) & Hp).
  pose proof E1 as Et. rewrite E1 in E. cbn [rbind] in E. apply rbind_Ok in E. destruct E as (n' & _ & E).
  destruct Hp as (P1 & P2 & P3 & P4 & P5 & P6 & _).
  assert (Hi : bsd_inv (set_first s1 false)) by (split; [exact Hz|]; split; [exact Hk|discriminate]).
  destruct ok.
  - injection E as <-. split; [exact P1|]. split; [exact P5|]. exists (bd_dt s). destruct (bsd_try_val s s1 Hs Et) as (A & B & C).
    split; [destruct A as [A1 A2 A3 A4]; split; assumption|]. split; assumption.
  - specialize (IH _ _ _ Hi E). change (bd_curx (set_first s1 false)) with (bd_curx s1) in IH. change (bd_curdx (set_first s1 false)) with (bd_curdx s1) in IH.
    change (bd_t (set_first s1 false)) with (bd_t s1) in IH. change (bd_tlast (set_first s1 false)) with (bd_tlast s1) in IH.
    rewrite P1, P2, P5, P6 in IH. exact IH.
Qed.

Lemma bsd_step_val s s' : bsd_inv s -> bsd_do_step idx pw cfg max_dt ctrl_interp sys s = Ok s' ->
  let x := bd_curx s in let dx := if bd_first s then sys x (bd_t s) else bd_curdx s in
  bd_oldx s' = x /\ bd_tlast s' = bd_t s /\ bd_curdx s' = sys (bd_curx s') (bd_t s') /\ exists dt,
    stepped x dx (bd_t s) dt s' /\ bd_curx s' = bsd_T sys x dx (bd_t s) dt (bd_kfinal s') (bd_kfinal s').
Proof.
  intros Hs E x dx. unfold bsd_do_step in E. apply rbind_Ok in E. destruct E as (s1 & E & E2). injection E2 as <-.
  assert (Tx : bd_oldx (toggle s1) = bd_curx s1 /\ bd_curx (toggle s1) = bd_oldx s1 /\ bd_curdx (toggle s1) = bd_olddx s1)
    by (unfold bd_oldx, bd_curx, bd_curdx, bd_olddx; cbn; destruct (bd_cur1 s1); auto).
  destruct Tx as (-> & -> & ->).
  set (s0 := set_tlast _ _) in E.
  assert (H0 : bsd_inv s0) by (subst s0; destruct (bd_first s); exact Hs).
  destruct (bsd_attempts_val _ _ _ _ H0 E) as (A & B & dt & [C1 C2 C3 C4] & D & F).
  assert (Ex : bd_curx s0 = x) by (subst s0 x; unfold bd_curx; destruct (bd_first s); reflexivity).
  assert (Ed : bd_curdx s0 = dx) by (clear; subst s0 dx x; destruct (bd_first s); unfold eval_cur, set_tlast, bd_curdx, bd_curx; cbn; destruct (bd_cur1 s); reflexivity).
  assert (Et : bd_t s0 = bd_t s /\ bd_tlast s0 = bd_t s) by (subst s0; destruct (bd_first s); auto).
  destruct Et as [Et Et2]. clearbody s0. rewrite Ex, Ed, Et in *.
  split; [exact A|]. split; [exact (eq_trans B Et2)|]. split; [exact F|]. exists dt. split; [|exact D]. split; assumption.
Qed.

(** calc_state. *)
Fixpoint isum (A : nat -> vec) (n i : nat) (theta tp : N) (out : vec) : vec :=
  match n with O => out | S n' => isum A n' (S i) theta (tp * theta) (fun j => scale_sum [(nofZ 1, out j); (tp, A i j)]) end.
Lemma interp_val diffs A : forall n i theta tp out, (forall a, (i <= a < i + n)%nat -> dget diffs a 0 = Ok (A a)) ->
  interp_loop n i theta tp diffs out = Ok (isum A n i theta tp out).
Proof.
  induction n as [|n IH]; intros i theta tp out H; cbn [interp_loop isum]; [reflexivity|].
  rewrite (H i) by lia. cbn [rbind]. apply IH. intros a Ha. apply H. lia.
Qed.
Lemma bsd_calc_val x dx t dt s' tt : stepped x dx t dt s' ->
  bsd_calc s' tt = Ok (let theta := nofZ 2 * ((tt - bd_tlast s') / (bd_t s' - bd_tlast s')) - nofZ 1 in
    isum (fun a i => fdx dx (drv sys x dx t dt) (bd_kfinal s') dt a i * dcf dt a) (2 * bd_kfinal s' + 2) 0 theta theta
      (nev bsd_seq (mpv sys x dx t dt) (bd_kfinal s') (bd_kfinal s'))).
Proof.
  intros [_ _ Hm Hd]. unfold bsd_calc. rewrite (vget_nth _ _ _ Hm). cbn [rbind]. apply interp_val. intros a Ha. apply Hd. lia.
Qed.
End V.

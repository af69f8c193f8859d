(** bulirsch_stoer_dense_out: table accesses and order bounds (any arithmetic). *)
From Coq Require Import ZArith List Bool Arith Lia.
From Verif Require Import M_Num M_Sign M_Run M_Checker M_RK M_CtrlRK M_Midpoint M_BS M_BSDense P_BS.
Import ListNotations.
Local Open Scope num_scope.
Local Open Scope res_scope.

(** *** Tables of tables *)
Section Tab.
Context {A : Type}.
Definition sized (sizes : list nat) (ll : list (list A)) : Prop := map (@length _) ll = sizes.

Lemma sized_row sizes ll a n : sized sizes ll -> nth_error sizes a = Some n ->
  exists row, nth_error ll a = Some row /\ length row = n.
Proof.
  intros <- H. rewrite nth_error_map in H. destruct (nth_error ll a) as [r|]; [|discriminate].
  cbn in H. exists r. split; congruence.
Qed.
Lemma vset_sized sizes (ll : list (list A)) a row n : sized sizes ll -> nth_error sizes a = Some n -> length row = n ->
  exists ll', vset ll a row = Ok ll' /\ sized sizes ll'.
Proof.
  intros H Hn Hr. unfold sized in *. subst sizes. revert a Hn. induction ll as [|r ll IH]; intros a Hn.
  - destruct a; discriminate.
  - destruct a as [|a]; cbn in Hn |- *.
    + exists (row :: ll). split; [reflexivity|]. cbn. congruence.
    + destruct (IH a Hn) as (l' & E & Q). rewrite E. cbn [rbind]. eexists; split; [reflexivity|]. cbn. now rewrite Q.
Qed.
End Tab.

Section D.
Context {N : Num} {I : Type}.
Notation vec := (vec N I).

Lemma dget_ok sizes (ll : list (list vec)) a b n : sized sizes ll -> nth_error sizes a = Some n -> (b < n)%nat ->
  exists v, dget ll a b = Ok v.
Proof.
  intros H Hn Hb. destruct (sized_row _ _ _ _ H Hn) as (row & E & L). unfold dget.
  rewrite (vget_nth _ _ _ E). cbn [rbind]. destruct (vget_lt row b ltac:(lia)) as [v Hv].
  rewrite (vget_nth _ _ _ Hv). eauto.
Qed.
Lemma dset_ok sizes (ll : list (list vec)) a b n v : sized sizes ll -> nth_error sizes a = Some n -> (b < n)%nat ->
  exists ll', dset ll a b v = Ok ll' /\ sized sizes ll'.
Proof.
  intros H Hn Hb. destruct (sized_row _ _ _ _ H Hn) as (row & E & L). unfold dset.
  rewrite (vget_nth _ _ _ E). cbn [rbind]. destruct (vset_lt row b v ltac:(lia)) as (r' & E2 & L2 & _). rewrite E2. cbn [rbind].
  eapply vset_sized; eauto. congruence.
Qed.

(** *** The midpoint *)
Section Sys.
Variable sys : vec -> N -> vec.

Lemma mmd_rounds_ok steps : forall n i th h h2 (x0 x1 xmp : vec) derivs, (1 <= i)%nat -> (i + n = length derivs)%nat ->
  exists x0' x1' xmp' d', mmd_rounds sys steps n i th h h2 x0 x1 xmp derivs = Ok (x0', x1', xmp', d') /\ length d' = length derivs.
Proof.
  induction n as [|n IH]; intros i th h h2 x0 x1 xmp derivs Hi Hl; cbn [mmd_rounds].
  - eexists _, _, _, _. split; reflexivity.
  - destruct (vget_lt derivs (i - 1) ltac:(lia)) as [dx Hdx]. rewrite (vget_nth _ _ _ Hdx). cbn [rbind].
    match goal with |- context [vset derivs i ?v] => destruct (vset_lt derivs i v ltac:(lia)) as (d1 & E & L & _) end.
    rewrite E. cbn [rbind]. rewrite <- L. apply IH; lia.
Qed.
Lemma mmd_step_ok steps (x dxdt : vec) t dt xmp derivs : (1 <= steps)%nat -> length derivs = steps ->
  exists y xmp' d', mmd_step sys steps x dxdt t dt xmp derivs = Ok (y, xmp', d') /\ length d' = steps.
Proof.
  intros Hs L. unfold mmd_step.
  match goal with |- context [vset derivs 0 ?v] => destruct (vset_lt derivs 0 v ltac:(lia)) as (d1 & E & L1 & _) end.
  rewrite E. cbn [rbind].
  match goal with |- context [mmd_rounds sys steps ?n ?i ?th ?h ?h2 ?a ?b ?c ?d] =>
    destruct (mmd_rounds_ok steps n i th h h2 a b c d ltac:(lia) ltac:(lia)) as (x0' & x1' & xmp' & d' & E2 & L2) end.
  rewrite E2. cbn [rbind]. destruct (vget_lt d' (steps - 1) ltac:(lia)) as [dl Hdl]. rewrite (vget_nth _ _ _ Hdl). cbn [rbind].
  eexists _, _, _. split; [reflexivity|]. lia.
Qed.
End Sys.

(** *** prepare_dense_output *)
Lemma exd_down_ok k osi : forall j (table : list vec), (j <= k)%nat -> (k + osi <= 8)%nat -> (k < length table)%nat ->
  exists t', exd_down k j osi table = Ok t' /\ length t' = length table.
Proof.
  induction j as [|[|j] IH]; intros table Hj Hk L; [cbn; eauto..|].
  cbn [exd_down]. unfold bsd_coeff. rewrite cget_ok by (unfold k_max; lia). cbn [rbind].
  destruct (vget_lt table (S (S j)) ltac:(lia)) as [a Ha]. rewrite (vget_nth _ _ _ Ha). cbn [rbind].
  destruct (vget_lt table (S j) ltac:(lia)) as [b Hb]. rewrite (vget_nth _ _ _ Hb). cbn [rbind].
  match goal with |- context [vset table ?i ?v] => destruct (vset_lt table i v ltac:(lia)) as (t1 & E & L1 & _) end.
  rewrite E. cbn [rbind]. rewrite <- L1. apply IH; lia.
Qed.
Lemma extrapolate_dense_ok k osi (table : list vec) : (1 <= k)%nat -> (k + osi <= 8)%nat -> (k < length table)%nat ->
  exists t', extrapolate_dense_out k osi table = Ok t' /\ length t' = length table.
Proof.
  intros Hk Ho L. unfold extrapolate_dense_out.
  destruct (exd_down_ok k osi k table ltac:(lia) Ho L) as (t1 & E & L1). rewrite E. cbn [rbind].
  unfold bsd_coeff. rewrite cget_ok by (unfold k_max; lia). cbn [rbind].
  destruct (vget_lt t1 1 ltac:(lia)) as [a Ha]. rewrite (vget_nth _ _ _ Ha). cbn [rbind].
  destruct (vget_lt t1 0 ltac:(lia)) as [b Hb]. rewrite (vget_nth _ _ _ Hb). cbn [rbind].
  match goal with |- context [vset t1 ?i ?v] => destruct (vset_lt t1 i v ltac:(lia)) as (t2 & E2 & L2 & _) end.
  exists t2. split; [exact E2|lia].
Qed.

Lemma derivs_size j : (j <= 8)%nat -> nth_error derivs_sizes j = Some (2 + 4 * j)%nat.
Proof. intro H. apply (bs_seqs_nth bsd_seq j H). Qed.
Lemma diffs_size i : (i <= 17)%nat -> nth_error diffs_sizes i = Some (9 - i / 2)%nat.
Proof. intro H. do 18 (destruct i as [|i]; [reflexivity|]). lia. Qed.

Notation okder := (sized (A := vec) derivs_sizes).
Notation okdif := (sized (A := vec) diffs_sizes).

Lemma half_le a : (a / 2 * 2 <= a)%nat.
Proof. pose proof (Nat.div_mod a 2). lia. Qed.
Lemma half_odd j : ((2 * j + 1) / 2 = j)%nat.
Proof. rewrite Nat.mul_comm, Nat.div_add_l by lia. cbn. lia. Qed.
Lemma half_bound kappa j : (kappa <= 2 * j + 1)%nat -> (kappa / 2 <= j)%nat.
Proof. intro H. rewrite <- (half_odd j). apply Nat.div_le_mono; lia. Qed.

Lemma fd_loop_ok dxdt derivs j kappa : okder derivs -> (j <= 8)%nat -> (kappa <= 2 * j + 1)%nat ->
  forall n c sign fac diffs, okdif diffs -> (1 <= c)%nat -> (c + n = kappa + 1)%nat ->
  exists d', fd_loop n c j kappa (2 * j) sign fac dxdt derivs diffs = Ok d' /\ okdif d'.
Proof.
  intros Hd Hj Hk. pose proof (half_bound kappa j Hk) as Hh.
  induction n as [|n IH]; intros c sign fac diffs Hdi Hc Hn; cbn [fd_loop].
  - eauto.
  - destruct (dget_ok _ diffs kappa (j - kappa / 2) _ Hdi (diffs_size kappa ltac:(lia)) ltac:(lia)) as [cur Ec].
    rewrite Ec. cbn [rbind].
    destruct (Nat.leb_spec (2 * c) (2 * j + kappa)) as [Q|Q].
    + destruct (dget_ok _ derivs j (2 * j + kappa - 2 * c) _ Hd (derivs_size j Hj) ltac:(lia)) as [dv Ev]. rewrite Ev. cbn [rbind].
      match goal with |- context [dset diffs ?a ?b ?v] =>
        destruct (dset_ok _ diffs a b _ v Hdi (diffs_size kappa ltac:(lia)) ltac:(lia)) as (d1 & E1 & H1) end.
      rewrite E1. cbn [rbind]. apply IH; auto; lia.
    + match goal with |- context [dset diffs ?a ?b ?v] =>
        destruct (dset_ok _ diffs a b _ v Hdi (diffs_size kappa ltac:(lia)) ltac:(lia)) as (d1 & E1 & H1) end.
      rewrite E1. cbn [rbind]. apply IH; auto; lia.
Qed.

Lemma finite_difference_ok dxdt derivs diffs j kappa fac : okder derivs -> okdif diffs -> (j <= 8)%nat -> (kappa <= 2 * j + 1)%nat ->
  exists d', finite_difference j kappa fac dxdt derivs diffs = Ok d' /\ okdif d'.
Proof.
  intros Hd Hdi Hj Hk. unfold finite_difference. pose proof (half_bound kappa j Hk) as Hh.
  rewrite (vget_nth _ _ _ (bs_seqs_nth bsd_seq j Hj)). cbn [rbind].
  replace (bsd_seq j / 2 - 1)%nat with (2 * j)%nat.
  2:{ unfold bsd_seq. replace (2 + 4 * j)%nat with ((1 + 2 * j) * 2)%nat by lia. rewrite Nat.div_mul by lia. lia. }
  destruct (Nat.eqb_spec kappa 0) as [->|K].
  - destruct (dget_ok _ derivs j (2 * j) _ Hd (derivs_size j Hj) ltac:(lia)) as [dv Ev]. rewrite Ev. cbn [rbind].
    match goal with |- context [dset diffs ?a ?b ?v] =>
        destruct (dset_ok _ diffs a b _ v Hdi (diffs_size 0 ltac:(lia)) ltac:(cbn; lia)) as (d1 & E1 & H1) end. eauto.
  - destruct (dget_ok _ derivs j (2 * j + kappa) _ Hd (derivs_size j Hj) ltac:(lia)) as [dv Ev]. rewrite Ev. cbn [rbind].
    match goal with |- context [dset diffs ?a ?b ?v] =>
        destruct (dset_ok _ diffs a b _ v Hdi (diffs_size kappa ltac:(lia)) ltac:(lia)) as (d1 & E1 & H1) end.
    rewrite E1. cbn [rbind]. apply fd_loop_ok; auto; lia.
Qed.

Lemma fd_row_ok dxdt derivs j : okder derivs -> (j <= 8)%nat ->
  forall n kappa f d diffs, okdif diffs -> (n + kappa = 2 * j + 2)%nat ->
  exists d', fd_row n j kappa f d dxdt derivs diffs = Ok d' /\ okdif d'.
Proof.
  intros Hd Hj. induction n as [|n IH]; intros kappa f d diffs Hdi Hn; cbn [fd_row]; [eauto|].
  destruct (finite_difference_ok dxdt derivs diffs j kappa f Hd Hdi Hj ltac:(lia)) as (d1 & E & H1). rewrite E. cbn [rbind].
  apply IH; auto; lia.
Qed.

Lemma pd_rows_ok dt dxdt derivs : okder derivs ->
  forall n j (mp : list vec) diffs, okdif diffs -> (n + j <= 9)%nat -> length mp = 9%nat ->
  exists mp' d', pd_rows n j dt dxdt derivs mp diffs = Ok (mp', d') /\ okdif d' /\ length mp' = 9%nat.
Proof.
  intro Hd. induction n as [|n IH]; intros j mp diffs Hdi Hn L; cbn [pd_rows]; [eauto|].
  rewrite (vget_nth _ _ _ (bs_seqs_nth bsd_seq j ltac:(lia))). cbn [rbind].
  match goal with |- context [fd_row ?n ?j ?k ?f ?d ?x derivs diffs] =>
    destruct (fd_row_ok x derivs j Hd ltac:(lia) n k f d diffs Hdi ltac:(lia)) as (d1 & E1 & H1) end.
  rewrite E1. cbn [rbind]. destruct (Nat.ltb_spec 0 j) as [Q|Q].
  - destruct (extrapolate_dense_ok j 0 mp ltac:(lia) ltac:(lia) ltac:(lia)) as (m1 & E2 & L2). rewrite E2. cbn [rbind].
    apply IH; auto; lia.
  - cbn [rbind]. apply IH; auto; lia.
Qed.

Lemma pd_ext_ok osi : forall n j (row : list vec), (1 <= j)%nat -> (n + j <= 9 - osi)%nat -> (osi <= 8)%nat -> (length row = 9 - osi)%nat ->
  exists r', pd_ext n j osi row = Ok r' /\ length r' = length row.
Proof.
  induction n as [|n IH]; intros j row Hj Hn Ho L; cbn [pd_ext]; [eauto|].
  destruct (extrapolate_dense_ok j osi row Hj ltac:(lia) ltac:(lia)) as (r1 & E & L1). rewrite E. cbn [rbind].
  rewrite <- L1. apply IH; lia.
Qed.

Lemma pd_cols_ok k dt : (k <= 8)%nat -> forall n kappa d diffs, (n + kappa = 2 * k + 2)%nat -> okdif diffs ->
  exists d', pd_cols n kappa k d dt diffs = Ok d' /\ okdif d'.
Proof.
  intro Hk. induction n as [|n IH]; intros kappa d diffs Hn Hdi; cbn [pd_cols]; [eauto|].
  destruct (sized_row _ _ _ _ Hdi (diffs_size kappa ltac:(lia))) as (row & Er & Lr). rewrite (vget_nth _ _ _ Er). cbn [rbind].
  pose proof (half_bound kappa k ltac:(lia)) as Hh.
  destruct (pd_ext_ok (kappa / 2) (k - kappa / 2) 1 row ltac:(lia) ltac:(lia) ltac:(lia) Lr) as (r1 & E1 & L1). rewrite E1. cbn [rbind].
  destruct (vget_lt r1 0 ltac:(lia)) as [r0 Hr0]. rewrite (vget_nth _ _ _ Hr0). cbn [rbind].
  match goal with |- context [vset r1 ?i ?v] => destruct (vset_lt r1 i v ltac:(lia)) as (r2 & E2 & L2 & _) end.
  rewrite E2. cbn [rbind].
  destruct (vset_sized _ diffs kappa r2 _ Hdi (diffs_size kappa ltac:(lia)) ltac:(lia)) as (d1 & E3 & H3). rewrite E3. cbn [rbind].
  apply IH; auto; lia.
Qed.

Section Obj.
Variable idx : list I.
Variable pw : N -> N -> N.
Variable cfg : err_cfg N.
Variable max_dt : N.
Variable ctrl_interp : bool.

Lemma prepare_ok k (x dxdt : vec) dt derivs mp diffs : (k <= 8)%nat -> okder derivs -> okdif diffs -> length mp = 9%nat ->
  exists mp' d' e, prepare_dense_output idx cfg ctrl_interp k x dxdt dt derivs mp diffs = Ok (mp', d', e)
    /\ okdif d' /\ length mp' = 9%nat.
Proof.
  intros Hk Hd Hdi L. unfold prepare_dense_output.
  destruct (pd_rows_ok dt dxdt derivs Hd (k + 1) 0 mp diffs Hdi ltac:(lia) L) as (m1 & d1 & E1 & H1 & L1). rewrite E1. cbn [rbind].
  destruct (pd_cols_ok k dt Hk (2 * k + 2) 0 (dt / nofZ 2) d1 ltac:(lia) H1) as (d2 & E2 & H2). rewrite E2. cbn [rbind].
  destruct ctrl_interp.
  - destruct (dget_ok _ d2 (2 * k + 1) 0 _ H2 (diffs_size (2 * k + 1) ltac:(lia)) ltac:(rewrite half_odd; lia)) as [e Ee].
    rewrite Ee. cbn [rbind]. eauto 10.
  - eauto 10.
Qed.

Section Sys.
Variable sys : vec -> N -> vec.

(** Sizes of the tables of the data of a round. *)
Definition okdata (d : bsd_data (N := N) (I := I)) : Prop :=
  let '(table, mp, derivs, out) := d in length table = 8%nat /\ length mp = 9%nat /\ okder derivs.

Lemma bsd_stage_ok inp dxdt t dt k d : (k <= 8)%nat -> okdata d ->
  exists d' e, bsd_stage idx cfg sys inp dxdt t dt k d = Ok (d', e) /\ okdata d'.
Proof.
  intros Hk. destruct d as [[[table mp] derivs] out]. intros (Lt & Lm & Hd). unfold bsd_stage.
  rewrite (vget_nth _ _ _ (bs_seqs_nth bsd_seq k Hk)). cbn [rbind].
  destruct (vget_lt mp k ltac:(lia)) as [xm Hx]. rewrite (vget_nth _ _ _ Hx). cbn [rbind].
  destruct (sized_row _ _ _ _ Hd (derivs_size k Hk)) as (row & Er & Lr). rewrite (vget_nth _ _ _ Er). cbn [rbind].
  destruct (mmd_step_ok sys (bsd_seq k) inp dxdt t dt xm row ltac:(unfold bsd_seq; lia) Lr) as (y & xm' & row' & Es & Ls).
  rewrite Es. cbn [rbind].
  destruct (vset_lt mp k xm' ltac:(lia)) as (mp1 & Em & Lm1 & _). rewrite Em. cbn [rbind].
  destruct (vset_sized _ derivs k row' _ Hd (derivs_size k Hk) Ls) as (d1 & Ed & Hd1). rewrite Ed. cbn [rbind].
  destruct (Nat.eqb_spec k 0) as [->|K0].
  - eexists _, _. split; [reflexivity|]. cbn. repeat split; auto; lia.
  - destruct (vset_lt table (k - 1) y ltac:(lia)) as (t1 & E1 & L1 & _). rewrite E1. cbn [rbind].
    destruct (extrapolate_ok bsd_seq (k_max + 1) k t1 out ltac:(unfold k_max; lia) ltac:(lia)) as (t2 & x2 & E2 & L2).
    unfold bsd_coeff. rewrite E2. cbn [rbind].
    destruct (vget_lt t2 0 ltac:(lia)) as [a Ha]. rewrite (vget_nth _ _ _ Ha). cbn [rbind].
    eexists _, _. split; [reflexivity|]. cbn. repeat split; auto; lia.
Qed.

(** The invariant between calls. *)
Lemma prepare_err k x dxdt dt derivs mp diffs mp' di' e :
  prepare_dense_output idx cfg ctrl_interp k x dxdt dt derivs mp diffs = Ok (mp', di', e) -> ctrl_interp = false -> e = nofZ 0.
Proof.
  unfold prepare_dense_output. intros E NI. rewrite NI in E. destruct (pd_rows _ _ _ _ _ _ _) as [[a b]| | |]; try discriminate.
  cbn [rbind] in E. destruct (pd_cols _ _ _ _ _ _); try discriminate. cbn [rbind] in E. now injection E.
Qed.

Definition bsd_sizes (s : bsd N I) : Prop :=
  length (bd_table s) = 8%nat /\ length (bd_mp s) = 9%nat /\ okder (bd_derivs s) /\ okdif (bd_diffs s).
Definition bsd_inv (s : bsd N I) : Prop :=
  bsd_sizes s /\ (2 <= bd_kopt s <= 7)%nat /\ (bd_first s = true -> bd_kopt s <= 6)%nat.

Variable PE : vec -> vec -> N -> N -> nat -> N -> Prop.
Hypothesis HPE : forall inp dxdt t dt k d d' e, (1 <= k <= 8)%nat ->
  bsd_stage idx cfg sys inp dxdt t dt k d = Ok (d', e) -> PE inp dxdt t dt k e.

Definition try_post (s s' : bsd N I) (ok : bool) : Prop :=
  bd_curx s' = bd_curx s /\ bd_curdx s' = bd_curdx s /\ bd_cur1 s' = bd_cur1 s /\ bd_first s' = bd_first s /\ bd_tlast s' = bd_tlast s /\
  (if ok then (bd_t s' = bd_t s + bd_dt s) else bd_t s' = bd_t s) /\
  ((nneq max_dt (nofZ 0) && less_with_sign max_dt (bd_dt s) (bd_dt s) = true /\ bd_dt s' = max_dt /\ ok = false
      /\ bd_lastrej s' = bd_lastrej s /\ bd_kopt s' = bd_kopt s /\ bd_kfinal s' = bd_kfinal s)
   \/ (nneq max_dt (nofZ 0) && less_with_sign max_dt (bd_dt s) (bd_dt s) = false /\ bd_lastrej s' = negb ok /\ (1 <= bd_kfinal s' <= 8)%nat /\
      exists new_h,
        bd_dt s' = (if negb (bd_lastrej s) || (new_h <? bd_dt s) then if nneq max_dt (nofZ 0) then min_abs max_dt new_h else new_h else bd_dt s)
        /\ (ok = false -> ((exists j e, (1 <= j <= 8)%nat /\ PE (bd_curx s) (bd_curdx s) (bd_t s) (bd_dt s) j e /\ (e <? nofZ 1) = false
                                  /\ calc_h_opt pw true (bd_dt s) e j = Ok new_h /\ bd_kopt s' = bd_kopt s)
                 \/ exists e, (nofZ 10 <? e) = true /\ new_h = bd_dt s * pw e (nofZ (-1) / nofnat (2 * bd_kfinal s' + 2)) /\ (ctrl_interp = false -> e = nofZ 0))))).

Lemma bsd_try_ok s : bsd_inv s ->
  exists s' ok, bsd_try idx pw cfg max_dt ctrl_interp sys s = Ok (s', ok)
    /\ (bsd_sizes s' /\ (2 <= bd_kopt s' <= 7)%nat) /\ try_post s s' ok.
Proof.
  intros ((Lt & Lm & Hd & Hdi) & Hk & Hf). unfold bsd_try.
  destruct (nneq max_dt (nofZ 0) && less_with_sign max_dt (bd_dt s) (bd_dt s)) eqn:El.
  - eexists _, _. split; [reflexivity|]. split.
    + split; [split; [exact Lt|split; [exact Lm|split; [exact Hd|exact Hdi]]]|]. exact Hk.
    + unfold try_post, bd_curx, bd_curdx. cbn. destruct (bd_cur1 s); repeat split; left; auto 10.
  - assert (Hst : forall k d, (k <= 8)%nat -> okdata d ->
      exists d' e, bsd_stage idx cfg sys (bd_curx s) (bd_curdx s) (bd_t s) (bd_dt s) k d = Ok (d', e) /\ okdata d'
        /\ ((1 <= k)%nat -> PE (bd_curx s) (bd_curdx s) (bd_t s) (bd_dt s) k e)).
    { intros k d Hk' Hd'. destruct (bsd_stage_ok (bd_curx s) (bd_curdx s) (bd_t s) (bd_dt s) k d Hk' Hd') as (d' & e & E & L).
      exists d', e. split; [exact E|]. split; [exact L|]. intro Q. eapply HPE; [|exact E]. lia. }
    assert (Hd0 : okdata (bd_table s, bd_mp s, bd_derivs s, bd_oldx s)) by (cbn; auto).
    destruct (bs_run_ok pw true _ okdata _ Hst (bd_kopt s) (bd_first s) (bd_lastrej s) (bd_dt s) _ Hk Hf Hd0) as (r & Er & Hr).
    rewrite Er. cbn [rbind]. destruct r as [[[[d kf] reject] k'] new_h]. destruct d as [[[table mp] derivs] out].
    destruct Hr as ((Pt & Pm & Pd) & Pk & Pk' & Pr).
    destruct reject; cbn [rbind].
    + eexists _, _. split; [reflexivity|]. split.
      * split; [split; [exact Pt|split; [exact Pm|split; [exact Pd|exact Hdi]]]|]. exact Pk'.
      * unfold try_post, bd_curx, bd_curdx. cbn. destruct (bd_cur1 s) eqn:Ec; repeat split; right; (split; [auto|]);
          (split; [reflexivity|]); (split; [lia|]); exists new_h; (split; [reflexivity|]); intros _; left;
          destruct Pr as (Ek & j & e & P1 & P2 & P3 & P4); exists j, e; unfold bd_curx, bd_curdx in P2; rewrite Ec in P2; auto.
    + destruct (prepare_ok kf (bd_curx s) (bd_curdx s) (bd_dt s) derivs mp (bd_diffs s) ltac:(lia) Pd Hdi Pm) as (mp' & di' & e & Ep & Hdi' & Lm').
      rewrite Ep. cbn [rbind]. destruct (ngt e (nofZ 10)) eqn:Ee; cbn [rbind].
      * eexists _, _. split; [reflexivity|]. split.
        -- split; [split; [exact Pt|split; [exact Lm'|split; [exact Pd|exact Hdi']]]|]. exact Pk'.
        -- unfold try_post, bd_curx, bd_curdx. cbn. destruct (bd_cur1 s); repeat split; right; (split; [auto|]);
          (split; [reflexivity|]); (split; [lia|]); eexists; (split; [reflexivity|]); intros _; right; eexists; (split; [exact Ee|split; [reflexivity|]]); exact (prepare_err _ _ _ _ _ _ _ _ _ _ Ep).
      * eexists _, _. split; [reflexivity|]. split.
        -- split; [split; [exact Pt|split; [exact Lm'|split; [exact Pd|exact Hdi']]]|]. exact Pk'.
        -- unfold try_post, bd_curx, bd_curdx. cbn. destruct (bd_cur1 s); repeat split; right; (split; [auto|]);
          (split; [reflexivity|]); (split; [lia|]); eexists; (split; [reflexivity|]); discriminate.
Qed.

(** do_step: never undefined behaviour; what holds after a completed step. *)
Lemma checker_cases e m n : checker_call e m n = Exc e \/ exists n', checker_call e m n = Ok n' .
Proof. unfold checker_call. destruct (Nat.leb _ _); eauto. Qed.

Lemma bsd_attempts_ok : forall fuel cnt s, bsd_inv s ->
  (bsd_attempts idx pw cfg max_dt ctrl_interp sys fuel cnt s = Exc StepAdjustment
   \/ bsd_attempts idx pw cfg max_dt ctrl_interp sys fuel cnt s = Fuel)
  \/ exists s', bsd_attempts idx pw cfg max_dt ctrl_interp sys fuel cnt s = Ok s'
       /\ bsd_inv s' /\ bd_first s' = false /\ (bd_lastrej s' = false) /\ (1 <= bd_kfinal s' <= 8)%nat.
Proof.
  induction fuel as [|fuel IH]; intros cnt s Hs; cbn [bsd_attempts]; [auto|].
  destruct (bsd_try_ok s Hs) as (s1 & ok & E & (Hz & Hk) & Hp). rewrite E. cbn [rbind].
  unfold fail_check. destruct (checker_cases StepAdjustment default_max_steps cnt) as [Ec|[n' Ec]]; rewrite Ec; cbn [rbind]; [auto|].
  assert (Hi : bsd_inv (set_first s1 false)) by (split; [exact Hz|]; split; [exact Hk|discriminate]).
  destruct ok; [|apply IH; exact Hi].
  right. eexists; split; [reflexivity|]. split; [exact Hi|]. split; [reflexivity|].
  destruct Hp as (_ & _ & _ & _ & _ & _ & [(A & B & C & _)|(A & B & C & _)]); [discriminate|]. split; [exact B|exact C].
Qed.

Lemma bsd_attempts_fuel : forall fuel cnt s, bsd_inv s -> (cnt <= 500)%nat -> (501 < fuel + cnt)%nat ->
  bsd_attempts idx pw cfg max_dt ctrl_interp sys fuel cnt s <> Fuel.
Proof.
  induction fuel as [|fuel IH]; intros cnt s Hs Hc Hf; [lia|]. cbn [bsd_attempts].
  destruct (bsd_try_ok s Hs) as (s1 & ok & E & (Hz & Hk) & Hp). rewrite E. cbn [rbind].
  unfold fail_check, checker_call, default_max_steps. destruct (Nat.leb_spec 500 cnt) as [Q|Q]; cbn [rbind]; [discriminate|].
  assert (Hi : bsd_inv (set_first s1 false)) by (split; [exact Hz|]; split; [exact Hk|discriminate]).
  destruct ok; [discriminate|]. apply IH; auto; lia.
Qed.

Lemma eval_cur_inv s : bsd_inv s -> bsd_inv (eval_cur sys s).
Proof. exact (fun H => H). Qed.

Lemma bsd_do_step_ok s : bsd_inv s ->
  bsd_do_step idx pw cfg max_dt ctrl_interp sys s = Exc StepAdjustment
  \/ exists s', bsd_do_step idx pw cfg max_dt ctrl_interp sys s = Ok s'
       /\ bsd_inv s' /\ bd_first s' = false /\ bd_lastrej s' = false /\ (1 <= bd_kfinal s' <= 8)%nat.
Proof.
  intro Hs. unfold bsd_do_step.
  set (s0 := set_tlast _ _).
  assert (H0 : bsd_inv s0) by (subst s0; destruct (bd_first s) eqn:E; exact Hs). clearbody s0.
  destruct (bsd_attempts_ok (2 + default_max_steps) 0 s0 H0) as [[E|E]|(s' & E & Hi & Hf & Hl & Hk)].
  - left. rewrite E. reflexivity.
  - exfalso. revert E. apply bsd_attempts_fuel; [exact H0|lia|unfold default_max_steps; lia].
  - right. rewrite E. cbn [rbind]. eexists; split; [reflexivity|]. split; [exact Hi|]. auto.
Qed.
End Sys.

Lemma interp_ok (diffs : list (list vec)) : okdif diffs -> forall n i theta tp out, (n + i <= 18)%nat ->
  exists v, interp_loop n i theta tp diffs out = Ok v.
Proof.
  intro Hd. induction n as [|n IH]; intros i theta tp out Hn; cbn [interp_loop]; [eauto|].
  destruct (dget_ok _ diffs i 0 _ Hd (diffs_size i ltac:(lia))) as [a Ea].
  { pose proof (half_bound i 8 ltac:(lia)). lia. }
  rewrite Ea. cbn [rbind]. apply IH. lia.
Qed.
Lemma bsd_calc_ok s t : bsd_sizes s -> (bd_kfinal s <= 8)%nat -> exists v, bsd_calc s t = Ok v.
Proof.
  intros (Lt & Lm & Hd & Hdi) Hk. unfold bsd_calc. destruct (vget_lt (bd_mp s) 0 ltac:(lia)) as [a Ha].
  rewrite (vget_nth _ _ _ Ha). cbn [rbind]. apply interp_ok; auto. lia.
Qed.
End Obj.
End D.

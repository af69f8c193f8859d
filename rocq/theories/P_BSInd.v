(** The Bulirsch-Stoer steppers as an order control driven by errors that depend
    on the arguments of try_step only (not on the contents of the buffers). *)
From Coq Require Import ZArith List Bool Arith Lia.
From Verif Require Import M_Num M_Sign M_Run M_RK M_CtrlRK M_Midpoint M_BS M_BSDense S_Midpoint P_Midpoint P_BS P_BSDense.
Import ListNotations.
Local Open Scope num_scope.
Local Open Scope res_scope.

(** *** Neville's scheme *)
Section Nev.
Context {N : Num} {I : Type}.
(** [y k]: the entries; [T k m] the m-fold extrapolated ones. *)
Fixpoint nev (q : nat -> nat) (y : nat -> vec N I) (k m : nat) : vec N I :=
  match m with
  | O => y k
  | S m' => ex_comb (ex_coeff q k (k - 1 - m')) (nev q y k m') (nev q y (k - 1) m')
  end.

Variable q : nat -> nat.
Variable y : nat -> vec N I.
Notation T := (nev q y).

(** The table and the estimate before round [k]. *)
Definition nev_inv (k : nat) (table : list (vec N I)) (out : vec N I) : Prop :=
  (0 < k)%nat -> (forall j, (j + 1 < k)%nat -> nth_error table j = Some (T (k - 1) (k - 2 - j))) /\ out = T (k - 1) (k - 1).

Lemma ex_down_nev n k : (k < n)%nat -> forall j (table : list (vec N I)), (j < k)%nat -> (k <= length table)%nat ->
  nth_error table j = Some (T k (k - 1 - j)) ->
  (forall i, (i < j)%nat -> nth_error table i = Some (T (k - 1) (k - 2 - i))) ->
  exists table', ex_down (ex_coeffs q n) k j table = Ok table' /\ length table' = length table
    /\ (forall i, (i <= j)%nat -> nth_error table' i = Some (T k (k - 1 - i)))
    /\ (forall i, (j < i)%nat -> nth_error table' i = nth_error table i).
Proof.
  intro Hn. induction j as [|j IH]; intros table Hj Hl Ht Hb; cbn [ex_down].
  - exists table. split; [reflexivity|]. split; [reflexivity|]. split; [|auto].
    intros i Hi. replace i with 0%nat by lia. exact Ht.
  - rewrite cget_ok by lia. cbn [rbind]. rewrite (vget_nth _ _ _ Ht). cbn [rbind].
    rewrite (vget_nth _ _ _ (Hb j ltac:(lia))). cbn [rbind].
    match goal with |- context [vset table j ?v] => destruct (vset_lt table j v ltac:(lia)) as (t1 & E & L & G & O) end.
    rewrite E. cbn [rbind].
    destruct (IH t1 ltac:(lia) ltac:(lia)) as (t2 & E2 & L2 & A2 & B2).
    + rewrite G. f_equal. replace (k - 1 - j)%nat with (S (k - 1 - S j)) by lia. cbn [nev].
      replace (k - 1 - (k - 1 - S j))%nat with (S j) by lia.
      replace (k - 2 - j)%nat with (k - 1 - S j)%nat by lia. reflexivity.
    + intros i Hi. rewrite O by lia. apply Hb. lia.
    + exists t2. split; [exact E2|]. split; [lia|]. split.
      * intros i Hi. destruct (Nat.eq_dec i (S j)) as [->|Q]; [|apply A2; lia].
        rewrite B2 by lia. rewrite O by lia. exact Ht.
      * intros i Hi. rewrite B2 by lia. apply O. lia.
Qed.

(** [table[k-1] = y_k; extrapolate( k , table , ... , out )]. *)
Lemma extrapolate_nev n k (table : list (vec N I)) out : (0 < k < n)%nat -> (k <= length table)%nat ->
  nev_inv k table out ->
  exists t1 t2, vset table (k - 1) (y k) = Ok t1
    /\ extrapolate (ex_coeffs q n) k t1 out = Ok (t2, T k k) /\ length t2 = length table
    /\ nev_inv (S k) t2 (T k k) /\ nth_error t2 0 = Some (T k (k - 1)).
Proof.
  intros Hk Hl Hi. destruct (Hi ltac:(lia)) as [Ha Ho].
  destruct (vset_lt table (k - 1) (y k) ltac:(lia)) as (t1 & E & L & G & O). exists t1.
  destruct (ex_down_nev n k ltac:(lia) (k - 1) t1 ltac:(lia) ltac:(lia)) as (t2 & E2 & L2 & A2 & B2).
  - rewrite G. replace (k - 1 - (k - 1))%nat with 0%nat by lia. reflexivity.
  - intros i Hi'. rewrite O by lia. apply Ha. lia.
  - exists t2. split; [exact E|].
    assert (Z : nth_error t2 0 = Some (T k (k - 1))) by (rewrite A2 by lia; do 2 f_equal; lia).
    split; [|split; [lia|split; [|exact Z]]].
    + unfold extrapolate. rewrite E2. cbn [rbind]. rewrite cget_ok by lia. cbn [rbind].
      rewrite (vget_nth _ _ _ Z). cbn [rbind]. rewrite Ho. destruct k as [|k]; [lia|].
      cbn [nev]. replace (S k - 1 - k)%nat with 0%nat by lia. replace (S k - 1)%nat with k by lia. reflexivity.
    + intros _. split.
      * intros j Hj. rewrite A2 by lia. replace (S k - 1)%nat with k by lia. replace (S k - 2 - j)%nat with (k - 1 - j)%nat by lia. reflexivity.
      * now replace (S k - 1)%nat with k by lia.
Qed.
End Nev.

(** *** The control driven by an error oracle *)
Section Oracle.
Context {N : Num}.
Variable pw : N -> N -> N.
Variable dense : bool.
Definition oracle (err : nat -> N) (k : nat) (u : unit) : res (unit * N) := Ok (tt, err k).

Section Rel.
Context {D : Type}.
Variable stage : nat -> D -> res (D * N).
Variable err : nat -> N.
Variable Inv : nat -> D -> Prop.
Hypothesis Hst : forall k d, (k <= 8)%nat -> Inv k d -> exists d' e, stage k d = Ok (d', e) /\ Inv (S k) d' /\ ((1 <= k)%nat -> e = err k).

Lemma bs_loop_oracle ko first lr dt : (2 <= ko <= 7)%nat -> (first = true -> ko <= 6)%nat ->
  forall n k d kf ho wo, (n + k = ko + 2)%nat -> (k <= ko + 1)%nat -> Inv k d ->
  length ho = 9%nat -> length wo = 9%nat ->
  exists d' kf' rej k' h,
    bs_loop pw dense (oracle err) n k ko first lr dt tt kf ho wo = Ok (tt, kf', rej, k', h)
    /\ bs_loop pw dense stage n k ko first lr dt d kf ho wo = Ok (d', kf', rej, k', h)
    /\ Inv (S kf') d'.
Proof.
  intros Hko Hf. induction n as [|n IH]; intros k d kf ho wo Hn Hk Hi Lh Lw; [lia|]. cbn [bs_loop].
  destruct (Hst k d ltac:(lia) Hi) as (d1 & e & E & H1 & He). rewrite E. unfold oracle at 1. cbn [rbind].
  destruct (Nat.eqb_spec k 0) as [->|K].
  - apply IH; auto; lia.
  - rewrite (He ltac:(lia)). destruct (calc_ok pw dense dt (err k) k ltac:(lia)) as [h Eh]. rewrite Eh. cbn [rbind].
    destruct (vset_lt ho k h ltac:(lia)) as (ho1 & E1 & L1 & _). rewrite E1. cbn [rbind].
    rewrite (vget_nth _ _ _ (bs_costs_nth (seq_of dense) k ltac:(lia))). cbn [rbind].
    destruct (vset_lt wo k (nofnat (bs_cost (seq_of dense) k) / h) ltac:(lia)) as (wo1 & E2 & L2 & _). rewrite E2. cbn [rbind].
    destruct (stage_decide_ok dense k ko first lr (err k) ho1 wo1 ltac:(lia) Hko ltac:(intro Q; specialize (Hf Q); lia) ltac:(lia) ltac:(lia))
      as (v & Ev & Hv). rewrite Ev. cbn [rbind].
    destruct v as [|r k' nh]; cbn [verdict_ok] in Hv.
    + apply IH; auto; lia.
    + eexists _, _, _, _, _. split; [reflexivity|]. split; [reflexivity|exact H1].
Qed.
End Rel.
End Oracle.

(** *** bulirsch_stoer *)
Section BS.
Context {N : Num} {I : Type}.
Variable idx : list I.
Variable pw : N -> N -> N.
Variable sys : vec N I -> N -> vec N I.
Variable cfg : err_cfg N.
Variable max_dt : N.

(** The extrapolated values and the error of round [k]. *)
Definition bs_T (x dx : vec N I) (t dt : N) : nat -> nat -> vec N I :=
  nev bs_seq (fun k => mm_val sys (bs_seq k) x dx t dt).
Definition err_of (T : nat -> nat -> vec N I) (x dx : vec N I) (dt : N) (k : nat) : N :=
  snd (checker_error idx cfg x dx (fun i => scale_sum [(nofZ 1, T k k i); (nopp (nofZ 1), T k (k - 1)%nat i)]) dt).
Definition bs_err (x dx : vec N I) (t dt : N) : nat -> N := err_of (bs_T x dx t dt) x dx dt.

Definition bs_dinv (x dx : vec N I) (t dt : N) (k : nat) (d : bs_data (N := N) (I := I)) : Prop :=
  let '(m, table, out) := d in length table = 8%nat
  /\ nev_inv bs_seq (fun k => mm_val sys (bs_seq k) x dx t dt) k table out.

Lemma bs_stage_nev x dx t dt k d : (k <= 8)%nat -> bs_dinv x dx t dt k d ->
  exists d' e, bs_stage idx sys cfg x dx t dt k d = Ok (d', e) /\ bs_dinv x dx t dt (S k) d'
    /\ ((1 <= k)%nat -> e = bs_err x dx t dt k).
Proof.
  intros Hk. destruct d as [[m table] out]. intros [L Hi]. unfold bs_stage.
  rewrite (vget_nth _ _ _ (bs_seqs_nth bs_seq k Hk)). cbn [rbind].
  pose proof (mm_step_val sys m (bs_seq k) x dx t dt ltac:(unfold bs_seq; lia)) as Hm.
  destruct (mm_step sys m (bs_seq k) x dx t dt) as [m1 yy]. cbn [snd] in Hm. subst yy.
  destruct (Nat.eqb_spec k 0) as [->|K].
  - eexists _, _. split; [reflexivity|]. split; [|lia]. split; [exact L|]. intros _.
    split; [intros; lia|]. reflexivity.
  - destruct (extrapolate_nev bs_seq (fun k => mm_val sys (bs_seq k) x dx t dt) (k_max + 1) k table out) as (t1 & t2 & E1 & E2 & L2 & H2 & Z);
      [unfold k_max; lia|lia|exact Hi|].
    rewrite E1. cbn [rbind]. unfold bs_coeff. rewrite E2. cbn [rbind]. rewrite (vget_nth _ _ _ Z). cbn [rbind].
    eexists _, _. split; [reflexivity|]. split; [|reflexivity]. split; [lia|exact H2].
Qed.

(** What the loop of try_step does. *)
Definition bs_ctl (x dx : vec N I) (t dt : N) (ko : nat) (first lr : bool) :=
  bs_run pw false (oracle (bs_err x dx t dt)) ko first lr dt tt.

Lemma bs_run_nev s x dx t dt out : bs_inv s ->
  exists kf rej k' h m' table', bs_ctl x dx t dt (bs_kopt s) (bs_first s) (bs_lastrej s) = Ok (tt, kf, rej, k', h)
    /\ bs_run pw false (bs_stage idx sys cfg x dx t dt) (bs_kopt s) (bs_first s) (bs_lastrej s) dt (bs_mm s, bs_table s, out)
       = Ok ((m', table', bs_T x dx t dt kf kf), kf, rej, k', h) /\ length table' = 8%nat.
Proof.
  intros (Hk & Hf & Hl). unfold bs_ctl, bs_run.
  assert (Hd : bs_dinv x dx t dt 0 (bs_mm s, bs_table s, out)) by (split; [exact Hl|]; intro Q; lia).
  destruct (bs_loop_oracle pw false (bs_stage idx sys cfg x dx t dt) (bs_err x dx t dt) (bs_dinv x dx t dt)
             (bs_stage_nev x dx t dt) (bs_kopt s) (bs_first s) (bs_lastrej s) dt Hk Hf (bs_kopt s + 2) 0
             (bs_mm s, bs_table s, out) 0 zeros zeros) as (d' & kf & rej & k' & h & E1 & E2 & H); auto; try lia.
  destruct d' as [[m' table'] out']. destruct H as [L H]. exists kf, rej, k', h, m', table'. split; [exact E1|].
  destruct H as [H Ho]; [lia|]. replace (S kf - 1)%nat with kf in Ho by lia. split; [|exact L].
  unfold bs_T. rewrite <- Ho. exact E2.
Qed.

Lemma bs_ctl_post (s : bs N I) x dx t dt kf rej k' h : bs_inv s ->
  bs_ctl x dx t dt (bs_kopt s) (bs_first s) (bs_lastrej s) = Ok (tt, kf, rej, k', h) ->
  loop_post pw false (fun _ => True) (fun k e => e = bs_err x dx t dt k) (bs_kopt s) dt (tt, kf, rej, k', h).
Proof.
  intros (Hk & Hf & Hl) E. unfold bs_ctl in E.
  destruct (bs_run_ok pw false (oracle (bs_err x dx t dt)) (fun _ => True) (fun k e => e = bs_err x dx t dt k))
    with (2 := Hk) (3 := Hf) (lastrej := bs_lastrej s) (dt := dt) (d := tt) as (r & Er & Hr); auto.
  - intros k d _ _. exists tt, (bs_err x dx t dt k). split; [reflexivity|auto].
  - rewrite E in Er. injection Er as <-. exact Hr.
Qed.

(** What a full try_step does. *)
Definition core_post (s : bs N I) (x dx : vec N I) (t dt : N) (s' : bs N I) (t' : N) (out : vec N I) (dt' : N) (ok : bool) : Prop :=
  let err := bs_err x dx t dt in
  (limits max_dt && less_with_sign max_dt dt dt = true /\ bs_kopt s' = bs_kopt s /\ bs_first s' = bs_first s /\ bs_lastrej s' = bs_lastrej s
     /\ bs_dtlast s' = bs_dtlast s /\ t' = t /\ dt' = max_dt /\ ok = false)
  \/ (limits max_dt && less_with_sign max_dt dt dt = false /\ bs_first s' = false /\
      (if ok then t' = t + dt else t' = t) /\ bs_lastrej s' = negb ok /\
      exists new_h lr,
        dt' = (if negb lr || less_with_sign new_h dt dt then if limits max_dt then min_abs max_dt new_h else new_h else dt) /\
        (lr = true -> bs_lastrej s = true) /\
        (if ok then (exists k, (1 <= k <= 8)%nat /\ (err k <? nofZ 1) = true /\ out = bs_T x dx t dt k k) /\
                    (exists j h0, (1 <= j <= 8)%nat /\ calc_h_opt pw false dt (err j) j = Ok h0 /\ scaled false h0 new_h)
         else exists j, (1 <= j <= 8)%nat /\ (err j <? nofZ 1) = false /\ calc_h_opt pw false dt (err j) j = Ok new_h)).

Lemma bs_core_ok s rs x dx t out dt : bs_inv s ->
  exists s' t' out' dt' ok, bs_core idx pw sys cfg max_dt s rs x dx t out dt = Ok (s', t', out', dt', ok) /\ bs_inv s'
   /\ core_post s x dx t dt s' t' out' dt' ok.
Proof.
  intro Hs. unfold bs_core. destruct (limits max_dt && less_with_sign max_dt dt dt) eqn:El.
  - eexists _, _, _, _, _. split; [reflexivity|]. split; [exact Hs|]. left. auto 10.
  - set (s1 := if rs then bs_reset s else s). set (s2 := if nneq dt (bs_dtlast s1) then bs_reset s1 else s1).
    assert (H1 : bs_inv s1) by (subst s1; destruct rs; [now apply bs_reset_inv|assumption]).
    assert (H2 : bs_inv s2) by (subst s2; destruct (nneq _ _); [now apply bs_reset_inv|assumption]).
    assert (Hlr : bs_lastrej s2 = true -> bs_lastrej s = true).
    { subst s2 s1. destruct (nneq _ _), rs; cbn; congruence. }
    clearbody s2. clear s1 H1.
    destruct (bs_run_nev s2 x dx t dt out H2) as (kf & reject & k' & new_h & m' & table' & C & Er & L).
    pose proof (bs_ctl_post s2 x dx t dt kf reject k' new_h H2 C) as (_ & Pk & Pk' & Pr).
    rewrite Er. cbn [rbind]. eexists _, _, _, _, _. split; [reflexivity|]. split.
    + unfold bs_inv; cbn. repeat split; try lia; try discriminate.
    + right. cbn. split; [exact El|]. split; [reflexivity|]. split; [destruct reject; reflexivity|].
      split; [now rewrite negb_involutive|]. exists new_h, (bs_lastrej s2).
      split; [reflexivity|]. split; [exact Hlr|].
      destruct reject; cbn [negb].
      * destruct Pr as (_ & j & e & P1 & -> & P2 & P3). eauto.
      * destruct Pr as [[e0 [-> P2]] (j & e & h0 & P3 & -> & P4 & P5)]. destruct H2 as (Hk & _ & _). split.
        -- exists kf. repeat split; auto; lia.
        -- eauto 10.
Qed.

Lemma bs_try_ok s rs x t dt : bs_inv s ->
  exists s' x' t' dt' ok, bs_try idx pw sys cfg max_dt s rs x t dt = Ok (s', x', t', dt', ok) /\ bs_inv s'
   /\ (exists out, core_post s x (sys x t) t dt s' t' out dt' ok /\ x' = if ok then out else x).
Proof.
  intro Hs. unfold bs_try, bs_try_v2.
  set (s0 := mkBs _ _ _ _ _ _ _ _). assert (H0 : bs_inv s0) by exact Hs.
  destruct (bs_core_ok s0 rs x (sys x t) t (bs_xnew s0) dt H0) as (s' & t' & out' & dt' & ok & E & Hi & Hp).
  rewrite E. cbn [rbind]. eexists _, _, _, _, _. split; [reflexivity|]. split; [exact Hi|].
  exists out'. split; [exact Hp|reflexivity].
Qed.

(** The part of the object that try_step depends on: m_current_k_opt, m_first,
    m_last_step_rejected and, except after a reset, m_dt_last. *)
Definition bs_sim (s1 s2 : bs N I) : Prop :=
  bs_kopt s1 = bs_kopt s2 /\ bs_first s1 = bs_first s2 /\ bs_lastrej s1 = bs_lastrej s2 /\
  (bs_dtlast s1 = bs_dtlast s2 \/ (bs_kopt s1 = 4%nat /\ bs_first s1 = true /\ bs_lastrej s1 = false)).

Lemma bs_sim_reset s1 s2 : bs_sim s1 s2 -> bs_sim (bs_reset s1) (bs_reset s2).
Proof. intros _. unfold bs_sim, bs_reset; cbn. auto 10. Qed.

Lemma bs_core_sim s1 s2 rs x dx t out1 out2 dt : bs_inv s1 -> bs_inv s2 -> bs_sim s1 s2 ->
  exists s1' s2' t' o1 o2 dt' ok,
    bs_core idx pw sys cfg max_dt s1 rs x dx t out1 dt = Ok (s1', t', o1, dt', ok)
    /\ bs_core idx pw sys cfg max_dt s2 rs x dx t out2 dt = Ok (s2', t', o2, dt', ok)
    /\ bs_sim s1' s2' /\ (ok = true -> o1 = o2 /\ exists kf, o1 = bs_T x dx t dt kf kf)
    /\ bs_inv s1' /\ bs_inv s2'.
Proof.
  intros H1 H2 Hv. unfold bs_core. destruct (limits max_dt && less_with_sign max_dt dt dt).
  - eexists _, _, _, _, _, _, _. split; [reflexivity|]. split; [reflexivity|]. split; [exact Hv|]. split; [discriminate|]. auto.
  - set (a1 := if rs then bs_reset s1 else s1). set (a2 := if rs then bs_reset s2 else s2).
    assert (A1 : bs_inv a1) by (subst a1; destruct rs; auto using bs_reset_inv).
    assert (A2 : bs_inv a2) by (subst a2; destruct rs; auto using bs_reset_inv).
    assert (Av : bs_sim a1 a2) by (subst a1 a2; destruct rs; [now apply bs_sim_reset|exact Hv]).
    clearbody a1 a2. clear H1 H2 Hv.
    set (b1 := if nneq dt (bs_dtlast a1) then bs_reset a1 else a1). set (b2 := if nneq dt (bs_dtlast a2) then bs_reset a2 else a2).
    assert (B1 : bs_inv b1) by (subst b1; destruct (nneq dt (bs_dtlast a1)); auto using bs_reset_inv).
    assert (B2 : bs_inv b2) by (subst b2; destruct (nneq dt (bs_dtlast a2)); auto using bs_reset_inv).
    assert (Bv : bs_kopt b1 = bs_kopt b2 /\ bs_first b1 = bs_first b2 /\ bs_lastrej b1 = bs_lastrej b2
       /\ (bs_dtlast b1 = bs_dtlast b2 \/ bs_lastrej b1 = false)).
    { destruct Av as (V1 & V2 & V3 & [V4|(W1 & W2 & W3)]).
      - subst b1 b2. rewrite V4. destruct (nneq dt (bs_dtlast a2)); cbn; auto 10.
      - subst b1 b2. destruct (nneq dt (bs_dtlast a1)), (nneq dt (bs_dtlast a2)); cbn; rewrite <- ?V1, <- ?V2, <- ?V3, ?W1, ?W2, ?W3; auto 10. }
    clearbody b1 b2. clear A1 A2 Av.
    destruct (bs_run_nev b1 x dx t dt out1 B1) as (kf & rej & k' & h & m1 & tb1 & E1 & F1 & L1).
    destruct (bs_run_nev b2 x dx t dt out2 B2) as (kf2 & rej2 & k2' & h2 & m2 & tb2 & E2 & F2 & L2).
    destruct Bv as (V1 & V2 & V3 & V4). rewrite V1, V2, V3, E2 in E1.
    injection E1 as -> -> -> ->. rewrite F1, F2. cbn [rbind]. rewrite V3.
    assert (K : (2 <= k' <= 7)%nat) by apply (bs_ctl_post b2 x dx t dt kf rej k' h B2 E2).
    eexists _, _, _, _, _, _, _. split; [reflexivity|]. split; [reflexivity|].
    split; [|split; [intros _; eauto|split; (split; [exact K|split; [discriminate|assumption]])]].
    unfold bs_sim; cbn. repeat split; auto. left. destruct V4 as [->|V4]; [reflexivity|].
    rewrite V3 in V4. rewrite V4. reflexivity.
Qed.

Lemma bs_try_sim s1 s2 rs x t dt : bs_inv s1 -> bs_inv s2 -> bs_sim s1 s2 ->
  exists s1' s2' x' t' dt' ok,
    bs_try idx pw sys cfg max_dt s1 rs x t dt = Ok (s1', x', t', dt', ok)
    /\ bs_try idx pw sys cfg max_dt s2 rs x t dt = Ok (s2', x', t', dt', ok)
    /\ bs_sim s1' s2' /\ bs_inv s1' /\ bs_inv s2'.
Proof.
  intros H1 H2 Hv. unfold bs_try, bs_try_v2.
  set (a1 := mkBs _ _ _ _ (bs_kopt s1) _ _ _). set (a2 := mkBs _ _ _ _ (bs_kopt s2) _ _ _).
  destruct (bs_core_sim a1 a2 rs x (sys x t) t (bs_xnew a1) (bs_xnew a2) dt H1 H2 Hv)
    as (s1' & s2' & t' & o1 & o2 & dt' & ok & E1 & E2 & Sv & Ho & I1 & I2).
  rewrite E1, E2. cbn [rbind].
  assert (Hx : (if ok then o1 else x) = (if ok then o2 else x)) by (destruct ok; [apply (Ho eq_refl)|reflexivity]).
  rewrite Hx. eexists _, _, _, _, _, _. split; [reflexivity|]. split; [reflexivity|].
  split; [exact Sv|split; [exact I1|exact I2]].
Qed.

End BS.

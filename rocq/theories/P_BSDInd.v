(** bulirsch_stoer_dense_out: independence of the buffers, and the repeated attempt. *)
From Coq Require Import ZArith List Bool Arith Lia FunctionalExtensionality.
From Verif Require Import M_Num M_Sign M_Run M_Checker M_RK M_CtrlRK M_Midpoint M_BS M_BSDense S_Midpoint P_Midpoint P_BS P_BSDense P_BSInd.
Import ListNotations.
Local Open Scope num_scope.
Local Open Scope res_scope.

Section D.
Context {N : Num} {I : Type}.
Notation vec := (vec N I).
Variable idx : list I.
Variable pw : N -> N -> N.
Variable cfg : err_cfg N.
Variable max_dt : N.
Variable ctrl_interp : bool.
Variable sys : vec -> N -> vec.

(** The midpoint with dense output computes the same value. *)
Lemma mmd_rounds_val x dx t h steps : forall n i xmp (derivs : list vec), (1 <= i)%nat -> (i + n = length derivs)%nat ->
  nth_error derivs (i - 1) = Some (sys (gz sys x dx t h i) (gth t h i)) ->
  exists xmp' d', mmd_rounds sys steps n i (gth t h i) h (nofZ 2 * h) (gz sys x dx t h (i - 1)) (gz sys x dx t h i) xmp derivs
      = Ok (gz sys x dx t h (i + n - 1), gz sys x dx t h (i + n), xmp', d')
    /\ length d' = length derivs /\ nth_error d' (i + n - 1) = Some (sys (gz sys x dx t h (i + n)) (gth t h (i + n))).
Proof.
  induction n as [|n IH]; intros i xmp derivs Hi Hl Hd; cbn [mmd_rounds].
  - exists xmp, derivs. rewrite Nat.add_0_r. auto.
  - rewrite (vget_nth _ _ _ Hd). cbn [rbind].
    set (x1 := fun j => scale_sum _).
    assert (Ex : x1 = gz sys x dx t h (S i)).
    { destruct i as [|i]; [lia|]. unfold x1. rewrite gz_SS. replace (S i - 1)%nat with i by lia. reflexivity. }
    change (nadd (gth t h i) h) with (gth t h (S i)).
    destruct (vset_lt derivs i (sys x1 (gth t h (S i))) ltac:(lia)) as (d1 & E & L & G & O). rewrite E. cbn [rbind].
    match goal with |- context [mmd_rounds sys steps n (S i) _ h _ _ x1 ?xm d1] => set (xm1 := xm) end.
    destruct (IH (S i) xm1 d1 ltac:(lia) ltac:(lia)) as (xmp' & d' & E2 & L2 & N2).
    { rewrite Ex in G. replace (S i - 1)%nat with i by lia. exact G. }
    replace (S i - 1)%nat with i in E2 by lia. rewrite Ex.
    replace (i + S n)%nat with (S i + n)%nat by lia.
    exists xmp', d'. split; [exact E2|]. split; [lia|exact N2].
Qed.

Lemma mmd_step_val steps (x dxdt : vec) t dt xmp derivs : (1 <= steps)%nat -> length derivs = steps ->
  exists xmp' d', mmd_step sys steps x dxdt t dt xmp derivs = Ok (mm_val sys steps x dxdt t dt, xmp', d') /\ length d' = steps.
Proof.
  intros Hs L. unfold mmd_step. set (h := dt / nofnat steps).
  set (x1 := fun j => scale_sum _). change x1 with (gz sys x dxdt t h 1).
  change (t + h) with (gth t h 1).
  destruct (vset_lt derivs 0 (sys (gz sys x dxdt t h 1) (gth t h 1)) ltac:(lia)) as (d1 & E & L1 & G & _).
  rewrite E. cbn [rbind].
  match goal with |- context [mmd_rounds sys steps _ 1 _ h _ _ _ ?xm d1] => set (xm1 := xm) end.
  destruct (mmd_rounds_val x dxdt t h steps (steps - 1) 1 xm1 d1 ltac:(lia) ltac:(lia) G) as (xmp' & d' & E2 & L2 & N2).
  change (gz sys x dxdt t h (1 - 1)) with x in E2.
  match type of E2 with ?a = _ => match goal with |- context [mmd_rounds ?q ?w ?e ?r ?y ?u ?i ?o ?p ?s ?f] => change (mmd_rounds q w e r y u i o p s f) with a end end.
  rewrite E2. cbn [rbind].
  replace (1 + (steps - 1) - 1)%nat with (steps - 1)%nat in * by lia.
  replace (1 + (steps - 1))%nat with steps in * by lia.
  rewrite (vget_nth _ _ _ N2). cbn [rbind]. exists xmp', d'. split; [reflexivity|lia].
Qed.

Definition bsd_T (x dx : vec) (t dt : N) : nat -> nat -> vec :=
  nev bsd_seq (fun k => mm_val sys (bsd_seq k) x dx t dt).
Definition bsd_err (x dx : vec) (t dt : N) : nat -> N := err_of idx cfg (bsd_T x dx t dt) x dx dt.

Definition bsd_dinv (x dx : vec) (t dt : N) (k : nat) (d : bsd_data (N := N) (I := I)) : Prop :=
  let '(table, mp, derivs, out) := d in length table = 8%nat /\ length mp = 9%nat /\ sized derivs_sizes derivs
  /\ nev_inv bsd_seq (fun k => mm_val sys (bsd_seq k) x dx t dt) k table out.

Lemma bsd_stage_nev x dx t dt k d : (k <= 8)%nat -> bsd_dinv x dx t dt k d ->
  exists d' e, bsd_stage idx cfg sys x dx t dt k d = Ok (d', e) /\ bsd_dinv x dx t dt (S k) d'
    /\ ((1 <= k)%nat -> e = bsd_err x dx t dt k).
Proof.
  intros Hk. destruct d as [[[table mp] derivs] out]. intros (L & Lm & Hd & Hi). unfold bsd_stage.
  rewrite (vget_nth _ _ _ (bs_seqs_nth bsd_seq k Hk)). cbn [rbind].
  destruct (vget_lt mp k ltac:(lia)) as [xm Hx]. rewrite (vget_nth _ _ _ Hx). cbn [rbind].
  destruct (sized_row _ _ _ _ Hd (derivs_size k Hk)) as (row & Er & Lr). rewrite (vget_nth _ _ _ Er). cbn [rbind].
  destruct (mmd_step_val (bsd_seq k) x dx t dt xm row ltac:(unfold bsd_seq; lia) Lr) as (xm' & row' & Es & Ls).
  rewrite Es. cbn [rbind].
  destruct (vset_lt mp k xm' ltac:(lia)) as (mp1 & Em & Lm1 & _). rewrite Em. cbn [rbind].
  destruct (vset_sized _ derivs k row' _ Hd (derivs_size k Hk) Ls) as (d1 & Ed & Hd1). rewrite Ed. cbn [rbind].
  destruct (Nat.eqb_spec k 0) as [->|K].
  - eexists _, _. split; [reflexivity|]. split; [|lia]. split; [exact L|]. split; [lia|]. split; [exact Hd1|].
    intros _. split; [intros; lia|]. reflexivity.
  - destruct (extrapolate_nev bsd_seq (fun k => mm_val sys (bsd_seq k) x dx t dt) (k_max + 1) k table out) as (t1 & t2 & E1 & E2 & L2 & H2 & Z);
      [unfold k_max; lia|lia|exact Hi|].
    rewrite E1. cbn [rbind]. unfold bsd_coeff. rewrite E2. cbn [rbind]. rewrite (vget_nth _ _ _ Z). cbn [rbind].
    eexists _, _. split; [reflexivity|]. split; [|reflexivity]. split; [lia|]. split; [lia|]. split; [exact Hd1|exact H2].
Qed.

(** The loop of try_step in terms of the errors. *)
Definition bsd_ctl (x dx : vec) (t dt : N) (ko : nat) (first lr : bool) :=
  bs_run pw true (oracle (bsd_err x dx t dt)) ko first lr dt tt.

Lemma bsd_run_nev s x dx t dt out : bsd_inv s ->
  exists kf rej k' h table mp derivs, bsd_ctl x dx t dt (bd_kopt s) (bd_first s) (bd_lastrej s) = Ok (tt, kf, rej, k', h)
    /\ bs_run pw true (bsd_stage idx cfg sys x dx t dt) (bd_kopt s) (bd_first s) (bd_lastrej s) dt
         (bd_table s, bd_mp s, bd_derivs s, out)
       = Ok ((table, mp, derivs, bsd_T x dx t dt kf kf), kf, rej, k', h)
    /\ length mp = 9%nat /\ sized derivs_sizes derivs.
Proof.
  intros ((Lt & Lm & Hd & Hdi) & Hk & Hf). unfold bsd_ctl, bs_run.
  assert (Hd0 : bsd_dinv x dx t dt 0 (bd_table s, bd_mp s, bd_derivs s, out)).
  { split; [exact Lt|]. split; [exact Lm|]. split; [exact Hd|]. intro Q; lia. }
  destruct (bs_loop_oracle pw true (bsd_stage idx cfg sys x dx t dt) (bsd_err x dx t dt) (bsd_dinv x dx t dt)
             (bsd_stage_nev x dx t dt) (bd_kopt s) (bd_first s) (bd_lastrej s) dt Hk Hf (bd_kopt s + 2) 0
             (bd_table s, bd_mp s, bd_derivs s, out) 0 zeros zeros) as (d' & kf & rej & k' & h & E1 & E2 & H); auto; try lia.
  destruct d' as [[[table mp] derivs] out']. destruct H as (L & Lm' & Hd' & H). exists kf, rej, k', h, table, mp, derivs.
  split; [exact E1|]. destruct H as [H Ho]; [lia|]. replace (S kf - 1)%nat with kf in Ho by lia. split; [|auto].
  unfold bsd_T. rewrite <- Ho. exact E2.
Qed.

(** What an attempt depends on. *)
Definition bsd_sim (s1 s2 : bsd N I) : Prop :=
  bd_curx s1 = bd_curx s2 /\ bd_curdx s1 = bd_curdx s2 /\ bd_t s1 = bd_t s2 /\ bd_dt s1 = bd_dt s2
  /\ bd_kopt s1 = bd_kopt s2 /\ bd_first s1 = bd_first s2 /\ bd_lastrej s1 = bd_lastrej s2.

Hypothesis NI : ctrl_interp = false.
Notation try := (bsd_try idx pw cfg max_dt ctrl_interp sys).

Lemma bsd_try_sim s1 s2 : bsd_inv s1 -> bsd_inv s2 -> bsd_sim s1 s2 ->
  exists s1' s2' ok, try s1 = Ok (s1', ok) /\ try s2 = Ok (s2', ok) /\ bsd_sim s1' s2'
   /\ bd_oldx s1' = (if nneq max_dt (nofZ 0) && less_with_sign max_dt (bd_dt s1) (bd_dt s1) then bd_oldx s1 else bd_oldx s1')
   /\ (ok = true -> bd_oldx s1' = bd_oldx s2').
Proof.
  intros H1 H2 (V1 & V2 & V3 & V4 & V5 & V6 & V7). unfold bsd_try. rewrite <- V4.
  destruct (nneq max_dt (nofZ 0) && less_with_sign max_dt (bd_dt s1) (bd_dt s1)).
  - eexists _, _, _. split; [reflexivity|]. split; [reflexivity|].
    split; [|split; [|discriminate]].
    + unfold bsd_sim, bd_curx, bd_curdx, set_old in *; cbn. repeat split; auto; destruct (bd_cur1 s1), (bd_cur1 s2); auto.
    + unfold bd_oldx, set_old; cbn. destruct (bd_cur1 s1); reflexivity.
  - destruct (bsd_run_nev s1 (bd_curx s1) (bd_curdx s1) (bd_t s1) (bd_dt s1) (bd_oldx s1) H1)
      as (kf & rej & k' & h & tb & mp & de & C1 & E1 & Lm1 & Hd1).
    destruct (bsd_run_nev s2 (bd_curx s1) (bd_curdx s1) (bd_t s1) (bd_dt s1) (bd_oldx s2) H2)
      as (kf2 & rej2 & k2' & h2 & tb2 & mp2 & de2 & C2 & E2 & Lm2 & Hd2).
    rewrite <- V1, <- V2, <- V3. rewrite E1, E2. cbn [rbind].
    rewrite V5, V6, V7, C2 in C1. injection C1 as -> -> -> ->.
    assert (Kf : (kf <= 8)%nat).
    { destruct H2 as (_ & Hk & Hf).
      destruct (bs_run_ok pw true (oracle (bsd_err (bd_curx s1) (bd_curdx s1) (bd_t s1) (bd_dt s1))) (fun _ => True) (fun k e => True))
        with (2 := Hk) (3 := Hf) (lastrej := bd_lastrej s2) (dt := bd_dt s1) (d := tt) as (r & Er & Hr); auto.
      - intros k d _ _. eexists tt, _. split; [reflexivity|auto].
      - unfold bsd_ctl in C2. rewrite C2 in Er. injection Er as <-. destruct Hr as (_ & Hr & _). lia. }
    destruct rej; cbn [rbind].
    + eexists _, _, _. split; [reflexivity|]. split; [reflexivity|]. split; [|split; [reflexivity|discriminate]].
      unfold bsd_sim, bd_curx, bd_curdx, set_old in *; cbn. rewrite V6, V7. repeat split; auto; destruct (bd_cur1 s1), (bd_cur1 s2); auto.
    + destruct (prepare_ok idx cfg ctrl_interp kf (bd_curx s1) (bd_curdx s1) (bd_dt s1) de mp (bd_diffs s1) Kf Hd1 (proj2 (proj2 (proj2 (proj1 H1)))) Lm1) as (mp1' & di1 & e1 & P1 & _).
      destruct (prepare_ok idx cfg ctrl_interp kf (bd_curx s1) (bd_curdx s1) (bd_dt s1) de2 mp2 (bd_diffs s2) Kf Hd2 (proj2 (proj2 (proj2 (proj1 H2)))) Lm2) as (mp2' & di2 & e2 & P2 & _).
      assert (Z : forall d m df m' d' e, prepare_dense_output idx cfg ctrl_interp kf (bd_curx s1) (bd_curdx s1) (bd_dt s1) d m df = Ok (m', d', e) -> e = nofZ 0).
      { intros d m df m' d' e E. unfold prepare_dense_output in E. rewrite NI in E.
        apply rbind_Ok in E. destruct E as ([mm dd] & _ & E). apply rbind_Ok in E. destruct E as (dd2 & _ & E). congruence. }
      rewrite P1, P2. cbn [rbind]. rewrite (Z _ _ _ _ _ _ P1), (Z _ _ _ _ _ _ P2).
      destruct (ngt (nofZ 0) (nofZ 10)); cbn [rbind].
      * eexists _, _, _. split; [reflexivity|]. split; [reflexivity|]. split; [|split; [reflexivity|discriminate]].
        unfold bsd_sim, bd_curx, bd_curdx, set_old in *; cbn. rewrite V6, V7. repeat split; auto; destruct (bd_cur1 s1), (bd_cur1 s2); auto.
      * eexists _, _, _. split; [reflexivity|]. split; [reflexivity|]. split; [|split; [reflexivity|]].
        -- unfold bsd_sim, bd_curx, bd_curdx, set_old in *; cbn. rewrite V6, V7. repeat split; auto; destruct (bd_cur1 s1), (bd_cur1 s2); auto.
        -- intros _. unfold bd_oldx, set_old; cbn. destruct (bd_cur1 s1), (bd_cur1 s2); reflexivity.
Qed.

(** A rejected attempt that changes neither the step size nor the flags is repeated until the
    counter throws. *)
Lemma bsd_stuck : forall fuel cnt s s1, bsd_inv s -> (cnt <= 500)%nat -> (501 < fuel + cnt)%nat ->
  bd_first s = false -> bd_lastrej s = true -> try s = Ok (s1, false) -> bd_dt s1 = bd_dt s -> bd_kopt s1 = bd_kopt s ->
  bd_lastrej s1 = true ->
  bsd_attempts idx pw cfg max_dt ctrl_interp sys fuel cnt s = Exc StepAdjustment.
Proof.
  induction fuel as [|fuel IH]; intros cnt s s1 Hi Hc Hf Hfi Hl E Ed Ek El; [lia|]. cbn [bsd_attempts].
  rewrite E. cbn [rbind]. unfold fail_check, checker_call, default_max_steps.
  destruct (Nat.leb_spec 500 cnt) as [Q|Q]; cbn [rbind]; [reflexivity|].
  destruct (bsd_try_ok idx pw cfg max_dt ctrl_interp sys (fun _ _ _ _ _ _ => True) (fun _ _ _ _ _ _ _ _ _ _ => Logic.I) s Hi) as (s' & ok & E' & (Hz & Hk) & Hp).
  rewrite E in E'. injection E' as <- <-.
  assert (Hi1 : bsd_inv (set_first s1 false)) by (split; [exact Hz|]; split; [exact Hk|discriminate]).
  destruct Hp as (P1 & P2 & P3 & P4 & P5 & P6 & _).
  assert (Sm : bsd_sim s (set_first s1 false)).
  { unfold bsd_sim. change (bd_curx (set_first s1 false)) with (bd_curx s1). change (bd_curdx (set_first s1 false)) with (bd_curdx s1).
    cbn. rewrite P1, P2, P6, Ed, Ek, El. auto 10. }
  destruct (bsd_try_sim s (set_first s1 false) Hi Hi1 Sm) as (a & b & ok & Ea & Eb & (Q1 & Q2 & Q3 & Q4 & Q5 & Q6 & Q7) & _).
  rewrite E in Ea. injection Ea as <- <-.
  apply (IH _ _ b); auto; try lia; cbn; congruence.
Qed.
End D.

(** Proofs: the ranks of a distributed controlled run stay the parts of the serial run. *)
From Coq Require Import ZArith List Bool Arith Lia Permutation.
From Verif Require Import M_Num M_Run M_Par S_Par P_Norm M_RK M_CtrlRK M_Mpi S_Mpi.
Import ListNotations.
Local Open Scope num_scope.

Section P.
Context {N : Num} {A : Type}.
Variable ok : N -> Prop.
Hypothesis Hord : norm_order N ok.
Variable np : nat.
Hypothesis Hnp : (0 < np)%nat.
Variable sz : nat -> nat.
Variable dsys : (nat -> vec N nat) -> (nat -> N) -> nat -> vec N nat.
Variable sys : vec N (nat * nat) -> N -> vec N (nat * nat).
Hypothesis Hsys : distributes np sz dsys sys.
Variable red : list N -> N.
Hypothesis Hred : reduces red.
Notation part := (part_of sz).
Notation idx := (parts_idx np sz).

Variable Q : (nat -> option A) -> Prop.
Definition good (ps : nat -> rprog N A) : Prop :=
  exists n0 out, Q out /\ forall n, (n0 <= n)%nat -> lock np dsys red n ps = Ok out.

Lemma everyone_true (test : rprog N A -> bool) ps :
  (forall r, (r < np)%nat -> test (ps r) = true) -> everyone np test ps = true.
Proof.
  intros H. unfold everyone. apply forallb_forall. intros r Hr. apply in_seq in Hr. apply H. lia.
Qed.
Lemma everyone_false (test : rprog N A -> bool) ps :
  (forall r, (r < np)%nat -> test (ps r) = false) -> everyone np test ps = false.
Proof.
  intros H. unfold everyone. destruct np as [|n]; [lia|]. cbn [seq forallb].
  rewrite H by lia. reflexivity.
Qed.

Lemma table_at (f : nat -> rprog N A) r : (r < np)%nat -> table np f r = f r.
Proof.
  intros H. unfold table. rewrite (map_nth_error f r (seq 0 np) (d := r)); [reflexivity|].
  rewrite (nth_error_nth' _ 0%nat) by (rewrite seq_length; exact H). rewrite seq_nth by exact H. reflexivity.
Qed.

Lemma good_ret ps (a : nat -> A) :
  (forall r, (r < np)%nat -> ps r = PRet (a r)) ->
  (forall out, (forall r, (r < np)%nat -> out r = Some (a r)) -> Q out) -> good ps.
Proof.
  intros H HQ. exists 1%nat, (fun r => ret_v (ps r)). split.
  - apply HQ. intros r Hr. rewrite H by exact Hr. reflexivity.
  - intros [|n] Hn; [lia|]. cbn [lock].
    rewrite everyone_true; [reflexivity|]. intros r Hr. rewrite H by exact Hr. reflexivity.
Qed.

Lemma good_sys ps (X : nat -> vec N nat) (T : nat -> N) (K : nat -> vec N nat -> rprog N A) V t :
  (forall r, (r < np)%nat -> ps r = PSys (X r) (T r) (K r)) ->
  (forall r, (r < np)%nat -> T r = t /\ part r (X r) V) ->
  (forall ps' Y, (forall r, (r < np)%nat -> part r (Y r) (sys V t)) ->
     (forall r, (r < np)%nat -> ps' r = K r (Y r)) -> good ps') ->
  good ps.
Proof.
  intros H HX HK.
  set (y := dsys (fun r => sys_x (ps r)) (fun r => sys_t (ps r))).
  destruct (HK (table np (fun r => match ps r with PSys _ _ k => k (y r) | p => p end)) y) as (n0 & out & Ho & Hn).
  - apply Hsys. intros r Hr. rewrite (H r Hr). apply HX. exact Hr.
  - intros r Hr. rewrite table_at by exact Hr. rewrite (H r Hr). reflexivity.
  - exists (S n0), out. split; [exact Ho|]. intros [|n] Hle; [lia|]. cbn [lock].
    rewrite everyone_false by (intros r Hr; rewrite (H r Hr); reflexivity).
    rewrite everyone_true by (intros r Hr; rewrite (H r Hr); reflexivity).
    apply Hn. lia.
Qed.

Lemma norm_range (I : Type) (l : list I) (v : vec N I) : norm_inf l v = range_norm (map v l).
Proof.
  unfold norm_inf, range_norm, seq_norm. generalize (nofZ (n := N) 0).
  induction l as [|i l IH]; intros a; [reflexivity|]. cbn. apply IH.
Qed.
Lemma norm_part r (v : vec N nat) V : part r v V -> norm_inf (seq 0 (sz r)) v = range_norm (N := N) (map (fun j => V (r, j)) (seq 0 (sz r))).
Proof.
  intros H. rewrite norm_range. f_equal. apply map_ext_in. intros j Hj. apply in_seq in Hj. apply H. lia.
Qed.

Lemma good_max ps (e : nat -> vec N nat) (K : nat -> N -> rprog N A) V :
  (forall r, (r < np)%nat -> ps r = PMax (seq 0 np) (norm_inf (seq 0 (sz r)) (e r)) (K r)) ->
  (forall r, (r < np)%nat -> part r (e r) V) ->
  (forall ps', (forall r, (r < np)%nat -> ps' r = K r (norm_inf idx V)) -> good ps') ->
  good ps.
Proof.
  intros H He HK.
  assert (Hv : red (map (fun q => max_v (ps q)) (seq 0 np)) = norm_inf idx V).
  { rewrite norm_range. set (ranks := map (fun r => map (fun j => V (r, j)) (seq 0 (sz r))) (seq 0 np)).
    assert (E : map (fun q => max_v (ps q)) (seq 0 np) = mpi_local ranks).
    { unfold mpi_local, ranks. rewrite map_map. apply map_ext_in. intros r Hr. apply in_seq in Hr.
      rewrite H by lia. cbn. apply norm_part. apply He. lia. }
    rewrite E.
    destruct (Hred (mpi_local ranks)) as (t & P & ->).
    { unfold mpi_local, ranks. destruct np; [lia|]. discriminate. }
    apply (mpi_norm N ok Hord ranks); [|exact P].
    unfold ranks, parts_idx. rewrite concat_map, map_map.
    apply Permutation_refl'. f_equal. apply map_ext. intros r. rewrite map_map. reflexivity. }
  destruct (HK (table np (fun r => match ps r with
                         | PMax comm _ k => k (red (map (fun q => max_v (ps q)) comm))
                         | p => p end))) as (n0 & out & Ho & Hn).
  - intros r Hr. rewrite table_at by exact Hr. rewrite (H r Hr). rewrite Hv. reflexivity.
  - exists (S n0), out. split; [exact Ho|]. intros [|n] Hle; [lia|]. cbn [lock].
    rewrite everyone_false by (intros r Hr; rewrite (H r Hr); reflexivity).
    rewrite everyone_false by (intros r Hr; rewrite (H r Hr); reflexivity).
    rewrite everyone_true by (intros r Hr; rewrite (H r Hr); reflexivity).
    apply Hn. lia.
Qed.

Definition mpart r (m : rkmem N nat) (Mm : rkmem N (nat * nat)) : Prop := forall l, part r (m l) (Mm l).

Lemma mpart_upd r m Mm l v V : mpart r m Mm -> part r v V -> mpart r (upd m l v) (upd Mm l V).
Proof. intros H Hv l'. unfold upd. destruct (loc_eqb l l'); [exact Hv|apply H]. Qed.

Lemma good_exec al p (K : nat -> rkmem N nat -> rprog N A) :
  forall m Mm ps,
  (forall r, (r < np)%nat -> mpart r (m r) Mm) ->
  (forall r, (r < np)%nat -> ps r = rexec al p (m r) (K r)) ->
  (forall m' ps', (forall r, (r < np)%nat -> mpart r (m' r) (fst (exec sys al p Mm))) ->
     (forall r, (r < np)%nat -> ps' r = K r (m' r)) -> good ps') ->
  good ps.
Proof.
  induction p as [|i p IH]; intros m Mm ps Hm Hps HK.
  - apply (HK m); [exact Hm|exact Hps].
  - assert (HK' : forall M1 c1, exec1 sys al i Mm = (M1, c1) ->
      forall m' ps', (forall r, (r < np)%nat -> mpart r (m' r) (fst (exec sys al p M1))) ->
      (forall r, (r < np)%nat -> ps' r = K r (m' r)) -> good ps').
    { intros M1 c1 E m' ps' H1 H2. apply (HK m'); [|exact H2].
      intros r Hr. cbn [exec]. rewrite E. specialize (H1 r Hr).
      destruct (exec sys al p M1). exact H1. }
    destruct i as [d ts|d s t|d s].
    + specialize (HK' _ _ eq_refl).
      apply (IH (fun r => fst (exec1 (fun x _ => x) al (ISum d ts) (m r)))
                (fst (exec1 sys al (ISum d ts) Mm))); [|exact Hps|exact HK'].
      intros r Hr. cbn. apply mpart_upd; [apply Hm, Hr|]. intros j Hj.
      f_equal. apply map_ext. intros q. f_equal. apply Hm; assumption.
    + specialize (HK' _ _ eq_refl).
      apply (good_sys ps (fun r => rd al (m r) s) (fun _ => t)
               (fun r v => rexec al p (wr al (m r) d v) (K r)) (rd al Mm s) t).
      * intros r Hr. rewrite Hps by exact Hr. reflexivity.
      * intros r Hr. split; [reflexivity|]. apply Hm, Hr.
      * intros ps' Y HY Hps'.
        apply (IH (fun r => wr al (m r) d (Y r)) (fst (exec1 sys al (ISys d s t) Mm))); [|exact Hps'|exact HK'].
        intros r Hr. cbn. apply mpart_upd; [apply Hm, Hr|apply HY, Hr].
    + specialize (HK' _ _ eq_refl).
      apply (IH (fun r => fst (exec1 (fun x _ => x) al (ICopy d s) (m r)))
                (fst (exec1 sys al (ICopy d s) Mm))); [|exact Hps|exact HK'].
      intros r Hr. cbn. apply mpart_upd; [apply Hm, Hr|]. apply Hm, Hr.
Qed.

Section Try.
Variable pw : N -> N -> N.
Variable name : rk_name.
Variable error_order stepper_order : Z.
Variable cfg : err_cfg N.
Variable max_dt : N.
Variable xcomm : nat -> list nat.

Lemma checker_part r x X dx DX xe XE dt :
  part r x X -> part r dx DX -> part r xe XE ->
  part r (fst (checker_error (seq 0 (sz r)) cfg x dx xe dt)) (fst (checker_error idx cfg X DX XE dt)).
Proof.
  intros H1 H2 H3 j Hj. cbn. rewrite (H1 j Hj), (H2 j Hj), (H3 j Hj). reflexivity.
Qed.

Lemma good_finish (K : nat -> ck N nat (rkmem N nat) -> vec N nat -> N -> N -> bool -> rprog N A)
  m Mm out Out x X dx DX xe XE t dt ps :
  (forall r, (r < np)%nat -> mpart r (m r) Mm /\ part r (out r) Out /\ part r (x r) X /\
     part r (dx r) DX /\ part r (xe r) XE) ->
  (forall r, (r < np)%nat -> ps r = rank_finish (seq 0 np) pw error_order stepper_order cfg max_dt
       (sz r) (xcomm r) (m r) (out r) (x r) (dx r) (xe r) t dt (K r)) ->
  (forall c' x' ps', let '(xerr2, err) := checker_error idx cfg X DX XE dt in
     let C' := mkCk Mm DX xerr2 Out in
     let '(X', t', dt', b) := if ngt err (nofZ 1)
       then (X, t, decrease_step pw max_dt dt err error_order, false)
       else (Out, t + dt, increase_step pw max_dt dt err stepper_order, true) in
     (forall r, (r < np)%nat -> ck_part sz r (c' r) C' /\ part r (x' r) X') ->
     (forall r, (r < np)%nat -> ps' r = K r (c' r) (x' r) t' dt' b) -> good ps') ->
  good ps.
Proof.
  intros Hp Hps HK.
  set (e := fun r => fst (checker_error (seq 0 (sz r)) cfg (x r) (dx r) (xe r) dt)).
  set (E := fst (checker_error idx cfg X DX XE dt)).
  assert (He : forall r, (r < np)%nat -> part r (e r) E).
  { intros r Hr. destruct (Hp r Hr) as (_ & _ & H1 & H2 & H3). apply checker_part; assumption. }
  apply (good_max ps e (fun r err =>
    if ngt err (nofZ 1)
    then K r (mkCk (m r) (dx r) (e r) (out r)) (x r) t (decrease_step pw max_dt dt err error_order) false
    else K r (mkCk (m r) (dx r) (e r) (out r)) (out r) (t + dt) (increase_step pw max_dt dt err stepper_order) true) E).
  - intros r Hr. rewrite Hps by exact Hr. reflexivity.
  - exact He.
  - intros ps' Hps'. specialize (HK (fun r => mkCk (m r) (dx r) (e r) (out r))).
    assert (HC : forall r, (r < np)%nat -> ck_part sz r (mkCk (m r) (dx r) (e r) (out r)) (mkCk Mm DX E Out)).
    { intros r Hr. destruct (Hp r Hr) as (H0 & H1 & H2 & H3 & H4).
      split; [exact H0|]. split; [exact H3|]. split; [apply He, Hr|exact H1]. }
    change (checker_error idx cfg X DX XE dt) with (E, norm_inf idx E) in HK. cbv iota beta zeta in HK.
    destruct (ngt (norm_inf idx E) (nofZ 1)) eqn:G.
    + apply (HK x ps').
      * intros r Hr. split; [apply HC, Hr|apply Hp, Hr].
      * exact Hps'.
    + apply (HK out ps').
      * intros r Hr. split; [apply HC, Hr|apply Hp, Hr].
      * exact Hps'.
Qed.

Lemma good_try (K : nat -> ck N nat (rkmem N nat) -> vec N nat -> N -> N -> bool -> rprog N A)
  c C x X t dt ps :
  (forall r, (r < np)%nat -> ck_part sz r (c r) C /\ part r (x r) X) ->
  (forall r, (r < np)%nat -> ps r = rank_try (seq 0 np) pw name error_order stepper_order cfg max_dt
       (sz r) (xcomm r) (c r) (x r) t dt (K r)) ->
  (forall c' x' ps', let '(C', X', t', dt', b) :=
       ck_try idx pw sys (rk_estep sys name) error_order stepper_order cfg max_dt C X t dt in
     (forall r, (r < np)%nat -> ck_part sz r (c' r) C' /\ part r (x' r) X') ->
     (forall r, (r < np)%nat -> ps' r = K r (c' r) (x' r) t' dt' b) -> good ps') ->
  good ps.
Proof.
  intros Hp Hps HK. unfold rank_try in Hps.
  eapply (good_sys ps x (fun _ => t) _ X t).
  { intros r Hr. rewrite Hps by exact Hr. reflexivity. }
  { intros r Hr. split; [reflexivity|apply Hp, Hr]. }
  intros ps' DX HDX Hps'. cbn beta in Hps'.
  unfold ck_try, ck_try_v2, ck_core in HK. cbn [ck_st ck_dxdt ck_xerr ck_xnew] in HK.
  destruct (check_step_size_limit max_dt dt).
  - assert (Hm : forall r, (r < np)%nat ->
      mpart r (upd (upd (ck_st (c r)) LIn (x r)) LDx (DX r)) (upd (upd (ck_st C) LIn X) LDx (sys X t))).
    { intros r Hr. destruct (Hp r Hr) as ((H1 & _) & H2).
      apply mpart_upd; [apply mpart_upd; [exact H1|exact H2]|apply HDX, Hr]. }
    unfold rk_estep in HK.
    destruct (rk_err_impl name (mkAlias false false) t dt) as [p|].
    + eapply (good_exec (mkAlias false false) p _ _ _ ps' Hm); [exact Hps'|].
      intros m' ps2 Hm' Hps2. cbn beta in Hps2.
      eapply (good_finish K m' (fst (exec sys (mkAlias false false) p (upd (upd (ck_st C) LIn X) LDx (sys X t))))
               (fun r => m' r LOut) _ x X DX (sys X t) (fun r => m' r LErr) _ t dt ps2);
        [|exact Hps2|].
      * intros r Hr. split; [apply Hm', Hr|]. split; [apply Hm', Hr|]. split; [apply Hp, Hr|].
        split; [apply HDX, Hr|apply Hm', Hr].
      * intros c' x' ps3. specialize (HK c' x' ps3).
        destruct (checker_error idx cfg X (sys X t)) as [xe err].
        destruct (ngt err (nofZ 1)); exact HK.
    + eapply (good_finish K (fun r => ck_st (c r)) (ck_st C) x X x X DX (sys X t) DX (sys X t) t dt ps');
        [|exact Hps'|].
      * intros r Hr. destruct (Hp r Hr) as ((H1 & _) & H2). pose proof (HDX r Hr). repeat split; assumption.
      * intros c' x' ps3. specialize (HK c' x' ps3).
        destruct (checker_error idx cfg X (sys X t)) as [xe err].
        destruct (ngt err (nofZ 1)); exact HK.
  - apply (HK (fun r => mkCk (ck_st (c r)) (DX r) (ck_xerr (c r)) (ck_xnew (c r))) x ps'); [|exact Hps'].
    intros r Hr. destruct (Hp r Hr) as ((H1 & H2 & H3 & H4) & H5). pose proof (HDX r Hr).
    repeat split; assumption.
Qed.
End Try.
End P.

Section Calls.
Context {N : Num}.
Variable ok : N -> Prop.
Hypothesis Hord : norm_order N ok.
Variable np : nat.
Hypothesis Hnp : (0 < np)%nat.
Variable sz : nat -> nat.
Variable dsys : (nat -> vec N nat) -> (nat -> N) -> nat -> vec N nat.
Variable sys : vec N (nat * nat) -> N -> vec N (nat * nat).
Hypothesis Hsys : distributes np sz dsys sys.
Variable red : list N -> N.
Hypothesis Hred : reduces red.
Variable next : list (N * N * bool) -> option N.
Variable pw : N -> N -> N.
Variable name : rk_name.
Variable error_order stepper_order : Z.
Variable cfg : err_cfg N.
Variable max_dt : N.
Variable xcomm : nat -> list nat.

Lemma good_calls n : forall h c C x X t ps,
  (forall r, (r < np)%nat -> ck_part sz r (c r) C /\ part_of sz r (x r) X) ->
  (forall r, (r < np)%nat -> ps r = rank_calls next (seq 0 np) pw name error_order stepper_order cfg max_dt
       n (sz r) (xcomm r) h (c r) (x r) t) ->
  good np dsys red (fun out => forall r, (r < np)%nat -> exists x',
      out r = Some (x', snd (serial_calls next pw name error_order stepper_order cfg max_dt
                               (parts_idx np sz) sys n h C X t)) /\
      part_of sz r x' (fst (serial_calls next pw name error_order stepper_order cfg max_dt
                               (parts_idx np sz) sys n h C X t))) ps.
Proof.
  induction n as [|n IH]; intros h c C x X t ps Hp Hps.
  - apply (good_ret np Hnp dsys red _ ps (fun r => (x r, h))); [exact Hps|].
    intros out Ho r Hr. exists (x r). split; [apply Ho, Hr|apply Hp, Hr].
  - cbn [rank_calls serial_calls] in *. destruct (next h) as [dt|].
    + eapply (good_try ok Hord np Hnp sz dsys sys Hsys red Hred _ pw name error_order stepper_order
               cfg max_dt xcomm _ c C x X t dt ps Hp); [exact Hps|].
      intros c' x' ps'.
      destruct (ck_try (parts_idx np sz) pw sys (rk_estep sys name) error_order stepper_order cfg
                  max_dt C X t dt) as [[[[C' X'] t'] dt'] b].
      intros Hp' Hps'. apply (IH _ c' C' x' X' t' ps' Hp' Hps').
    + apply (good_ret np Hnp dsys red _ ps (fun r => (x r, h))); [exact Hps|].
      intros out Ho r Hr. exists (x r). split; [apply Ho, Hr|apply Hp, Hr].
Qed.
End Calls.

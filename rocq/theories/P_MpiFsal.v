(** Proofs: as P_Mpi, for the controller around the FSAL stepper. *)
From Coq Require Import ZArith List Bool Arith Lia Permutation.
From Verif Require Import M_Num M_Run M_Par S_Par M_RK M_CtrlRK M_Mpi M_MpiFsal S_Mpi P_Mpi.
Import ListNotations.
Local Open Scope num_scope.

Section P.
Context {N : Num}.
Variable ok : N -> Prop.
Hypothesis Hord : norm_order N ok.
Variable np : nat.
Hypothesis Hnp : (0 < np)%nat.
Variable sz : nat -> nat.
Variable dsys : (nat -> vec N nat) -> (nat -> N) -> nat -> vec N nat.
Variable sys : vec N (nat * nat) -> N -> vec N (nat * nat).
Hypothesis Hsys : distributes np sz dsys sys.
Variable red : list N -> N.
Hypothesis Hred : reduces red.
Variable pw : N -> N -> N.
Variable error_order stepper_order : Z.
Variable cfg : err_cfg N.
Variable max_dt : N.
Variable xcomm : nat -> list nat.
Notation part := (part_of sz).
Notation idx := (parts_idx np sz).
Notation al := (mkAlias false false).

Section Try.
Context {A : Type}.
Variable Q : (nat -> option A) -> Prop.
Notation good := (good (A := A) np dsys red Q).

Lemma good_fbody (K : nat -> ckf N nat (rkmem N nat) -> vec N nat -> N -> N -> bool -> rprog N A)
  c C x X dx DX t dt ps :
  cf_first C = false ->
  (forall r, (r < np)%nat -> (forall l, part r (cf_st (c r) l) (cf_st C l)) /\
     part r (cf_xerr (c r)) (cf_xerr C) /\ part r (cf_xnew (c r)) (cf_xnew C) /\
     part r (cf_dxdtnew (c r)) (cf_dxdtnew C) /\ part r (x r) X /\ part r (dx r) DX) ->
  (forall r, (r < np)%nat -> ps r = rank_fbody (seq 0 np) pw error_order stepper_order cfg max_dt
       (sz r) (xcomm r) (c r) (x r) (dx r) t dt (K r)) ->
  (forall c' x' ps', let '(C2, X', dX', t', dt', b) :=
       ckf_try_v3 idx pw (dopri5_fstep sys al) error_order stepper_order cfg max_dt C X DX t dt in
     (forall r, (r < np)%nat -> ckf_part sz r (c' r)
        (mkCkf (cf_st C2) dX' (cf_xerr C2) (cf_xnew C2) (cf_dxdtnew C2) (cf_first C2)) /\ part r (x' r) X') ->
     (forall r, (r < np)%nat -> ps' r = K r (c' r) (x' r) t' dt' b) -> good ps') ->
  good ps.
Proof.
  intros HF Hp Hps HK. unfold rank_fbody in Hps.
  destruct (check_step_size_limit max_dt dt) eqn:L.
  - assert (Hm : forall r, (r < np)%nat -> mpart sz r
      (upd (upd (cf_st (c r)) LIn (x r)) LDx (dx r)) (upd (upd (cf_st C) LIn X) LDx DX)).
    { intros r Hr. destruct (Hp r Hr) as (H1 & _ & _ & _ & H2 & H3).
      apply mpart_upd; [apply mpart_upd; [exact H1|exact H2]|exact H3]. }
    eapply (good_exec np Hnp sz dsys sys Hsys red Q al (dopri5_err_prog al t dt) _ _ _ ps Hm); [exact Hps|].
    intros m' ps2 Hm' Hps2. cbn beta in Hps2.
    set (M2 := fst (exec sys al (dopri5_err_prog al t dt) (upd (upd (cf_st C) LIn X) LDx DX))) in *.
    set (e := fun r => fst (checker_error (seq 0 (sz r)) cfg (x r) (dx r) (m' r LErr) dt)).
    set (E := fst (checker_error idx cfg X DX (M2 LErr) dt)).
    assert (He : forall r, (r < np)%nat -> part r (e r) E).
    { intros r Hr. destruct (Hp r Hr) as (_ & _ & _ & _ & H2 & H3).
      apply checker_part; [exact H2|exact H3|apply Hm', Hr]. }
    apply (good_max ok Hord np Hnp sz dsys sys Hsys red Hred Q ps2 e (fun r err =>
      if ngt err (nofZ 1)
      then K r (mkCkf (m' r) (dx r) (e r) (m' r LOut) (m' r LDxOut) false) (x r) t
               (decrease_step pw max_dt dt err error_order) false
      else K r (mkCkf (m' r) (m' r LDxOut) (e r) (m' r LOut) (m' r LDxOut) false) (m' r LOut) (t + dt)
               (increase_step pw max_dt dt err stepper_order) true) E);
      [intros r Hr; rewrite Hps2 by exact Hr; reflexivity|exact He|].
    intros ps3 Hps3.
    assert (EQ : ckf_try_v3 idx pw (dopri5_fstep sys al) error_order stepper_order cfg max_dt C X DX t dt =
      if ngt (norm_inf idx E) (nofZ 1)
      then (mkCkf M2 (cf_dxdt C) E (M2 LOut) (M2 LDxOut) (cf_first C), X, DX, t,
            decrease_step pw max_dt dt (norm_inf idx E) error_order, false)
      else (mkCkf M2 (cf_dxdt C) E (M2 LOut) (M2 LDxOut) (cf_first C), M2 LOut, M2 LDxOut, t + dt,
            increase_step pw max_dt dt (norm_inf idx E) stepper_order, true)).
    { unfold ckf_try_v3, ckf_core. rewrite L.
      destruct (ngt (norm_inf idx E) (nofZ 1)) eqn:G;
        unfold dopri5_fstep, checker_error; cbv zeta beta iota;
        match goal with |- context [ngt ?a ?b] =>
          change (ngt a b) with (ngt (norm_inf idx E) (nofZ 1)) end;
        rewrite G; reflexivity. }
    rewrite EQ in HK. clear EQ.
    destruct (ngt (norm_inf idx E) (nofZ 1)).
    + apply (HK (fun r => mkCkf (m' r) (dx r) (e r) (m' r LOut) (m' r LDxOut) false) x ps3); [|exact Hps3].
      intros r Hr. destruct (Hp r Hr) as (_ & _ & _ & _ & H2 & H3). split; [|exact H2].
      split; [apply Hm', Hr|]. split; [exact H3|]. split; [apply He, Hr|].
      split; [apply Hm', Hr|]. split; [apply Hm', Hr|]. symmetry. exact HF.
    + apply (HK (fun r => mkCkf (m' r) (m' r LDxOut) (e r) (m' r LOut) (m' r LDxOut) false) (fun r => m' r LOut) ps3);
        [|exact Hps3].
      intros r Hr. split; [|apply Hm', Hr].
      split; [apply Hm', Hr|]. split; [apply Hm', Hr|]. split; [apply He, Hr|].
      split; [apply Hm', Hr|]. split; [apply Hm', Hr|]. symmetry. exact HF.
  - unfold ckf_try_v3, ckf_core in HK. rewrite L in HK.
    apply (HK (fun r => mkCkf (cf_st (c r)) (dx r) (cf_xerr (c r)) (cf_xnew (c r)) (cf_dxdtnew (c r)) false) x ps);
      [|exact Hps].
    intros r Hr. destruct (Hp r Hr) as (H1 & H2 & H3 & H4 & H5 & H6). split; [|exact H5].
    split; [exact H1|]. split; [exact H6|]. split; [exact H2|]. split; [exact H3|].
    split; [exact H4|]. symmetry. exact HF.
Qed.

Lemma good_ftry rs (K : nat -> ckf N nat (rkmem N nat) -> vec N nat -> N -> N -> bool -> rprog N A)
  c C x X t dt ps :
  (forall r, (r < np)%nat -> ckf_part sz r (c r) C /\ part r (x r) X) ->
  (forall r, (r < np)%nat -> ps r = rank_ftry (seq 0 np) pw error_order stepper_order cfg max_dt
       (sz r) (xcomm r) rs (c r) (x r) t dt (K r)) ->
  (forall c' x' ps', let '(C', X', t', dt', b) :=
       ckf_try idx pw sys (dopri5_fstep sys al) error_order stepper_order cfg max_dt rs C X t dt in
     (forall r, (r < np)%nat -> ckf_part sz r (c' r) C' /\ part r (x' r) X') ->
     (forall r, (r < np)%nat -> ps' r = K r (c' r) (x' r) t' dt' b) -> good ps') ->
  good ps.
Proof.
  intros Hp Hps HK. unfold rank_ftry in Hps. unfold ckf_try in HK.
  assert (HF : forall r, (r < np)%nat -> cf_first (c r) = cf_first C) by (intros r Hr; apply Hp, Hr).
  destruct (rs || cf_first C) eqn:EF.
  - eapply (good_sys np Hnp sz dsys sys Hsys red Q ps x (fun _ => t) _ X t).
    { intros r Hr. rewrite Hps by exact Hr. rewrite (HF r Hr), EF. reflexivity. }
    { intros r Hr. split; [reflexivity|apply Hp, Hr]. }
    intros ps' DX HDX Hps'. cbn beta in Hps'.
    eapply (good_fbody K c (ckf_init sys C X t) x X DX (sys X t) t dt ps'); [reflexivity| |exact Hps'|].
    + intros r Hr. destruct (Hp r Hr) as ((H1 & H2 & H3 & H4 & H5 & H6) & H7).
      pose proof (HDX r Hr). repeat split; assumption.
    + intros c' x' ps2. specialize (HK c' x' ps2).
      change (cf_dxdt (ckf_init sys C X t)) with (sys X t) in HK.
      destruct (ckf_try_v3 idx pw (dopri5_fstep sys al) error_order stepper_order cfg max_dt
                  (ckf_init sys C X t) X (sys X t) t dt) as [[[[[C2 X'] dX'] t'] dt'] b] eqn:E.
      exact HK.
  - apply orb_false_elim in EF. destruct EF as [ER EF].
    eapply (good_fbody K c C x X (fun r => cf_dxdt (c r)) (cf_dxdt C) t dt ps); [exact EF| | |].
    + intros r Hr. destruct (Hp r Hr) as ((H1 & H2 & H3 & H4 & H5 & H6) & H7). repeat split; assumption.
    + intros r Hr. rewrite Hps by exact Hr. rewrite (HF r Hr), ER, EF. reflexivity.
    + intros c' x' ps2. specialize (HK c' x' ps2).
      destruct (ckf_try_v3 idx pw (dopri5_fstep sys al) error_order stepper_order cfg max_dt
                  C X (cf_dxdt C) t dt) as [[[[[C2 X'] dX'] t'] dt'] b] eqn:E.
      exact HK.
Qed.
End Try.

Variable next : list (N * N * bool) -> option N.
Lemma good_fcalls rss : forall h c C x X t ps,
  (forall r, (r < np)%nat -> ckf_part sz r (c r) C /\ part r (x r) X) ->
  (forall r, (r < np)%nat -> ps r = rank_fcalls next (seq 0 np) pw error_order stepper_order cfg max_dt
       rss (sz r) (xcomm r) h (c r) (x r) t) ->
  good np dsys red (fun out => forall r, (r < np)%nat -> exists x',
      out r = Some (x', snd (serial_fcalls next pw error_order stepper_order cfg max_dt idx sys rss h C X t)) /\
      part r x' (fst (serial_fcalls next pw error_order stepper_order cfg max_dt idx sys rss h C X t))) ps.
Proof.
  induction rss as [|rs rss IH]; intros h c C x X t ps Hp Hps.
  - apply (good_ret np Hnp dsys red _ ps (fun r => (x r, h))); [exact Hps|].
    intros out Ho r Hr. exists (x r). split; [apply Ho, Hr|apply Hp, Hr].
  - cbn [rank_fcalls serial_fcalls] in *. destruct (next h) as [dt|].
    + eapply (good_ftry _ rs _ c C x X t dt ps Hp); [exact Hps|].
      intros c' x' ps'.
      destruct (ckf_try idx pw sys (dopri5_fstep sys al) error_order stepper_order cfg max_dt rs C X t dt)
        as [[[[C' X'] t'] dt'] b].
      intros Hp' Hps'. apply (IH _ c' C' x' X' t' ps' Hp' Hps').
    + apply (good_ret np Hnp dsys red _ ps (fun r => (x r, h))); [exact Hps|].
      intros out Ho r Hr. exists (x r). split; [apply Ho, Hr|apply Hp, Hr].
Qed.
End P.

(** Proofs: integrate_adaptive over ranks. *)
From Coq Require Import ZArith List Bool Arith Lia.
From Verif Require Import M_Num M_Sign M_Run M_Checker M_Par S_Par M_RK M_CtrlRK M_Controlled
  M_Mpi M_MpiFsal M_MpiInt S_Mpi S_MpiInt P_Mpi P_MpiFsal.
Import ListNotations.
Local Open Scope num_scope.

Section P.
Context {N : Num}.
Variable np : nat.
Hypothesis Hnp : (0 < np)%nat.
Variable sz : nat -> nat.
Variable dsys : (nat -> vec N nat) -> (nat -> N) -> nat -> vec N nat.
Variable red : list N -> N.
Notation part := (part_of sz).

(** The controllers of the ranks and of the serial run, and how they belong together. *)
Context {c_r C_s : Type}.
Variable cpart : nat -> c_r -> C_s -> Prop.
Variable rtry : nat -> c_r -> vec N nat -> N -> N ->
  (c_r -> vec N nat -> N -> N -> bool -> rprog N (rank_result (N := N))) -> rprog N (rank_result (N := N)).
Variable stryf : C_s -> vec N (nat * nat) -> N -> N -> C_s * vec N (nat * nat) * N * N * bool.
Hypothesis Htry : forall Q K c C x X t dt ps,
  (forall r, (r < np)%nat -> cpart r (c r) C /\ part r (x r) X) ->
  (forall r, (r < np)%nat -> ps r = rtry r (c r) (x r) t dt (K r)) ->
  (forall c' x' ps', let '(C', X', t', dt', b) := stryf C X t dt in
     (forall r, (r < np)%nat -> cpart r (c' r) C' /\ part r (x' r) X') ->
     (forall r, (r < np)%nat -> ps' r = K r (c' r) (x' r) t' dt' b) -> good np dsys red Q ps') ->
  good np dsys red Q ps.
Notation stry := (serial_try stryf).
Notation loop := (ia_loop stry rec_obs).

Lemma try_loop_eq fuel cnt C X t dt :
  try_loop stry (S fuel) cnt C tt X t dt =
  let '(C', X', t', dt', b) :=
    stryf C X t dt in
  match fail_check cnt with
  | Ok cnt1 => if b then ([], Ok (C', tt, X', t', dt')) else try_loop stry fuel cnt1 C' tt X' t' dt'
  | Exc e => ([], Exc e)
  | UB => ([], UB)
  | Fuel => ([], Fuel)
  end.
Proof.
  cbn [try_loop]. unfold serial_try at 1.
  destruct (stryf C X t dt)
    as [[[[C' X'] t'] dt'] b].
  destruct (fail_check cnt) as [cnt1|e| |]; try reflexivity.
  destruct b; [reflexivity|]. unfold bind, ret, fail. destruct (try_loop stry fuel cnt1 C' tt X' t' dt'). reflexivity.
Qed.

Lemma try_loop_trace fuel : forall cnt C X t dt, fst (try_loop stry fuel cnt C tt X t dt) = [].
Proof.
  induction fuel as [|fuel IH]; intros cnt C X t dt; [reflexivity|].
  rewrite try_loop_eq.
  destruct (stryf C X t dt)
    as [[[[C' X'] t'] dt'] b].
  destruct (fail_check cnt) as [cnt1|e| |]; try reflexivity. destruct b; [reflexivity|apply IH].
Qed.

Lemma good_attempts Q fuel K B : forall cnt c C x X t dt ps,
  (forall r, (r < np)%nat -> cpart r (c r) C /\ part r (x r) X) ->
  (forall r, (r < np)%nat -> ps r = rank_attempts (rtry r) fuel cnt (c r) (x r) t dt (K r) (B r)) ->
  match snd (try_loop stry fuel cnt C tt X t dt) with
  | Ok (C', _, X', t', dt') => forall c' x' ps',
      (forall r, (r < np)%nat -> cpart r (c' r) C' /\ part r (x' r) X') ->
      (forall r, (r < np)%nat -> ps' r = K r (c' r) (x' r) t' dt') -> good np dsys red Q ps'
  | Exc e => forall ps', (forall r, (r < np)%nat -> ps' r = B r (Exc e)) -> good np dsys red Q ps'
  | UB => forall ps', (forall r, (r < np)%nat -> ps' r = B r UB) -> good np dsys red Q ps'
  | Fuel => forall ps', (forall r, (r < np)%nat -> ps' r = B r Fuel) -> good np dsys red Q ps'
  end -> good np dsys red Q ps.
Proof.
  induction fuel as [|fuel IH]; intros cnt c C x X t dt ps Hp Hps H.
  - apply H. exact Hps.
  - rewrite try_loop_eq in H. cbn [rank_attempts] in Hps.
    assert (H1 := Htry Q _ c C x X t dt ps Hp Hps). clear Hps.
    destruct (stryf C X t dt)
      as [[[[C' X'] t'] dt'] b].
    apply H1. intros c' x' ps' Hp' Hps'. clear H1. cbn beta in Hps'.
    destruct (fail_check cnt) as [cnt1|e| |]; [|exact (H ps' Hps')|exact (H ps' Hps')|exact (H ps' Hps')].
    destruct b; [exact (H c' x' ps' Hp' Hps')|].
    exact (IH cnt1 c' C' x' X' t' dt' ps' Hp' Hps' H).
Qed.
Lemma good_ia fuel tend : forall c C x X t dt count tr TR ps,
  (forall r, (r < np)%nat -> cpart r (c r) C /\ part r (x r) X /\ Forall2 (obs_part sz r) (tr r) TR) ->
  (forall r, (r < np)%nat -> ps r = rank_ia (rtry r) fuel tend (c r) (x r) t dt count (tr r)) ->
  good np dsys red (fun out => forall r, (r < np)%nat -> exists tr' o, out r = Some (tr', o) /\
     Forall2 (obs_part sz r) tr' (TR ++ fst (loop fuel tend C tt X t dt count)) /\
     out_part sz r o (snd (loop fuel tend C tt X t dt count))) ps.
Proof.
  induction fuel as [|fuel IH]; intros c C x X t dt count tr TR ps Hp Hps.
  - eapply (good_ret np Hnp dsys red _ ps _ Hps).
    intros out Ho r Hr. eexists _, _. split; [apply Ho, Hr|]. cbn. rewrite app_nil_r.
    split; [apply Hp, Hr|exact Logic.I].
  - cbn [rank_ia ia_loop] in *.
    assert (Htr : forall r, (r < np)%nat ->
      Forall2 (obs_part sz r) (tr r ++ [(x r, t)]) (TR ++ [EObs X t])).
    { intros r Hr. apply Forall2_app; [apply Hp, Hr|]. constructor; [|constructor].
      exists X. split; [reflexivity|apply Hp, Hr]. }
    destruct (less_with_sign t tend dt).
    + unfold bind. change (rec_obs tt X t) with ([EObs X t], @Ok unit tt). cbv zeta iota beta in *.
      set (dt1 := if less_with_sign tend (t + dt) dt then tend - t else dt) in *.
      pose proof (try_loop_trace (2 + default_max_steps) 0 C X t dt1) as TT.
      eapply (good_attempts _ (2 + default_max_steps) _ _ 0 c C x X t dt1 ps);
        [intros r Hr; split; apply Hp, Hr|exact Hps|].
      destruct (try_loop stry (2 + default_max_steps) 0 C tt X t dt1) as [tr0 o0].
      cbn [fst] in TT. subst tr0. cbn [snd].
      destruct o0 as [[[[[C' []] X'] t'] dt']|e| |].
      * intros c' x' ps' Hp' Hps'.
        specialize (IH c' C' x' X' t' dt' (S count) (fun r => tr r ++ [(x r, t)]) (TR ++ [EObs X t]) ps').
        destruct (loop fuel tend C' tt X' t' dt' (S count)) as [tr1 o1].
        cbn [fst snd app] in *. rewrite <- app_assoc in IH. apply IH.
        -- intros r Hr. destruct (Hp' r Hr). split; [assumption|]. split; [assumption|apply Htr, Hr].
        -- exact Hps'.
      * intros ps' Hps'. eapply (good_ret np Hnp dsys red _ ps' _ Hps').
        intros out Ho r Hr. eexists _, _. split; [apply Ho, Hr|]. cbn.
        split; [apply Htr, Hr|reflexivity].
      * intros ps' Hps'. eapply (good_ret np Hnp dsys red _ ps' _ Hps').
        intros out Ho r Hr. eexists _, _. split; [apply Ho, Hr|]. cbn.
        split; [apply Htr, Hr|exact Logic.I].
      * intros ps' Hps'. eapply (good_ret np Hnp dsys red _ ps' _ Hps').
        intros out Ho r Hr. eexists _, _. split; [apply Ho, Hr|]. cbn.
        split; [apply Htr, Hr|exact Logic.I].
    + eapply (good_ret np Hnp dsys red _ ps _ Hps).
      intros out Ho r Hr. eexists _, _. split; [apply Ho, Hr|]. cbn.
      split; [apply Htr, Hr|]. split; [apply Hp, Hr|]. split; [reflexivity|]. split; reflexivity.
Qed.
End P.

(** Proofs: steps of explicit steppers over ranks. *)
From Coq Require Import List Arith Lia.
From Verif Require Import M_Num M_Run M_RK M_Mpi M_MpiStep S_Mpi P_Mpi.
Import ListNotations.
Local Open Scope nat_scope.

Lemma good_steps (N : Num) np (Hnp : 0 < np) sz dsys (sys : vec N (nat * nat) -> N -> vec N (nat * nat))
  red (Hsys : distributes np sz dsys sys) name l : forall m M x X h H ps,
  (forall r, r < np -> mpart sz r (m r) M /\ part_of sz r (x r) X /\ Forall2 (part_of sz r) (h r) H) ->
  (forall r, r < np -> ps r = rank_steps name l (m r) (x r) (h r)) ->
  good np dsys red (fun out => forall r, r < np -> exists v, out r = Some v /\
     Forall2 (part_of sz r) v (serial_steps name sys l M X H)) ps.
Proof.
  induction l as [|[t dt] l IH]; intros m M x X h H ps Hp Hps.
  - apply (good_ret np Hnp dsys red _ ps h Hps).
    intros out Ho r Hr. exists (h r). split; [apply Ho, Hr|apply Hp, Hr].
  - cbn [rank_steps serial_steps] in *.
    assert (Hm : forall r, r < np -> mpart sz r (upd (m r) LIn (x r)) (upd M LIn X)).
    { intros r Hr. apply mpart_upd; apply Hp, Hr. }
    eapply (good_exec np Hnp sz dsys sys Hsys red _ _ _ _ _ _ ps Hm); [exact Hps|].
    intros m' ps' Hm' Hps'.
    apply (IH m' _ (fun r => m' r LIn) _ (fun r => m' r LIn :: h r) _ ps'); [|exact Hps'].
    intros r Hr. split; [apply Hm', Hr|]. split; [apply Hm', Hr|].
    constructor; [apply Hm', Hr|apply Hp, Hr].
Qed.

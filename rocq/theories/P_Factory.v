(** make_controlled: the limit of the step. *)
From Coq Require Import ZArith List Bool Arith Lia Reals Lra.
From Verif Require Import M_Num M_Run M_RK M_CtrlRK M_Midpoint M_Adams M_AABM M_Pid M_Factory S_RK S_Adams S_AABM S_Pid
  P_R P_BS P_Adams P_AABM P_AABM2 P_CABM P_Pid.
Import ListNotations.
Local Open Scope R_scope.

Section R.
Variable eps : R.
Notation NN := (RNum eps).
Context {I : Type}.
Variable pw : R -> R -> R.
Variable at_ : R -> R.
Variable idx : list I.

Lemma pid_adj_R (cf : pid_cfg NN) (p : pid NN I) steps (dt : R) err x dxdt : rb_wf 3 (p_err p) -> rb_wf 3 (p_dt p) ->
  exists p' e' (r : R), pid_adj (N := NN) pw at_ idx cf p steps dt err x dxdt
    = (p', e', dt * pid_limit (N := NN) (pc_dtmax cf) dt r) /\ rb_wf 3 (p_err p') /\ rb_wf 3 (p_dt p').
Proof.
  intros H1 H2. destruct (adjust_ok eps pw at_ idx cf p steps dt err x dxdt H1 H2) as (e1 & e2 & d1 & d2 & p' & _ & _ & _ & _ & E & W1 & W2 & _).
  unfold pid_adj. cbv zeta in E.
  match type of E with _ = Ok (_, ?e', _) => exists p', e', (pid_growth (N := NN) at_ (norm_inf (N := NN) idx e')) end.
  split; [|split; assumption]. exact (f_equal (fun r => match r with Ok v => v | _ => (p, err, dt) end) E).
Qed.

(** Too long for the limit [m]: rejected, whatever the error. *)
Lemma limit_rejects (m dt r : R) : 0 < dt -> m < 9/10 * dt ->
  pid_limit (N := NN) m dt r < 9/10 /\ dt * pid_limit (N := NN) m dt r <= m.
Proof.
  intros Hd Hm. destruct (limit_cases eps m dt r) as [[L ->]|[L ->]].
  - split.
    + apply Rmult_lt_reg_r with dt; [exact Hd|]. unfold Rdiv at 1. rewrite Rmult_assoc, Rinv_l by lra. lra.
    + right. field. lra.
  - split; [|lra]. apply Rmult_lt_reg_r with dt; [exact Hd|]. lra.
Qed.

Variable ov : nat.
Hypothesis Hov : (1 <= ov)%nat.

Lemma made_rejects abs rel max_dt sys (s : cabm NN I (pid NN I)) x (t dt : R) :
  shape (N := NN) ov (cm_coeff s) -> length (cm_xerr s) = 4%nat -> rb_wf 3 (p_err (cm_adj s)) -> rb_wf 3 (p_dt (cm_adj s)) ->
  0 < dt -> match max_dt with Some m => m | None => 1 end < 9/10 * dt ->
  exists s' (dt' : R), made_abm_try (N := NN) ov pw at_ idx abs rel max_dt sys s x t dt = Ok (s', false, x, t, dt')
    /\ dt' <= match max_dt with Some m => m | None => 1 end.
Proof.
  intros Sh L W1 W2 Hd Hm. unfold made_abm_try.
  destruct (impl_shape (N := NN) ov Hov sys (cm_coeff s) x t dt Sh) as (c1 & out & d & e2 & log & E1 & Hs1 & _ & _).
  unfold cabm_try. rewrite E1. cbn [rbind].
  destruct (pid_adj_R (made_pid (N := NN) abs rel max_dt) (cm_adj s) (a_eo c1) dt e2 out d W1 W2) as (p' & e' & r & Ep & _ & _).
  destruct (limit_rejects (pc_dtmax (made_pid (N := NN) abs rel max_dt)) dt r Hd) as [Q1 Q2].
  { unfold made_pid. cbn [pc_dtmax]. destruct max_dt; exact Hm. }
  replace (pid_adj (N := NN) pw at_ idx (made_pid (N := NN) abs rel max_dt) (cm_adj s) (a_eo c1) dt e2 out d)
    with (p', e', dt * pid_limit (N := NN) (pc_dtmax (made_pid (N := NN) abs rel max_dt)) dt r) by (symmetry; exact Ep).
  cbv beta iota.
  destruct (vset_lt (cm_xerr s) 2 e' ltac:(lia)) as (xe & Ex & _). rewrite Ex. cbn [rbind].
  set (dt1 := (dt * pid_limit (N := NN) (pc_dtmax (made_pid (N := NN) abs rel max_dt)) dt r)%R) in *.
  replace (@nle NN (pid_threshold (N := NN)) (@ndiv NN dt1 dt)) with false.
  - eexists _, _. split; [reflexivity|]. revert Q2. unfold made_pid. cbn [pc_dtmax]. destruct max_dt; exact (fun q => q).
  - symmetry. apply Rleb_false. unfold pid_threshold, nfrac. cbn [ndiv nofZ RNum]. 
    set (q := pid_limit (N := NN) (pc_dtmax (made_pid (N := NN) abs rel max_dt)) dt r : R) in *. clearbody q. change (carrier NN) with R in *.
    apply Rle_lt_trans with q; [right; unfold dt1; field; lra|].
    exact Q1.
Qed.
End R.

(** Runs of the integrate functions with dense output steppers as sequences of calls of the stepper. *)
From Coq Require Import List Arith Lia.
From Verif Require Import M_Num M_Sign M_Run M_Dense S_Grid P_Run.
Import ListNotations.

Section Replay.
Context {N : Num} {S W X : Type}.
Notation V := (ev X (carrier N)).
Variable D : DenseOps N S W X.

(** From stepper object [s], the calls in [tr] lead to [s']; initialize gets the stepper's own state and time, an
    observation shows the stepper's state and time or what calc_state has just returned. *)
Inductive replay : S -> list V -> S -> Prop :=
| rp_nil : forall s, replay s [] s
| rp_init : forall s dt tr s', replay (d_init D s (d_x D s) (d_t D s) dt) tr s' -> replay s (EInit (d_x D s) (d_t D s) dt :: tr) s'
| rp_step : forall s w e s1 w1 tr s', d_step D s w = (e, Ok (s1, w1)) -> replay s1 tr s' -> replay s (e ++ tr) s'
| rp_seen : forall s tr s', replay s tr s' -> replay s (EObs (d_x D s) (d_t D s) :: tr) s'
| rp_calc : forall s t tr s', replay s tr s' -> replay s (ECalc t (d_calc D s t) :: EObs (d_calc D s t) t :: tr) s'.

Lemma replay_app s tr s1 : replay s tr s1 -> forall tr' s2, replay s1 tr' s2 -> replay s (tr ++ tr') s2.
Proof.
  induction 1; intros tr' s2 H2; cbn [app]; auto using rp_init, rp_seen, rp_calc.
  rewrite <- app_assoc. eapply rp_step; eauto.
Qed.

Lemma bind_inv {A B} (m : M V A) (k : A -> M V B) tr b : bind m k = (tr, Ok b) ->
  exists tr1 a tr2, m = (tr1, Ok a) /\ k a = (tr2, Ok b) /\ tr = tr1 ++ tr2.
Proof.
  unfold bind. destruct m as [tr1 [a|e| |]]; try discriminate. destruct (k a) as [tr2 r] eqn:E. intro H. inversion H; subst.
  exists tr1, a, tr2. auto.
Qed.

Ltac runs := repeat match goal with
  | H : bind _ _ = (_, Ok _) |- _ => let t1 := fresh "tr" in let a := fresh "a" in let t2 := fresh "tr" in let H1 := fresh "R" in let H2 := fresh "R" in
      apply bind_inv in H; destruct H as (t1 & a & t2 & H1 & H2 & ->)
  | H : ret _ = (_, Ok _) |- _ => unfold ret in H; injection H; clear H; intros; subst
  | H : rec_obs _ _ _ = (_, Ok _) |- _ => unfold rec_obs in H; injection H; clear H; intros; subst
  | H : call_calc _ _ _ = (_, Ok _) |- _ => unfold call_calc in H; injection H; clear H; intros; subst
  | H : reinit_to _ _ _ = (_, Ok _) |- _ => unfold reinit_to, call_init in H; injection H; clear H; intros; subst
  | H : fail _ = (_, Ok _) |- _ => discriminate H
  | H : (let (_, _) := ?a in _) = (_, Ok _) |- _ => destruct a
  end.

Lemma step_one s w e s1 w1 : d_step D s w = (e, Ok (s1, w1)) -> replay s e s1.
Proof. intro H. rewrite <- (app_nil_r e). eapply rp_step; [exact H|apply rp_nil]. Qed.

(** integrate_adaptive. *)
Lemma iad_inner_replay : forall fuel tend s w c tr s' w' c', iad_inner D rec_obs fuel tend s w c = (tr, Ok (s', w', c')) -> replay s tr s'.
Proof.
  induction fuel as [|fuel IH]; intros tend s w c tr s' w' c' H; cbn [iad_inner] in H; [discriminate|].
  destruct (less_eq_with_sign _ _ _); runs; [|apply rp_nil].
  cbn [app]. apply rp_seen. eapply rp_step; eauto.
Qed.
Lemma iad_outer_replay : forall fuel tend s w c tr s' w' c', iad_outer D rec_obs fuel tend s w c = (tr, Ok (s', w', c')) -> replay s tr s'.
Proof.
  induction fuel as [|fuel IH]; intros tend s w c tr s' w' c' H; cbn [iad_outer] in H; [discriminate|].
  destruct (less_with_sign _ _ _); runs; [|apply rp_nil].
  eapply replay_app; [eapply iad_inner_replay; eassumption|]. cbn [app]. apply rp_init. eapply IH; eassumption.
Qed.
Theorem adaptive_replay fuel s w x t0 tend dt tr s' w' x' n :
  integrate_adaptive_dense D rec_obs fuel s w x t0 tend dt = (tr, Ok (s', w', x', n)) ->
  exists tr1, tr = EInit x t0 dt :: tr1 /\ replay (d_init D s x t0 dt) tr1 s'.
Proof.
  unfold integrate_adaptive_dense. intro H. runs. unfold call_init in *.
  match goal with H : (_, _) = (_, Ok _) |- _ => injection H; clear H; intros; subst end.
  cbn [app]. eexists. split; [reflexivity|].
  eapply replay_app; [eapply iad_outer_replay; eassumption|]. apply rp_seen, rp_nil.
Qed.

(** integrate_times. *)
Lemma itd_obs_replay : forall times s w x tr ts' w' x', itd_obs D rec_obs times s w x = (tr, Ok (ts', w', x')) -> replay s tr s.
Proof.
  induction times as [|t times IH]; intros s w x tr ts' w' x' H; cbn [itd_obs] in H; runs; [apply rp_nil|].
  destruct (less_eq_with_sign _ _ _); runs; [|apply rp_nil].
  cbn [app]. apply rp_calc. eapply IH; eassumption.
Qed.
Lemma itd_loop_replay : forall fuel last times s w x c tr s' w' x' c', itd_loop D rec_obs fuel last times s w x c = (tr, Ok (s', w', x', c')) -> replay s tr s'.
Proof.
  induction fuel as [|fuel IH]; intros lst times s w x c tr s' w' x' c' H; cbn [itd_loop] in H; [discriminate|].
  destruct times as [|t times]; runs; [apply rp_nil|].
  eapply replay_app; [eapply itd_obs_replay; eassumption|].
  destruct (less_eq_with_sign _ _ _); runs.
  - eapply rp_step; eauto.
  - match goal with H : (match ?l with _ => _ end) = _ |- _ => destruct l end; runs.
    + eapply IH; eassumption.
    + cbn [app]. apply rp_init. eapply rp_step; eauto.
Qed.
Theorem times_replay fuel s w x t0 times dt tr s' w' x' n :
  integrate_times_dense D rec_obs fuel s w x (t0 :: times) dt = (tr, Ok (s', w', x', n)) ->
  d_x D (d_init D s x t0 dt) = x -> d_t D (d_init D s x t0 dt) = t0 ->
  exists tr1, tr = EInit x t0 dt :: tr1 /\ replay (d_init D s x t0 dt) tr1 s'.
Proof.
  unfold integrate_times_dense. intros H Hx Ht. runs. unfold call_init in *.
  match goal with H : (_, _) = (_, Ok _) |- _ => injection H; clear H; intros; subst end.
  cbn [app]. eexists. split; [reflexivity|]. apply itd_loop_replay in R2.
  set (s1 := d_init D s x t0 dt) in *. clearbody s1. subst x t0. apply rp_seen. exact R2.
Qed.

(** integrate_n_steps. *)
Lemma insd_obs_replay : forall fuel t0 dt s w x time k tr r, insd_obs D rec_obs fuel t0 dt s w x time k = (tr, Ok r) -> replay s tr s.
Proof.
  induction fuel as [|fuel IH]; intros t0 dt s w x time k tr r H; cbn [insd_obs] in H; [discriminate|].
  destruct (less_with_sign _ _ _); runs; [|apply rp_nil].
  cbn [app]. apply rp_calc. eapply IH; eassumption.
Qed.
Lemma insd_loop_replay : forall fuel t0 tend dt n s w x time k tr s' w' x' t', insd_loop D rec_obs fuel t0 tend dt n s w x time k = (tr, Ok (s', w', x', t')) -> replay s tr s'.
Proof.
  induction fuel as [|fuel IH]; intros t0 tend dt n s w x time k tr s' w' x' t' H; cbn [insd_loop] in H; [discriminate|].
  destruct (Nat.ltb k n); runs; [|apply rp_nil].
  eapply replay_app; [eapply insd_obs_replay; eassumption|].
  match goal with H : insd_loop _ _ _ _ _ _ _ _ _ _ _ _ = _ |- _ => apply IH in H end.
  eapply replay_app; [|eassumption].
  destruct (less_with_sign (nadd _ _) _ _); [eapply step_one; eassumption|].
  destruct (less_with_sign _ _ _); runs; [|apply rp_nil].
  cbn [app]. apply rp_init. eapply step_one; eassumption.
Qed.
Lemma insd_final_replay : forall fuel tend s w tr s' w', insd_final D fuel tend s w = (tr, Ok (s', w')) -> replay s tr s'.
Proof.
  induction fuel as [|fuel IH]; intros tend s w tr s' w' H; cbn [insd_final] in H; [discriminate|].
  match type of H with (if ?b then _ else _) = _ => destruct b end; runs; [|apply rp_nil].
  destruct (less_with_sign _ _ _); runs; cbn [app]; [apply rp_init|]; (eapply rp_step; [eassumption|eapply IH; eassumption]).
Qed.
Theorem n_steps_replay fuel s w x t0 dt n tr s' w' x' tm :
  integrate_n_steps_dense D rec_obs fuel s w x t0 dt n = (tr, Ok (s', w', x', tm)) ->
  exists tr1, tr = EInit x t0 dt :: tr1 ++ [EObs (d_x D s') (nadd t0 (nmul (nofnat n) dt))] /\ replay (d_init D s x t0 dt) tr1 s'.
Proof.
  unfold integrate_n_steps_dense. intro H. runs. unfold call_init in *.
  match goal with H : (_, _) = (_, Ok _) |- _ => injection H; clear H; intros; subst end.
  cbn [app]. eexists. split; [rewrite app_assoc; reflexivity|].
  eapply replay_app; [eapply insd_loop_replay; eassumption|eapply insd_final_replay; eassumption].
Qed.
End Replay.

(** integrate_adaptive calls calc_state nowhere. *)
Section NoCalc.
Context {N : Num} {S W X : Type}.
Variable D : DenseOps N S W X.
Hypothesis Dstep : forall s w e r, d_step D s w = (e, r) -> calcs_of e = [].

Lemma calcs_app (a b : list (ev X (carrier N))) : calcs_of (a ++ b) = calcs_of a ++ calcs_of b.
Proof. apply flat_map_app. Qed.

Ltac runs := repeat match goal with
  | H : bind _ _ = (_, Ok _) |- _ => let t1 := fresh "tr" in let a := fresh "a" in let t2 := fresh "tr" in let H1 := fresh "R" in let H2 := fresh "R" in
      apply bind_inv in H; destruct H as (t1 & a & t2 & H1 & H2 & ->)
  | H : ret _ = (_, Ok _) |- _ => unfold ret in H; injection H; clear H; intros; subst
  | H : rec_obs _ _ _ = (_, Ok _) |- _ => unfold rec_obs in H; injection H; clear H; intros; subst
  | H : reinit_to _ _ _ = (_, Ok _) |- _ => unfold reinit_to, call_init in H; injection H; clear H; intros; subst
  | H : call_init _ _ _ _ _ = (_, Ok _) |- _ => unfold call_init in H; injection H; clear H; intros; subst
  | H : (let (_, _) := ?a in _) = (_, Ok _) |- _ => destruct a
  end.

Lemma iad_inner_nocalc : forall fuel tend s w c tr r, iad_inner D rec_obs fuel tend s w c = (tr, Ok r) -> calcs_of tr = [].
Proof.
  induction fuel as [|fuel IH]; intros tend s w c tr r H; cbn [iad_inner] in H; [discriminate|].
  destruct (less_eq_with_sign _ _ _); runs; [|reflexivity].
  rewrite !calcs_app. match goal with A : d_step _ _ _ = _, B : iad_inner _ _ _ _ _ _ _ = _ |- _ => rewrite (Dstep _ _ _ _ A), (IH _ _ _ _ _ _ B) end. reflexivity.
Qed.
Lemma iad_outer_nocalc : forall fuel tend s w c tr r, iad_outer D rec_obs fuel tend s w c = (tr, Ok r) -> calcs_of tr = [].
Proof.
  induction fuel as [|fuel IH]; intros tend s w c tr r H; cbn [iad_outer] in H; [discriminate|].
  destruct (less_with_sign _ _ _); runs; [|reflexivity].
  rewrite !calcs_app. match goal with A : iad_inner _ _ _ _ _ _ _ = _, B : iad_outer _ _ _ _ _ _ _ = _ |- _ => rewrite (iad_inner_nocalc _ _ _ _ _ _ _ A), (IH _ _ _ _ _ _ B) end. reflexivity.
Qed.
Theorem adaptive_nocalc fuel s w x t0 tend dt tr r :
  integrate_adaptive_dense D rec_obs fuel s w x t0 tend dt = (tr, Ok r) -> calcs_of tr = [].
Proof.
  unfold integrate_adaptive_dense. intro H. runs. rewrite !calcs_app.
  match goal with A : iad_outer _ _ _ _ _ _ _ = _ |- _ => rewrite (iad_outer_nocalc _ _ _ _ _ _ _ A) end. reflexivity.
Qed.
End NoCalc.

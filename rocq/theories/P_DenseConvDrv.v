(** The integrate functions with the dense output stepper of dopri5 along a solution. *)
From Coq Require Import List Arith ZArith Reals Lia Lra.
From Verif Require Import M_Num M_Sign M_Run M_Checker M_RK S_RK P_RK M_CtrlRK M_Dense M_DenseRK S_DenseRK S_Grid S_Real S_Dense S_Ctrl S_CtrlRK S_Conv S_BSeries
  P_R P_PlainR P_CtrlRKR P_RKNamed P_RKAll P_Integrate P_DenseRK P_DenseRef P_DenseRKR P_DenseRKX P_Conv P_ConvRun P_ConvOrd P_DenseConv P_DenseConvRun P_DenseReplay.
Import ListNotations.
Local Open Scope R_scope.

Section Drv.
Variable eps : R.
Hypothesis eps0 : 0 <= eps.
Notation NN := (RNum eps).
Context {I W : Type}.
Variable idx : list I.
Variable sys : vec NN I -> NN -> vec NN I.
Variable eo so : Z.
Hypothesis Heo : (2 <= eo)%Z.
Hypothesis Hso : (1 <= so)%Z.
Variable cfg : err_cfg NN.
Notation ftry := (dopri5_ftry (N := NN) sys idx (rpow : NN -> NN -> NN) eo so cfg (0%R : NN)).
Notation obj := (drf NN I (rkmem NN I * vec NN I)).
Notation tb := (tab_of (N := NN) rk_dopri5).
Notation step := (df_step sys ftry).
Notation calc := (df_calc (dopri5_fcalc (N := NN))).
Notation ops := (df_ops sys ftry (dopri5_fcalc (N := NN)) W).

Variable T : R -> Prop.
Hypothesis Tconv : forall s u c, T s -> T u -> 0 <= c <= 1 -> T (s + c * (u - s)).
Variables L H E : R.
Hypothesis HL0 : 0 <= L.
Hypothesis HH0 : 0 <= H.
Hypothesis HE0 : 0 <= E.
Hypothesis HL : lipschitz T L sys.
Variable y : R -> I -> R.
Hypothesis Hcon : consistent tb sys y T H E 5.
Hypothesis Hden : forall t h ks, T t -> T (t + h) -> Rabs h <= H -> rk_stages_R eps tb sys (y t) t h ks ->
  forall th i, 0 <= th <= 1 -> Rabs (y t i + h * wsum (dense_weights th) ks i - y (t + th * h) i) <= E * Rabs h ^ 5.
Variable hm : R.
Hypothesis Hhm : 0 <= hm <= H.
Notation bound := (bound eps L H E hm).
Notation dbound := (dbound eps L H E hm).
Variables sg t0 d : R.
Hypothesis Hsg : sg = 1 \/ sg = -1.
Hypothesis Hd : 0 <= d.

(** The stepper's own state, and its interpolant on the interval [a,b], follow the solution. *)
Definition on_track (o : obj) : Prop :=
  sound eps sys (abs o) /\ T (df_t o) /\ 0 <= sg * (df_t o - t0)
  /\ forall j, Rabs (df_current o j - y (df_t o) j) <= bound d (Rabs (df_t o - t0)).
Definition interpolates (o : obj) (a b : R) : Prop :=
  forall u i, 0 <= sg * (u - a) -> sg * (u - b) <= 0 -> Rabs (calc o u i - y u i) <= dbound d (Rabs (u - t0)).

Lemma step_track (o o1 : obj) : on_track o -> step o = (o1, Ok tt) ->
  0 < sg * (df_t o1 - df_told o1) -> df_told o1 = df_t o -> T (df_t o1) -> Rabs (df_t o1 - df_told o1) <= hm ->
  on_track o1 /\ interpolates o1 (df_told o1) (df_t o1).
Proof.
  intros (Hs & Ht & Hp & Hx) Est Hq Et Ht1 Hh. rewrite Et in *.
  pose proof (abs_step sys ftry o) as A. rewrite Est in A. cbn [fst snd] in A.
  assert (Hdt : (df_dt o : R) <> 0).
  { intro Z. pose proof (step_zero eps idx sys eo so cfg (abs o) (abs o1) Z A) as Q. cbn [abs f_t] in Q.
    change (carrier NN) with R in *. rewrite Q in Hq. rewrite Rminus_diag_eq in Hq by reflexivity. lra. }
  assert (Ha : agrees (df_dt o) 0) by (left; reflexivity).
  destruct (step_sound eps eps0 idx sys eo so Heo Hso cfg 0 (abs o) (abs o1) Hs Hdt Ha A) as (S1 & _).
  set (a := Rabs (df_t o - t0)) in *. pose proof (Rabs_pos (df_t o - t0)) as Pa. fold a in Pa.
  assert (Pe : 0 <= bound d a) by (apply bound_pos; auto).
  destruct (do_step_acc eps eps0 idx sys eo so Heo Hso cfg 0 T Tconv L H E HL0 HH0 HE0 HL y Hcon Hden hm Hhm
     o o1 (bound d a) Hs Hdt Ha Est Pe Ht Ht1 Hh Hx) as (_ & B1 & B2).
  set (b := df_t o1 - df_t o) in *. change (carrier NN) with R in *.
  assert (Ab : Rabs b = sg * b) by (apply sg_abs; auto; lra).
  assert (Aa : a = sg * (df_t o - t0)) by (apply sg_abs; auto).
  split.
  - split; [exact S1|]. split; [exact Ht1|]. 
    assert (P2 : 0 <= sg * (df_t o1 - t0)) by (unfold b in *; lra). split; [exact P2|].
    intro j. eapply Rle_trans; [apply B1|].
    replace (Rabs (df_t o1 - t0)) with (a + Rabs b) by (rewrite (sg_abs sg Hsg _ P2), Ab, Aa; unfold b; ring).
    unfold bound. apply gronwall; auto using Rabs_pos.
    + exact (g_pos eps L H HL0 HH0).
    + exact (C_pos H E HE0 hm Hhm).
  - intros u i Hu1 Hu2. set (c := (u - df_t o) / b).
    assert (Nb : b <> 0) by (intro Z; rewrite Z in Hq; lra).
    assert (Hc : 0 <= c <= 1).
    { assert (Ec : c = (sg * (u - df_t o)) / (sg * b)) by (unfold c; field; split; [exact Nb|destruct Hsg; lra]).
      assert (Pw : 0 < sg * b) by exact Hq. set (w := sg * b) in *. set (v := sg * (u - df_t o)) in *.
      rewrite Ec. split; [apply Rmult_le_pos; [exact Hu1|apply Rlt_le, Rinv_0_lt_compat, Pw]|].
      apply (Rmult_le_reg_r w); [exact Pw|]. unfold Rdiv. rewrite Rmult_assoc, Rinv_l, Rmult_1_l, Rmult_1_r by lra. unfold v, w, b in *. lra. }
    specialize (B2 c i Hc). cbv zeta in B2.
    assert (Eu : df_t o + c * b = u) by (unfold c; field; exact Nb). rewrite Eu in B2.
    eapply Rle_trans; [exact B2|]. unfold P_DenseConvRun.dbound. apply Rplus_le_compat_r.
    pose proof (G_pos eps L H HL0 HH0) as PG. apply Rmult_le_compat_l.
    { assert (0 <= H * dense_growth (eps := eps) L H) by now apply Rmult_le_pos. lra. }
    apply (bound_mono eps L H E HL0 HH0 HE0 hm Hhm); [lra|]. split; [exact Pa|].
    rewrite Aa, (sg_abs sg Hsg (u - t0)); lra.
Qed.

(** The interval of the last step. *)
Definition iv_ok (iv : option (R * R)) (o : obj) : Prop :=
  match iv with None => True | Some (a, b) => interpolates o a b end.

Theorem replay_track : forall (o : obj) tr o1, replay ops o tr o1 -> forall iv b,
  on_track o -> iv_ok iv o -> adjacent sg (df_t o) (dos_of tr) b -> valid_calcs sg 0 iv tr ->
  Forall (fun p => T (snd p) /\ Rabs (snd p - fst p) <= hm) (dos_of tr) ->
  on_track o1 /\ forall x u, In (x, u) (obs_of tr) -> forall i, Rabs (x i - y u i) <= dbound d (Rabs (u - t0)).
Proof.
  assert (DB : forall a, 0 <= a -> bound d a <= dbound d a).
  { intros a Pa. unfold P_DenseConvRun.dbound. pose proof (bound_pos eps L H E HE0 hm Hhm d a Hd Pa) as P1.
    pose proof (C_pos H E HE0 hm Hhm) as PC. pose proof (G_pos eps L H HL0 HH0) as PG.
    assert (0 <= H * dense_growth (eps := eps) L H) by now apply Rmult_le_pos.
    assert (0 <= (H * dense_growth (eps := eps) L H) * bound d a) by now apply Rmult_le_pos. lra. }
  induction 1 as [o|o dt tr o1 Hr IH|o w e o2 w2 tr o1 Hst Hr IH|o tr o1 Hr IH|o t tr o1 Hr IH]; intros iv b HG Hiv Hadj Hv Hall.
  - split; [exact HG|]. intros x u [].
  - cbn [dos_of flat_map obs_of app] in *. refine (IH None b _ Logic.I _ Hv Hall).
    + destruct HG as (G1 & G2 & G3 & G4). unfold on_track. cbn [d_init d_x d_t df_ops]. rewrite abs_init.
      unfold df_init. destruct (df_cur o); (split; [discriminate|]); cbn [df_t]; auto.
    + cbn [d_init d_t df_ops]. unfold df_init. destruct (df_cur o); exact Hadj.
  - cbn [d_step df_ops] in Hst. destruct (step o) as [o3 [[]|e0| |]] eqn:Est; try discriminate.
    injection Hst as <- <- <-. cbn [app dos_of flat_map obs_of valid_calcs adjacent] in *.
    destruct Hadj as (A1 & A2 & A3). pose proof (Forall_inv Hall) as [T1 T2]. pose proof (Forall_inv_tail Hall) as Hall'.
    cbn [fst snd] in T1, T2.
    destruct (step_track o o3 HG Est A2 A1 T1 T2) as [G1 G2].
    exact (IH (Some (df_told o3, df_t o3)) b G1 G2 A3 Hv Hall').
  - cbn [d_x d_t df_ops] in *. cbn [dos_of flat_map obs_of app valid_calcs] in *.
    destruct (IH iv b HG Hiv Hadj Hv Hall) as [G1 G2]. split; [exact G1|].
    intros x u [Q|Q] i; [|exact (G2 x u Q i)]. injection Q as <- <-.
    destruct HG as (_ & _ & _ & HX). eapply Rle_trans; [apply HX|]. apply DB, Rabs_pos.
  - cbn [d_calc df_ops] in *. cbn [dos_of flat_map obs_of app valid_calcs] in *. destruct Hv as [Hv1 Hv].
    destruct (IH iv b HG Hiv Hadj Hv Hall) as [G1 G2]. split; [exact G1|].
    intros x u [Q|Q] i; [|exact (G2 x u Q i)]. injection Q as <- <-.
    destruct iv as [[p q]|]; [|contradiction]. destruct Hv1 as [V1 V2]. apply Hiv; lra.
Qed.

(** The last state reached is the stepper's. *)
Lemma replay_reached : forall (o : obj) tr o1, replay ops o tr o1 ->
  last (reached_of tr) (df_current o, df_t o) = (df_current o1, df_t o1).
Proof.
  assert (LC : forall A (l : list A) a b, last (a :: l) b = last l a).
  { clear. intros A l. induction l as [|c l IH]; intros a b; [reflexivity|]. change (last (c :: l) b = last (c :: l) a). now rewrite (IH c b), (IH c a). }
  induction 1 as [o|o dt tr o1 Hr IH|o w e o2 w2 tr o1 Hst Hr IH|o tr o1 Hr IH|o t tr o1 Hr IH]; try exact IH.
  - reflexivity.
  - cbn [reached_of flat_map app]. rewrite <- IH. cbn [d_init d_x d_t df_ops]. unfold df_init. destruct (df_cur o) eqn:Ec; cbn [df_t]; unfold df_current; cbn; rewrite Ec; reflexivity.
  - cbn [d_step df_ops] in Hst. destruct (step o) as [o3 [[]|e0| |]] eqn:Est; try discriminate.
    injection Hst as <- <- <-. cbn [app reached_of flat_map]. rewrite LC. exact IH.
Qed.
End Drv.

Lemma nocalc_valid {X : Type} sg slack : forall (tr : list (ev X R)) iv, calcs_of tr = [] -> valid_calcs sg slack iv tr.
Proof. induction tr as [|e tr IH]; intros iv Hc; [exact Logic.I|]. destruct e; cbn [valid_calcs]; try (apply IH; exact Hc). discriminate. Qed.

(** The steps of a run follow each other without gaps. *)
Section Chain.
Context {eps : R} {I W : Type}.
Notation NN := (RNum eps).
Variable sys : vec NN I -> NN -> vec NN I.
Context {C : Type}.
Variable ftry : C -> vec NN I -> vec NN I -> NN -> vec NN I -> vec NN I -> NN -> C * vec NN I * vec NN I * NN * NN * bool.
Variable fcalc : C -> NN -> vec NN I -> vec NN I -> NN -> vec NN I -> vec NN I -> NN -> vec NN I.

Lemma replay_adjacent sg : forall (o : drf NN I C) tr o1, replay (df_ops sys ftry fcalc W) o tr o1 ->
  strictly_mono sg ((df_t o : R) :: map snd (reached_of tr)) -> exists b, adjacent sg (df_t o) (dos_of tr) b.
Proof.
  induction 1 as [o|o dt tr o1 Hr IH|o w e o2 w2 tr o1 Hst Hr IH|o tr o1 Hr IH|o t tr o1 Hr IH]; try exact IH.
  - intros _. exists (df_t o). reflexivity.
  - cbn [d_init d_x d_t df_ops] in *. cbn [reached_of flat_map dos_of app].
    assert (Et : df_t (df_init o (df_current o) (df_t o) dt) = df_t o) by (unfold df_init; destruct (df_cur o); reflexivity).
    rewrite Et in IH. exact IH.
  - cbn [d_step df_ops] in Hst. destruct (df_step sys ftry o) as [o3 [[]|e0| |]] eqn:Est; try discriminate.
    injection Hst as <- <- <-. cbn [app reached_of flat_map dos_of map snd]. intros [H1 H2].
    destruct (IH H2) as [b Hb]. exists b. destruct (df_step_told sys ftry o o3 Est) as [Et _].
    cbn [adjacent]. rewrite Et. split; [reflexivity|]. split; [exact H1|exact Hb].
Qed.
End Chain.

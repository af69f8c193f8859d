(** Every step of the steppers built by make_dense_output. *)
From Coq Require Import ZArith List Bool Lia Arith Reals Lra.
From Verif Require Import M_Num M_Sign M_Run M_Checker M_RK S_RK P_RK M_CtrlRK M_Dense M_DenseRK M_Integrate M_LU M_Implicit M_MakeDense S_DenseRK P_Det
  S_Grid S_Real S_Dense S_Ctrl S_CtrlRK S_Integrate P_R P_CtrlRK P_CtrlRKR P_CtrlRKT P_CtrlRKN P_RosR P_RKR P_RKNamed P_RKDense P_DenseRK P_DenseRef
  P_DenseRKR P_DenseRKX P_DenseReplay P_DenseConvRun P_DenseConvDrv P_Integrate.
Import ListNotations.
Local Open Scope R_scope.

Section Dopri5.
Variable eps : R.
Hypothesis eps0 : 0 <= eps.
Notation NN := (RNum eps).
Context {I : Type}.
Variable idx : list I.
Variable sys : vec NN I -> NN -> vec NN I.
Variables abs_e rel_e : R.
Hypothesis Habs : 0 < abs_e.
Hypothesis Hrel : 0 <= rel_e.
Variable lim : R.
Notation eo := (Z.of_nat (rk_error_order rk_dopri5)).
Notation so := (Z.of_nat (rk_order rk_dopri5)).
Notation cfg := (made_cfg (N := NN) abs_e rel_e).
Notation ftry := (dopri5_ftry (N := NN) sys idx (rpow : NN -> NN -> NN) eo so cfg (lim : NN)).
Notation obj := (fv NN I (rkmem NN I * vec NN I)).
Notation tb := (tab_of (N := NN) rk_dopri5).

Lemma Heo : (2 <= eo)%Z. Proof. cbn; lia. Qed.
Lemma Hso : (1 <= so)%Z. Proof. cbn; lia. Qed.

Lemma step_good (v v' : obj) : P_DenseRKR.sound eps sys v -> (f_dt v : R) <> 0 -> agrees (f_dt v) lim ->
  a_step sys ftry v = (v', Ok tt) ->
  good_step eps tb idx sys abs_e rel_e lim (dir (f_dt v)) (f_t v') (f_x v, f_t v : R) (f_x v', f_t v' : R).
Proof.
  intros Hs Hdt Ha Est. set (fr := ftry) in *.
  destruct (a_step_char sys fr v) as [(j & _ & Hj & Hi & Hr)|(_ & Hr)]; rewrite Est in Hr; [|discriminate].
  inversion Hr; subst v'. clear Hr Est.
  set (v0 := a_save (a_enter sys v)) in *.
  assert (E0 : f_dt v0 = f_dt v /\ f_t v0 = f_t v /\ f_x v0 = f_x v /\ f_d v0 = sys (f_x v) (f_t v)).
  { unfold v0, a_save, a_enter. destruct v as [st x d ox od t told dt []]; repeat split. apply Hs. reflexivity. }
  destruct E0 as (E1 & E2 & E3 & E4). clearbody v0. rewrite <- E1 in Hdt, Ha.
  destruct (attempts_inv (a_try fr) (during eps v0) (during_try eps eps0 idx sys eo so Heo Hso cfg lim v0 Ha) j v0 (during_refl eps v0 Hdt) Hi) as (v1 & Hd & Ev).
  rewrite Ev in *. destruct (during_ok eps lim v0 v1 Ha Hd) as (H1 & H2 & H3).
  destruct Hd as (D1 & D2 & D3 & _ & _ & D6 & _). unfold a_swap. cbn [f_t f_x].
  rewrite <- E1, <- E2, <- E3, <- D3, <- D1. rewrite E4, <- E3, <- E2, <- D1, <- D3 in D2.
  clear - Hj H1 H2 H3 D2 D6 Habs Hrel eps0.
  destruct v1 as [st x d ox od t told dt der]. cbn [f_t f_dt f_x f_d] in *. subst d.
  destruct (a_try_cases (N := NN) sys idx (rpow : NN -> NN -> NN) eo so cfg lim st x (sys x t) ox od t told dt der)
    as [(E & Q)|[(E & El & Q)|(E & El & Q)]]; fold fr in Q; rewrite Q in Hj |- *; cbn [fst snd f_t f_ox] in *; try discriminate.
  apply check_R in E. apply Rltb_false in El. clear Q Hj.
  set (m1 := upd (N := NN) (upd (N := NN) (fst st) LIn x) LDx (sys x t)) in *.
  set (m2 := fst (M_RK.exec (N := NN) sys (mkAlias false false) (dopri5_err_prog (mkAlias false false) t dt) m1)) in *.
  destruct (dopri5_R eps sys (mkAlias false false) t dt m1) as (A & B & _); [reflexivity|]. change (m1 LIn) with x in A, B.
  change (fst (M_RK.exec (N := NN) sys (mkAlias false false) (dopri5_err_prog (N := NN) (mkAlias false false) t dt) m1)) with m2 in A, B.
  assert (Oc : outcome eps idx eo so cfg lim x (sys x t) (m2 LErr) dt
     (increase_step (N := NN) (rpow : NN -> NN -> NN) lim dt (snd (checker_error (N := NN) idx cfg x (sys x t) (m2 LErr) dt)) so) true).
  { right. right. split; [exact E|]. split; [exact El|]. split; reflexivity. }
  assert (Hn : (0 < rk_error_order rk_dopri5)%nat) by (cbn; lia).
  destruct (made_outcome eps eps0 idx sys abs_e rel_e lim Habs Hrel rk_dopri5 (dir dt) x (m2 LErr) t dt _ true Hn ltac:(rewrite H3; exact D6) eq_refl H2 Oc) as (_ & _ & O3).
  destruct (O3 eq_refl) as [O4 O5]. unfold good_step. cbn [fst snd].
  assert (Eh : forall a b : R, a + b - a = b) by (intros; ring). 
  change (@nadd NN t dt) with ((t : R) + dt)%R. rewrite (Eh t dt).
  split; [exact A|]. split; [exists (m2 LErr); split; [exact B|exact O4]|]. split; [exact D6|].
  split; [|exact O5]. rewrite Rminus_diag_eq by reflexivity. rewrite Rmult_0_r. exact eps0.
Qed.

Lemma run_good n (o : drf NN I (rkmem NN I * vec NN I)) x (t dt : R) o1 : dt <> 0 -> agrees dt lim ->
  do_steps (df_step sys ftry) (S n) (df_init o x t dt) = (o1, Ok tt) ->
  exists o0, do_steps (df_step sys ftry) n (df_init o x t dt) = (o0, Ok tt)
  /\ df_told o1 = df_t o0 /\ df_old o1 = df_current o0
  /\ good_step eps tb idx sys abs_e rel_e lim (dir dt) (df_t o1) (df_current o0, df_t o0 : R) (df_current o1, df_t o1 : R).
Proof.
  intros Hdt Ha H.
  destruct (dense_run eps eps0 idx sys eo so Heo Hso cfg lim n o x t dt o1 Hdt Ha H) as (o0 & E & E1 & E2 & _).
  exists o0. split; [exact E|]. split; [exact E1|]. split; [exact E2|].
  destruct (run_sound eps eps0 idx sys eo so Heo Hso cfg lim n o x t dt o0 Hdt Ha E) as (H1 & H2 & H3 & H4).
  rewrite do_steps_last, E in H.
  pose proof (abs_step sys ftry o0) as A. rewrite H in A. cbn [fst snd] in A.
  rewrite <- H4. exact (step_good (abs o0) (abs o1) H1 H2 H3 A).
Qed.
End Dopri5.

Section Adaptive.
Variable eps : R.
Hypothesis eps0 : 0 <= eps.
Notation NN := (RNum eps).
Context {I W : Type}.
Variable idx : list I.
Variable sys : vec NN I -> NN -> vec NN I.
Variables abs_e rel_e : R.
Hypothesis Habs : 0 < abs_e.
Hypothesis Hrel : 0 <= rel_e.
Notation eo := (Z.of_nat (rk_error_order rk_dopri5)).
Notation so := (Z.of_nat (rk_order rk_dopri5)).
Notation cfg := (made_cfg (N := NN) abs_e rel_e).
Notation ftry := (dopri5_ftry (N := NN) sys idx (rpow : NN -> NN -> NN) eo so cfg (0%R : NN)).
Notation ops := (df_ops (N := NN) sys ftry (dopri5_fcalc (N := NN)) W).
Notation tb := (tab_of (N := NN) rk_dopri5).
Notation obj := (drf NN I (rkmem NN I * vec NN I)).
Variables sg tend : R.

(** The states reached by a run that moves strictly in one direction. *)
Lemma replay_good : forall (o : obj) tr o1, replay ops o tr o1 -> P_DenseRKR.sound eps sys (abs o) ->
  sg = 1 \/ sg = -1 ->
  strictly_mono sg ((df_t o : R) :: map snd (reached_of tr)) ->
  Forall (fun T : R => sg * (T - tend) <= eps) (map snd (reached_of tr)) ->
  linked (good_step eps tb idx sys abs_e rel_e 0 sg tend) ((df_current o, df_t o : R) :: reached_of tr).
Proof.
  intros o tr o1 Hr Hs Hsg. revert Hs.
  induction Hr as [o|o dt tr o1 Hr IH|o w e o2 w2 tr o1 Hst Hr IH|o tr o1 Hr IH|o t tr o1 Hr IH]; intros Hs Hm He; try exact (IH Hs Hm He).
  - split; exact Logic.I.
  - cbn [d_init d_x d_t df_ops] in *. cbn [reached_of flat_map app] in *.
    assert (Et : df_t (df_init o (df_current o) (df_t o) dt) = df_t o /\ df_current (df_init o (df_current o) (df_t o) dt) = df_current o).
    { unfold df_init. destruct (df_cur o) eqn:Ec; split; try reflexivity; unfold df_current; cbn; rewrite Ec; reflexivity. }
    rewrite (proj1 Et), (proj2 Et) in IH. apply IH; [rewrite abs_init; discriminate|exact Hm|exact He].
  - cbn [d_step df_ops] in Hst. destruct (df_step sys ftry o) as [o3 [[]|e0| |]] eqn:Est; try discriminate.
    injection Hst as <- <- <-. cbn [app reached_of flat_map map snd] in Hm, He |- *.
    destruct Hm as [Hm1 Hm2]. 
    pose proof (abs_step sys ftry o) as A. rewrite Est in A. cbn [fst snd] in A.
    assert (Hdt : (df_dt o : R) <> 0).
    { intro Z. pose proof (step_zero eps idx sys eo so cfg (abs o) (abs o3) Z A) as Q.
      change (f_t (abs o3)) with (df_t o3) in Q. change (f_t (abs o)) with (df_t o) in Q.
      cbn [map snd] in Hm1. rewrite Q in Hm1. change (carrier NN) with R in *. rewrite Rminus_diag_eq in Hm1 by reflexivity. lra. }
    assert (Ha : agrees (df_dt o) 0) by (left; reflexivity).
    pose proof (step_good eps eps0 idx sys abs_e rel_e Habs Hrel 0 (abs o) (abs o3) Hs Hdt Ha A) as (G1 & G2 & G3 & _ & G5).
    destruct (step_sound eps eps0 idx sys eo so Heo Hso cfg 0 (abs o) (abs o3) Hs Hdt Ha A) as (S1 & _).
    cbn [fst snd] in G1, G2, G3, G5.
    split; [|exact (IH S1 Hm2 (Forall_inv_tail He))].
    unfold good_step. cbn [fst snd]. split; [exact G1|]. split; [exact G2|]. split; [exact Hm1|]. split; [exact (Forall_inv He)|exact G5].
Qed.
End Adaptive.

Section Ros.
Variable eps : R.
Hypothesis eps0 : 0 <= eps.
Notation NN := (RNum eps).
Context {I S : Type}.
Variable idx : list I.
Variable rstep : S -> (I -> R) -> R -> R -> S * (I -> R) * (I -> R).
Variables atol rtol lim : R.

(** The out-of-place try_step is the in-place one with another buffer. *)
Lemma core_try (c : rosc NN I S) x (t : R) xo (dt : R) c1 xo1 t1 dt1 ok :
  rosc_core (N := NN) idx rpow sqrt rstep atol rtol lim c x t xo dt = (c1, xo1, t1, dt1, ok) ->
  exists c2, rosc_try (N := NN) idx rpow sqrt rstep atol rtol lim
    (mkRosc (rc_st c) (rc_xerr c) xo (rc_first c) (rc_err_old c) (rc_dt_old c) (rc_rejected c)) x t dt
    = (c2, (if (ok : bool) then xo1 else x), t1, dt1, ok).
Proof.
  unfold rosc_try, rosc_core. cbn [rc_st rc_xerr rc_xnew rc_first rc_err_old rc_dt_old rc_rejected].
  destruct (_ && _)%bool.
  - intro H. injection H as <- <- <- <- <-. eexists. reflexivity.
  - destruct (rstep (rc_st c) x t dt) as [[st1 x1] e1]. destruct (_ <=? _)%num; intro H; injection H as <- <- <- <- <-; eexists; reflexivity.
Qed.

Lemma core_good (c : rosc NN I S) x (t : R) xo (dt : R) c1 xo1 t1 dt1 ok : idx <> [] -> dt <> 0 -> agrees dt lim ->
  rosc_core (N := NN) idx rpow sqrt rstep atol rtol lim c x t xo dt = (c1, xo1, t1, dt1, ok) ->
  0 < dir dt * dt1 /\ (ok = false -> t1 = t /\ Rabs dt1 < Rabs dt)
  /\ (ok = true -> t1 = t + dt /\ (exists st' e, rstep (rc_st c) x t dt = (st', xo1, e) /\ rms_within idx atol rtol x xo1 e)
      /\ (lim <> 0 -> Rabs dt <= Rabs lim + eps)).
Proof.
  intros Hn Hdt Ha H. destruct (core_try c x t xo dt c1 xo1 t1 dt1 ok H) as (c2 & E).
  destruct (ros_dt eps idx rstep atol rtol lim _ x t dt _ _ _ _ ok Hdt eps0 Ha E) as (A & B & _ & _ & _ & _ & C).
  pose proof (ros_effect (N := NN) idx rpow sqrt rstep atol rtol _ _ x t dt _ _ _ _ ok E) as Q.
  split; [exact A|]. split; intro F; subst ok; cbv iota in Q.
  - split; [exact (proj1 (proj2 Q))|exact (B eq_refl)].
  - destruct Q as (Q1 & Q2 & Q3 & _). split; [exact Q1|]. cbn [rc_st] in *.
    split; [|intro Z; exact (proj2 (C Z) eq_refl)].
    destruct (rstep (rc_st c) x t dt) as [[st' x'] e]. exists st', e. cbn [fst snd] in *. subst x'. split; [reflexivity|].
    apply Rleb_true in Q3. exact (proj1 (ros_error_le1 eps idx atol rtol _ x _ Hn) Q3).
Qed.
End Ros.

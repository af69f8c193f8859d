(** Runs that exist: for a system bounded by one, dopri5 with absolute tolerance one accepts every step up to 1/2 at once. *)
From Coq Require Import List Arith ZArith Reals Lia Lra.
From Verif Require Import M_Num M_Sign M_Run M_Checker M_RK S_RK P_RK P_RKR M_CtrlRK M_Dense M_DenseRK S_DenseRK
  S_Real S_Dense S_Ctrl S_CtrlRK P_R P_CtrlRK P_CtrlRKR P_CtrlRKT P_RKDense P_DenseRK P_DenseRef P_DenseRKR P_DenseRKX.
Import ListNotations.
Local Open Scope R_scope.

Section Unit.
Notation NN := (RNum 0).
Variable sys : (unit -> R) -> R -> (unit -> R).
Hypothesis Hsys : forall x t, Rabs (sys x t tt) <= 1.
Definition unit_cfg : err_cfg NN := mkErrCfg (N := NN) 1%R 0%R 1%R 1%R.
Variable m : R.
Notation ftry := (dopri5_ftry (N := NN) sys [tt] rpow 4 5 unit_cfg (m : NN)).
Notation obj := (drf NN unit (rkmem NN unit * vec NN unit)).

Lemma unit_error : forall (mm : rkmem NN unit) (t h : R), 0 < h <= 1 / 2 -> mm LDx = sys (mm LIn) t ->
  let e := fst (exec (N := NN) sys (mkAlias false false) (dopri5_err_prog (N := NN) (mkAlias false false) t h) mm) LErr in
  Rabs (e tt) <= 1 / 2.
Proof.
  intros mm t h Hh Hd. cbv zeta.
  destruct (dopri5_R 0 sys separate t h mm Hd) as (_ & (ks & [L Z S] & He) & _).
  specialize (He tt). change (mkAlias false false) with separate. rewrite He. clear He.
  assert (K : exists k1 k2 k3 k4 k5 k6 k7, ks = [k1; k2; k3; k4; k5; k6; k7]).
  { clear - L. destruct ks as [|k1 [|k2 [|k3 [|k4 [|k5 [|k6 [|k7 [|k8 r]]]]]]]]; try discriminate L. repeat eexists. }
  destruct K as (k1 & k2 & k3 & k4 & k5 & k6 & k7 & ->).
  pose proof (S 1%nat _ _ eq_refl eq_refl) as E2. pose proof (S 2%nat _ _ eq_refl eq_refl) as E3.
  pose proof (S 3%nat _ _ eq_refl eq_refl) as E4. pose proof (S 4%nat _ _ eq_refl eq_refl) as E5.
  pose proof (S 5%nat _ _ eq_refl eq_refl) as E6. pose proof (S 0%nat _ _ eq_refl eq_refl) as E1. clear S.
  cbn [nth_error] in Z, E1, E2, E3, E4, E5, E6.
  injection Z as Z. injection E1 as E1. injection E2 as E2. injection E3 as E3. injection E4 as E4. injection E5 as E5. injection E6 as E6.
  assert (V : forall k u c, k = sys u c -> - (1) <= k tt <= 1).
  { intros k u c ->. pose proof (Hsys u c) as Q. split; [pose proof (Rle_abs (- sys u c tt)) as Q2; rewrite Rabs_Ropp in Q2; lra|pose proof (Rle_abs (sys u c tt)); lra]. }
  apply V in Z. apply V in E1. apply V in E2. apply V in E3. apply V in E4. apply V in E5. apply V in E6.
  unfold wsum. cbn [tab_b2 dopri5_tab7 combine map fst snd rsum fold_right]. unfold rsum. cbn [fold_right].
  unfold nfrac. cbn [ndiv nofZ RNum nsub].
  rewrite Rabs_mult, (Rabs_right h) by lra.
  match goal with |- h * Rabs ?a <= _ => assert (B : Rabs a <= 1) by (apply Rabs_le; lra); pose proof (Rabs_pos a) as P; set (z := Rabs a) in *; clearbody z end.
  assert (h * z <= h * 1) by (apply Rmult_le_compat_l; lra). lra.
Qed.

Lemma unit_err : forall (x d e : unit -> R) (h : R),
  @eq R (snd (checker_error (N := NN) [tt] unit_cfg x d e h)) (Rabs (e tt)).
Proof.
  intros x d e h. unfold checker_error. cbn [snd]. unfold norm_inf. cbn [fold_left].
  unfold rel_error. cbn [eps_abs eps_rel a_x a_dxdt unit_cfg]. rewrite nmax_R.
  change (Rmax 0 (Rabs (Rabs (e tt) / (1 + 0 * (1 * Rabs (x tt) + 1 * Rabs h * Rabs (d tt))))) = Rabs (e tt)).
  replace (Rabs (e tt) / (1 + 0 * (1 * Rabs (x tt) + 1 * Rabs h * Rabs (d tt)))) with (Rabs (e tt)) by (field; lra).
  rewrite Rabs_Rabsolu. apply Rmax_right, Rabs_pos.
Qed.

Lemma unit_step : forall (o : obj), sound 0 sys (abs o) -> 0 < df_dt o <= 1 / 2 -> m = 0 \/ df_dt o <= m ->
  exists o1 : obj, df_step (N := NN) sys ftry o = (o1, Ok tt)
  /\ @eq R (df_t o1) ((df_t o : R) + df_dt o) /\ 0 < df_dt o1 /\ (m = 0 \/ df_dt o1 <= m) /\ sound 0 sys (abs o1).
Proof.
  intros o Hs Hdt Hm. pose proof (abs_step (N := NN) sys ftry o) as A.
  set (v0 := a_save (a_enter (N := NN) sys (abs o))).
  assert (E : f_d v0 = sys (f_x v0) (f_t v0) /\ f_t v0 = df_t o /\ f_dt v0 = df_dt o).
  { unfold v0, a_save, a_enter. unfold sound in Hs. destruct (f_der (abs o)) eqn:Ed; cbn [f_st f_x f_d f_ox f_od f_t f_told f_dt f_der].
    - split; [exact (Hs eq_refl)|]. split; reflexivity.
    - repeat split. }
  assert (Ev : v0 = a_save (a_enter (N := NN) sys (abs o))) by reflexivity.
  clearbody v0. destruct E as (E1 & E3 & E4).
  assert (Pd : forall q : R, 0 < q -> dir q = 1) by (intros q Hq; unfold dir; destruct (Rlt_dec 0 q); lra).
  assert (T : snd (a_try ftry v0) = true
     /\ @eq R (f_t (fst (a_try ftry v0))) ((df_t o : R) + df_dt o) /\ 0 < f_dt (fst (a_try ftry v0)) /\ (m = 0 \/ f_dt (fst (a_try ftry v0)) <= m)).
  { clear Ev A. destruct v0 as [st x d ox od t told dt der]. cbn [f_st f_x f_d f_ox f_od f_t f_told f_dt f_der] in *. subst d t dt.
    set (t := df_t o) in *. set (dt := df_dt o) in *. clearbody t dt.
    pose proof (a_try_cases (N := NN) sys [tt] rpow 4 5 unit_cfg m st x (sys x t) ox od t told dt der) as T.
    cbv zeta in T.
    pose proof (unit_error (upd (upd (fst st) LIn x) LDx (sys x t)) t dt Hdt) as ZO.
    rewrite upd_same, upd_other, upd_same in ZO by discriminate. specialize (ZO eq_refl). cbv zeta in ZO.
    set (m2 := fst (exec (N := NN) sys (mkAlias false false) (dopri5_err_prog (N := NN) (mkAlias false false) t dt)
                    (upd (upd (fst st) LIn x) LDx (sys x t)))) in *. clearbody m2.
    pose proof (unit_err x (sys x t) (m2 LErr) dt) as EV.
    destruct (checker_error (N := NN) [tt] unit_cfg x (sys x t) (m2 LErr) dt) as [xe err]. cbn [fst snd] in T, EV.
    rewrite <- EV in ZO. clear EV.
    destruct T as [(E & _)|[(_ & El & _)|(_ & El & ->)]]; cbn [fst snd f_t f_ox f_od f_dt].
    - apply check_R_false in E. destruct E as [E E']. rewrite (Pd dt) in E' by (apply Hdt). exfalso. destruct Hm; [contradiction|]. change (carrier NN) with R in *. lra.
    - apply Rltb_true in El. change (@nofZ NN 1) with 1 in El. change (carrier NN) with R in *. lra.
    - split; [reflexivity|]. split; [reflexivity|].
      rewrite increase_R. pose proof (grow_pos err 5) as G. assert (G' : 0 < dt * grow err 5) by (apply Rmult_lt_0_compat; [apply Hdt|exact G]).
      destruct (Rltb err (1 / 2)) eqn:Q; [|split; [apply Hdt|exact Hm]].
      destruct (@nneq NN m 0%R) eqn:Q2.
      + apply nneq_R in Q2. destruct Hm as [Hm|Hm]; [contradiction|].
        assert (Hm0 : 0 < m) by (change (carrier NN) with R in *; lra).
        pose proof (min_abs_dir 0 (dt * grow err 5) m) as MA. rewrite (Pd _ G') in MA. rewrite !Rmult_1_l in MA.
        specialize (MA ltac:(lra) ltac:(lra)). rewrite (Rabs_right (dt * grow err 5)), (Rabs_right m) in MA by lra. rewrite MA.
        split; [apply Rmin_glb_lt; lra|right; apply Rmin_r].
      + apply nneq_R_false in Q2. split; [exact G'|left; exact Q2]. }
  destruct T as (T1 & T3 & T4 & T5).
  exists (fst (df_step (N := NN) sys ftry o)).
  destruct (a_step_char (N := NN) sys ftry (abs o)) as [(j & J1 & J2 & J3 & J4)|(J1 & J2)];
    rewrite <- Ev in *.
  - destruct j as [|j].
    + cbn [attempts] in J4. pose proof J4 as J7. rewrite A in J4. pose proof (f_equal fst J4) as J5. pose proof (f_equal snd J4) as J6. cbn [fst snd] in J5, J6. symmetry in J6.
      split; [rewrite J6; exact (surjective_pairing (df_step (N := NN) sys ftry o))|].
      pose proof (f_equal f_t J5) as X2.
      pose proof (f_equal f_dt J5) as X3.
      split; [exact (eq_trans X2 T3)|]. change (df_dt (fst (df_step (N := NN) sys ftry o))) with (f_dt (abs (fst (df_step (N := NN) sys ftry o)))).
      rewrite X3. split; [exact T4|]. split; [exact T5|].
      rewrite J5. assert (Ag : agrees (df_dt o) m).
      { destruct Hm as [Hm|Hm]; [left; exact Hm|right]. rewrite (Pd (df_dt o)) by apply Hdt. change (carrier NN) with R in *. lra. }
      refine (proj1 (step_sound 0 (Rle_refl 0) [tt] sys 4 5 _ _ unit_cfg m (abs o) _ Hs _ Ag J7)); try lia.
      change (f_dt (abs o)) with (df_dt o). change (carrier NN) with R in *. lra.
    + specialize (J3 0%nat (Nat.lt_0_succ _)). cbn [attempts] in J3. congruence.
  - specialize (J1 0%nat (Nat.lt_0_succ _)). cbn [attempts] in J1. congruence.
Qed.

Lemma unit_steps : 0 < m <= 1 / 2 -> forall n (o : obj), sound 0 sys (abs o) -> 0 < df_dt o <= m ->
  exists o1 : obj, do_steps (df_step (N := NN) sys ftry) n o = (o1, Ok tt) /\ (df_t o : R) <= df_t o1.
Proof.
  intro Hm. induction n as [|n IH]; intros o Hs Hdt; [exists o; split; [reflexivity|apply Rle_refl]|].
  destruct (unit_step o Hs ltac:(change (carrier NN) with R in *; lra) (or_intror (proj2 Hdt))) as (o1 & E & E2 & E3 & E4 & E5).
  destruct (IH o1 E5) as (o2 & F & G). { split; [exact E3|]. destruct E4 as [E4|E4]; [|exact E4]. change (carrier NN) with R in *. lra. }
  exists o2. cbn [do_steps]. rewrite E. split; [exact F|]. change (carrier NN) with R in *. lra.
Qed.
End Unit.

(** Runs of dense_output_runge_kutta over the reals: interpolation over a whole run, the contract of
    the integrate functions, and the step that is accepted and then reported as an error. *)
From Coq Require Import ZArith List Bool Lia Arith Reals Lra.
From Verif Require Import M_Num M_Sign M_Run M_Checker M_RK S_RK P_RK P_RKR M_CtrlRK M_Dense M_DenseRK S_DenseRK P_Det
  S_Real S_Dense S_Ctrl S_CtrlRK P_R P_CtrlRK P_CtrlRKR P_CtrlRKT P_RKDense P_DenseRK P_DenseRef P_DenseRKR.
Import ListNotations.
Local Open Scope R_scope.

Lemma do_steps_last {O : Type} (step : O -> O * res unit) : forall n o,
  do_steps step (S n) o = match do_steps step n o with (o1, Ok _) => step o1 | (o1, r) => (o1, r) end.
Proof.
  induction n as [|n IH]; intro o.
  - cbn [do_steps]. destruct (step o) as [o1 [[]|e| |]]; reflexivity.
  - remember (S n) as k. cbn [do_steps]. subst k.
    destruct (step o) as [o1 [u|e| |]] eqn:E; [rewrite IH; cbn [do_steps]; now rewrite E| | |]; cbn [do_steps]; now rewrite E.
Qed.

(** Steps in general: previous_time. *)
Section Told.
Context {N : Num} {I C : Type}.
Variable sys : vec N I -> N -> vec N I.
Variable ftry : C -> vec N I -> vec N I -> N -> vec N I -> vec N I -> N -> C * vec N I * vec N I * N * N * bool.

Lemma a_try_told v : f_told (fst (a_try ftry v)) = f_told v /\ f_x (fst (a_try ftry v)) = f_x v.
Proof. unfold a_try. destruct (ftry _ _ _ _ _ _ _) as [[[[[a b] c] d] e] g]. split; reflexivity. Qed.
Lemma attempts_told : forall j v, f_told (fst (attempts (a_try ftry) j v)) = f_told v
  /\ f_x (fst (attempts (a_try ftry) j v)) = f_x v.
Proof.
  induction j as [|j IH]; intro v; cbn [attempts]; [apply a_try_told|].
  destruct (IH (fst (a_try ftry v))) as [A B], (a_try_told v) as [A' B']. split; congruence.
Qed.
Lemma save_enter (v : fv N I C) : f_told (a_save (a_enter sys v)) = f_t v /\ f_x (a_save (a_enter sys v)) = f_x v.
Proof. unfold a_save, a_enter. destruct v as [st x d ox od t told dt []]; split; reflexivity. Qed.
Lemma a_step_told v v' : a_step sys ftry v = (v', Ok tt) -> f_told v' = f_t v /\ f_ox v' = f_x v.
Proof.
  intro H. destruct (a_step_char sys ftry v) as [(j & _ & _ & _ & Hr)|(_ & Hr)]; rewrite H in Hr; [|discriminate].
  inversion Hr; subst v'. unfold a_swap; cbn [f_told f_ox].
  destruct (attempts_told j (a_save (a_enter sys v))) as [A B], (save_enter v) as [C' D]. split; congruence.
Qed.
Lemma df_step_told o o' : df_step sys ftry o = (o', Ok tt) -> df_told o' = df_t o /\ df_old o' = df_current o.
Proof.
  intro H. pose proof (abs_step sys ftry o) as A. rewrite H in A. cbn [fst snd] in A.
  exact (a_step_told _ _ A).
Qed.

(** do_step and its attempts. *)
Theorem df_step_char : forall o,
  let o0 := df_save_time (df_enter sys o) in
  (exists j, (j < default_max_steps)%nat /\ snd (attempts (df_try ftry) j o0) = true
      /\ (forall i, (i < j)%nat -> snd (attempts (df_try ftry) i o0) = false)
      /\ df_step sys ftry o = (df_toggle (fst (attempts (df_try ftry) j o0)), Ok tt))
  \/ ((forall i, (i < default_max_steps)%nat -> snd (attempts (df_try ftry) i o0) = false)
      /\ df_step sys ftry o = (fst (attempts (df_try ftry) default_max_steps o0), Exc StepAdjustment)).
Proof.
  intros o o0. unfold df_step. fold o0. rewrite df_gloop.
  destruct (gloop_char (df_try ftry) default_max_steps o0 0 eq_refl) as [(j & H1 & H2 & H3 & H4)|(H1 & H2)].
  - left. exists j. rewrite H4. auto.
  - right. rewrite H2. auto.
Qed.
Lemma abs_attempts : forall j o, attempts (a_try ftry) j (abs o)
  = (abs (fst (attempts (df_try ftry) j o)), snd (attempts (df_try ftry) j o)).
Proof.
  induction j as [|j IH]; intro o; cbn [attempts]; [apply abs_try|].
  rewrite abs_try. cbn [fst]. apply IH.
Qed.
End Told.

Lemma plus_minus_same (a b : R) : a + b - a = b.
Proof. ring. Qed.

Section R.
Variable eps : R.
Hypothesis eps0 : 0 <= eps.
Notation NN := (RNum eps).
Context {I : Type}.
Variable idx : list I.
Variable sys : vec NN I -> NN -> vec NN I.
Variable eo so : Z.
Hypothesis Heo : (2 <= eo)%Z.
Hypothesis Hso : (1 <= so)%Z.
Variable cfg : err_cfg NN.
Notation obj := (drf NN I (rkmem NN I * vec NN I)).

Section Limit.
Variable max_dt : NN.
Notation ftry := (dopri5_ftry (N := NN) sys idx (rpow : NN -> NN -> NN) eo so cfg max_dt).

(** The interpolant of an object. *)
Definition good_interp (o : obj) : Prop := forall i,
  let D := df_calc (dopri5_fcalc (N := NN)) o in
  D (df_told o) i = df_old o i /\ D (df_t o) i = df_current o i
  /\ derivable_pt_lim (fun s => D s i) (df_told o) (sys (df_old o) (df_told o) i)
  /\ derivable_pt_lim (fun s => D s i) (df_t o) (sys (df_current o) (df_t o) i).

Lemma run_sound : forall n (o : obj) x (t dt : R) (o1 : obj), dt <> 0 -> agrees dt max_dt ->
  do_steps (df_step sys ftry) n (df_init o x t dt) = (o1, Ok tt) ->
  sound eps sys (abs o1) /\ (df_dt o1 : R) <> 0 /\ agrees (df_dt o1) max_dt /\ dir (df_dt o1) = dir dt.
Proof.
  induction n as [|n IH]; intros o x t dt o1 Hdt Ha H.
  - cbn [do_steps] in H. inversion H; subst o1. rewrite abs_init. unfold a_init, sound. cbn [f_der].
    unfold df_init. destruct (df_cur o); cbn [df_dt]; (split; [discriminate|]; auto).
  - rewrite do_steps_last in H.
    destruct (do_steps (df_step sys ftry) n (df_init o x t dt)) as [o2 [[]|e| |]] eqn:E; try discriminate.
    destruct (IH o x t dt o2 Hdt Ha E) as (H1 & H2 & H3 & H4).
    pose proof (abs_step sys ftry o2) as A. rewrite H in A. cbn [fst snd] in A.
    destruct (step_sound eps eps0 idx sys eo so Heo Hso cfg max_dt (abs o2) (abs o1) H1 H2 H3 A) as (S1 & S2 & S3 & S4 & _).
    split; [exact S1|]. split; [exact S2|]. split; [exact S3|]. exact (eq_trans S4 H4).
Qed.

Theorem dense_run : forall n (o : obj) x (t dt : R) (o1 : obj), dt <> 0 -> agrees dt max_dt ->
  do_steps (df_step sys ftry) (S n) (df_init o x t dt) = (o1, Ok tt) ->
  exists o0 : obj, do_steps (df_step sys ftry) n (df_init o x t dt) = (o0, Ok tt)
  /\ df_told o1 = df_t o0 /\ df_old o1 = df_current o0
  /\ 0 < dir dt * (df_t o1 - df_t o0)
  /\ good_interp o1.
Proof.
  intros n o x t dt o1 Hdt Ha H. rewrite do_steps_last in H.
  destruct (do_steps (df_step sys ftry) n (df_init o x t dt)) as [o2 [[]|e| |]] eqn:E; try discriminate.
  exists o2. split; [reflexivity|].
  destruct (run_sound n o x t dt o2 Hdt Ha E) as (H1 & H2 & H3 & H4).
  pose proof (abs_step sys ftry o2) as A. rewrite H in A. cbn [fst snd] in A.
  destruct (step_sound eps eps0 idx sys eo so Heo Hso cfg max_dt (abs o2) (abs o1) H1 H2 H3 A)
    as (S1 & S2 & S3 & S4 & S5 & S6 & S7 & S8).
  split; [exact S6|]. split; [exact S5|]. split; [rewrite <- H4; exact (proj1 S7)|]. exact S8.
Qed.
End Limit.

(** Without step limit: the contract of the integrate functions. *)
Notation ftry := (dopri5_ftry (N := NN) sys idx (rpow : NN -> NN -> NN) eo so cfg (0%R : NN)).
Definition df_total (o : obj) : obj :=
  match df_step sys ftry o with
  | (o1, Ok _) => o1
  | (_, _) => mkDrf (df_st o) (df_cur o) (df_x1 o) (df_x2 o) (df_d1 o) (df_d2 o)
                    (df_t o + df_dt o)%R (df_t o) (df_dt o) (df_der o)
  end.

Theorem df_contract :
  dense_contract (S := obj) (X := vec NN I) df_init df_total df_t df_current df_dt.
Proof.
  constructor.
  - intros s x t dt. unfold df_init. destruct (df_cur s); reflexivity.
  - intros s x t dt. unfold df_init. destruct (df_cur s); reflexivity.
  - intros s x t dt. unfold df_init. destruct (df_cur s); reflexivity.
  - intros o Ho. unfold df_total.
    assert (G : 0 < dir (df_dt o) * ((df_t o : R) + df_dt o - df_t o) <= Rabs (df_dt o)).
    { rewrite (plus_minus_same (df_t o) (df_dt o)).
      pose proof (dir_abs (df_dt o)) as Q. change (carrier NN) with R in *. rewrite Q.
      split; [now apply Rabs_pos_lt|apply Rle_refl]. }
    destruct (df_step sys ftry o) as [o1 [[]|e| |]] eqn:E; try exact G.
    pose proof (abs_step sys ftry o) as A. rewrite E in A. cbn [fst snd] in A.
    destruct (step_R eps eps0 idx sys eo so Heo Hso cfg 0 (abs o) (abs o1) Ho (or_introl eq_refl) A)
      as (h & H1 & H2 & H3 & _).
    pose proof (dir_same _ _ H1) as Hd. pose proof (dir_abs h) as Q. rewrite Hd in Q.
    change (f_t (abs o1)) with (df_t o1) in H3. change (f_t (abs o)) with (df_t o) in H3.
    change (f_dt (abs o)) with (df_dt o) in *. change (carrier NN) with R in *.
    rewrite H3, (plus_minus_same (df_t o) h). rewrite Q. split; [|exact H2]. rewrite <- Q. exact H1.
  - intros o Ho. unfold df_total.
    assert (G : 0 < dir (df_dt o) * df_dt o).
    { pose proof (dir_abs (df_dt o)) as Q. change (carrier NN) with R in *. rewrite Q. now apply Rabs_pos_lt. }
    destruct (df_step sys ftry o) as [o1 [[]|e| |]] eqn:E; try exact G.
    pose proof (abs_step sys ftry o) as A. rewrite E in A. cbn [fst snd] in A.
    destruct (step_R eps eps0 idx sys eo so Heo Hso cfg 0 (abs o) (abs o1) Ho (or_introl eq_refl) A)
      as (h & H1 & H2 & H3 & _ & _ & H6 & _). exact H6.
Qed.

Definition df_total_ops (W : Type) : DenseOps NN obj W (vec NN I) :=
  dense_of (N := NN) df_init df_total (df_calc (dopri5_fcalc (N := NN))) df_t df_current df_dt.

Lemma df_ops_ref (W : Type) : forall (o : obj) (w : W),
  same_if_ok (d_step (df_ops sys ftry (dopri5_fcalc (N := NN)) W) o w) (d_step (df_total_ops W) o w).
Proof.
  intros o w a. cbn [d_step df_ops df_total_ops dense_of]. unfold df_total.
  destruct (df_step sys ftry o) as [o1 [[]|e| |]] eqn:E; try discriminate. intros _.
  now rewrite (proj1 (df_step_told sys ftry o o1 E)).
Qed.
End R.

(** ** The accepted step that is reported as an error. *)
Section Late.
Variable eps delta : R.
Hypothesis eps0 : 0 <= eps.
Hypothesis del0 : 0 < delta.
Notation NN := (RNum eps).

(** x' = 1 up to time [delta], x' = 1 + 1/t afterwards. *)
Definition late_sys (x : unit -> R) (t : R) : unit -> R :=
  fun _ => if Rle_dec t delta then 1 else 1 + / t.
(** Absolute tolerance 1e-6, relative tolerance 0. *)
Definition late_cfg : err_cfg NN := mkErrCfg (N := NN) (1 / 1000000)%R 0%R 1%R 1%R.
Notation ftry := (dopri5_ftry (N := NN) late_sys [tt] rpow 4 5 late_cfg (0%R : NN)).
Notation obj := (fv NN unit (rkmem NN unit * vec NN unit)).

Definition at_zero (v : obj) (h : R) : Prop :=
  f_x v = (fun _ => 0) /\ f_d v = (fun _ => 1) /\ @eq R (f_t v) 0 /\ @eq R (f_dt v) h.

Lemma late_error : forall (m : rkmem NN unit) (h : R), 0 < h -> m LIn = (fun _ => 0) -> m LDx = (fun _ => 1) ->
  let e := fst (exec (N := NN) late_sys (mkAlias false false) (dopri5_err_prog (N := NN) (mkAlias false false) 0 h) m) LErr in
  (5 * delta <= h -> Rabs (e tt) >= 8 / 1000) /\ (h <= delta -> @eq R (e tt) 0).
Proof.
  intros m h Hh Hi Hd. cbv zeta.
  assert (Hdx : m LDx = late_sys (m LIn) 0).
  { rewrite Hd. unfold late_sys. destruct (Rle_dec 0 delta); [reflexivity|lra]. }
  destruct (dopri5_R eps late_sys separate 0 h m Hdx) as (_ & (ks & [L Z S] & He) & _).
  specialize (He tt). change (mkAlias false false) with separate. rewrite He. clear He.
  assert (K : exists k1 k2 k3 k4 k5 k6 k7, ks = [k1; k2; k3; k4; k5; k6; k7]).
  { clear - L. destruct ks as [|k1 [|k2 [|k3 [|k4 [|k5 [|k6 [|k7 [|k8 r]]]]]]]]; try discriminate L. repeat eexists. }
  destruct K as (k1 & k2 & k3 & k4 & k5 & k6 & k7 & ->).
  pose proof (S 1%nat _ _ eq_refl eq_refl) as E2. pose proof (S 2%nat _ _ eq_refl eq_refl) as E3.
  pose proof (S 3%nat _ _ eq_refl eq_refl) as E4. pose proof (S 4%nat _ _ eq_refl eq_refl) as E5.
  pose proof (S 5%nat _ _ eq_refl eq_refl) as E6. clear S.
  cbn [nth_error] in Z, E2, E3, E4, E5, E6.
  injection Z as Z. injection E2 as E2. injection E3 as E3. injection E4 as E4. injection E5 as E5. injection E6 as E6.
  assert (V : forall k u c, k = late_sys u (0 + c * h) ->
     k tt = if Rle_dec (c * h) delta then 1 else 1 + / (c * h)).
  { intros k u c ->. unfold late_sys. replace (0 + c * h) with (c * h) by ring. reflexivity. }
  assert (V1 : k1 tt = 1).
  { rewrite Z. unfold late_sys. destruct (Rle_dec 0 delta); [reflexivity|lra]. }
  apply V in E2. apply V in E3. apply V in E4. apply V in E5. apply V in E6.
  unfold wsum. cbn [tab_b2 dopri5_tab7 combine map fst snd rsum fold_right]. unfold rsum. cbn [fold_right].
  rewrite V1, E2, E3, E4, E5, E6. unfold nfrac. cbn [ndiv nofZ RNum].
  split; intro Hc.
  - destruct (Rle_dec (3 / 10 * h) delta); [lra|]. destruct (Rle_dec (4 / 5 * h) delta); [lra|].
    destruct (Rle_dec (8 / 9 * h) delta); [lra|]. destruct (Rle_dec (1 * h) delta); [lra|].
    match goal with |- Rabs ?a >= _ => replace a with (- (11431 / 1382400)) by (field; lra) end.
    rewrite Rabs_left; lra.
  - destruct (Rle_dec (3 / 10 * h) delta); [|lra]. destruct (Rle_dec (4 / 5 * h) delta); [|lra].
    destruct (Rle_dec (8 / 9 * h) delta); [|lra]. destruct (Rle_dec (1 * h) delta); [|lra]. lra.
Qed.

Lemma late_err : forall (x d e : unit -> R) (h : R),
  @eq R (snd (checker_error (N := NN) [tt] late_cfg x d e h)) (Rabs (e tt) * 1000000).
Proof.
  intros x d e h. unfold checker_error. cbn [snd]. unfold norm_inf. cbn [fold_left].
  unfold rel_error. cbn [eps_abs eps_rel a_x a_dxdt late_cfg]. rewrite nmax_R.
  change (Rmax 0 (Rabs (Rabs (e tt) / (1 / 1000000 + 0 * (1 * Rabs (x tt) + 1 * Rabs h * Rabs (d tt))))) = Rabs (e tt) * 1000000).
  replace (Rabs (e tt) / (1 / 1000000 + 0 * (1 * Rabs (x tt) + 1 * Rabs h * Rabs (d tt)))) with (Rabs (e tt) * 1000000)
    by (field; lra).
  pose proof (Rabs_pos (e tt)). rewrite (Rabs_right (Rabs (e tt) * 1000000)) by lra. apply Rmax_right. lra.
Qed.

Lemma late_shrink : forall err, 8000 <= err -> shrink err 4 = 1 / 5.
Proof.
  intros err H. unfold shrink. apply Rmax_right. rewrite rpow_pos by lra.
  change (4 - 1)%Z with 3%Z.
  pose proof (Rpower_root_le err (2 / 9) 3 ltac:(lra) ltac:(lra) ltac:(lia)) as Q.
  replace (INR 3) with 3 in Q by (simpl; ring).
  assert (Rpower err (-1 / 3) <= 2 / 9) by (apply Q; lra). lra.
Qed.

Lemma late_try : forall (v : obj) h, 0 < h -> at_zero v h ->
  (5 * delta <= h -> snd (a_try ftry v) = false /\ at_zero (fst (a_try ftry v)) (h / 5))
  /\ (h <= delta -> snd (a_try ftry v) = true /\ @eq R (f_t (fst (a_try ftry v))) h).
Proof.
  intros [st x d ox od t told dt der] h Hh (Hx & Hd & Ht & Hdt).
  cbn [f_st f_x f_d f_ox f_od f_t f_told f_dt f_der] in *. subst x d t dt.
  pose proof (late_error (upd (upd (fst st) LIn (fun _ => 0)) LDx (fun _ => 1)) h Hh) as LE.
  rewrite upd_same, upd_other, upd_same in LE by discriminate. specialize (LE eq_refl eq_refl).
  pose proof (a_try_cases (N := NN) late_sys [tt] rpow 4 5 late_cfg 0%R st (fun _ => 0) (fun _ => 1) ox od 0 told h der) as T.
  cbv zeta in T, LE.
  set (m2 := fst (exec (N := NN) late_sys (mkAlias false false) (dopri5_err_prog (N := NN) (mkAlias false false) 0 h)
                    (upd (upd (fst st) LIn (fun _ => 0)) LDx (fun _ => 1)))) in *. clearbody m2.
  pose proof (late_err (fun _ => 0) (fun _ => 1) (m2 LErr) h) as EV.
  destruct (checker_error (N := NN) [tt] late_cfg (fun _ => 0) (fun _ => 1) (m2 LErr) h) as [xe err]. cbn [fst snd] in T, EV.
  destruct LE as [L1 L2].
  destruct T as [(E & _)|[(_ & El & ->)|(_ & El & ->)]]; cbn [fst snd f_t].
  - apply check_R_false in E. destruct E as [E _]. now elim E.
  - apply Rltb_true in El. change (@nofZ NN 1) with 1 in El. rewrite EV in El. split; intro Hc.
    + split; [reflexivity|]. unfold at_zero. cbn [f_x f_d f_t f_dt]. repeat split.
      assert (HR : @eq R (decrease_step (N := NN) rpow 0%R h err 4) (h * shrink err 4)).
      { rewrite decrease_R. destruct (@nneq NN 0%R 0%R) eqn:Q; [apply nneq_R in Q; now elim Q|reflexivity]. }
      rewrite HR, late_shrink by (rewrite EV; specialize (L1 Hc); lra). unfold Rdiv. ring.
    + exfalso. rewrite (L2 Hc), Rabs_R0 in El. lra.
  - apply Rltb_false in El. change (@nofZ NN 1) with 1 in El. rewrite EV in El. split; intro Hc.
    + exfalso. specialize (L1 Hc). lra.
    + split; [reflexivity|]. cbn. ring.
Qed.

Lemma late_attempts : forall n (v : obj), at_zero v (5 ^ n * delta) ->
  (forall i, (i < n)%nat -> snd (attempts (a_try ftry) i v) = false)
  /\ snd (attempts (a_try ftry) n v) = true
  /\ @eq R (f_t (fst (attempts (a_try ftry) n v))) delta.
Proof.
  induction n as [|n IH]; intros v Hv.
  - split; [intros i Hi; lia|]. cbn [attempts].
    destruct (late_try v (5 ^ 0 * delta)) as [_ H]; [simpl; lra|exact Hv|].
    destruct H as [H1 H2]; [simpl; lra|]. split; [exact H1|]. rewrite H2. simpl. ring.
  - assert (P : 0 < 5 ^ n) by (apply pow_lt; lra).
    assert (P1 : 1 <= 5 ^ n) by (apply pow_R1_Rle; lra).
    destruct (late_try v (5 ^ S n * delta)) as [H _]; [cbn [pow]; nra|exact Hv|].
    destruct H as [H1 H2]; [cbn [pow]; nra|].
    replace (5 ^ S n * delta / 5) with (5 ^ n * delta) in H2 by (cbn [pow]; field).
    destruct (IH _ H2) as (I1 & I2 & I3). split; [|split; [exact I2|exact I3]].
    intros [|i] Hi; cbn [attempts]; [exact H1|]. apply I1. lia.
Qed.

(** Started at (0, 0) with step 5^n delta: the 501st attempt is accepted, and do_step throws. *)
Theorem late_throws : forall n, n = default_max_steps -> forall (o : drf NN unit (rkmem NN unit * vec NN unit)),
  let o1 := df_init (N := NN) o (fun _ => 0) 0 (5 ^ n * delta)%R in
  let r := df_step (N := NN) late_sys ftry o1 in
  snd (attempts (df_try (N := NN) ftry) n (df_save_time (df_enter (N := NN) late_sys o1))) = true
  /\ snd r = Exc StepAdjustment
  /\ @eq R (df_t (fst r)) delta /\ df_current (fst r) = (fun _ => 0).
Proof.
  intros n Hn o. cbv zeta. set (o1 := df_init (N := NN) o (fun _ => 0) 0 (5 ^ n * delta)%R).
  set (o2 := df_save_time (df_enter (N := NN) late_sys o1)).
  assert (Z : at_zero (abs o2) (5 ^ n * delta)).
  { unfold o2. rewrite abs_save, abs_enter. unfold o1. rewrite abs_init. unfold at_zero, a_save, a_enter, a_init.
    cbn [f_st f_x f_d f_ox f_od f_t f_told f_dt f_der]. repeat split.
    unfold late_sys. destruct (Rle_dec 0 delta); [reflexivity|lra]. }
  destruct (late_attempts n (abs o2) Z) as (A1 & A2 & A3).
  pose proof (abs_attempts (N := NN) ftry n o2) as Q.
  rewrite Q in A2, A3. cbn [fst snd] in A2, A3.
  destruct (df_step_char (N := NN) late_sys ftry o1) as [(j & J1 & J2 & _)|(J1 & J2)].
  - exfalso. rewrite <- Hn in J1. specialize (A1 j J1). rewrite abs_attempts in A1. cbn [snd] in A1. fold o2 in J2. congruence.
  - split; [exact A2|]. rewrite <- Hn in J2. fold o2 in J2. rewrite J2.
    set (rr := attempts (df_try ftry) n o2) in *. clearbody rr. split; [reflexivity|].
    split; [exact A3|].
    pose proof (proj2 (attempts_told (N := NN) ftry n (abs o2))) as E. rewrite Q in E. cbn [fst] in E.
    unfold at_zero in Z. destruct Z as [Z _]. rewrite Z in E. exact E.
Qed.
End Late.

(** ** A run that returns: the system x' = 0. *)
Section Zero.
Variable eps : R.
Hypothesis eps0 : 0 <= eps.
Notation NN := (RNum eps).
Definition zero_sys (x : unit -> R) (t : R) : unit -> R := fun _ => 0.
Notation ftry := (dopri5_ftry (N := NN) zero_sys [tt] rpow 4 5 (late_cfg eps) (0%R : NN)).

Lemma zero_out : forall (m : rkmem NN unit) (t h : R), m LDx = (fun _ => 0) ->
  let m' := fst (exec (N := NN) zero_sys (mkAlias false false) (dopri5_err_prog (N := NN) (mkAlias false false) t h) m) in
  @eq R (m' LErr tt) 0 /\ m' LOut = m LIn.
Proof.
  intros m t h Hd. cbv zeta.
  destruct (dopri5_R eps zero_sys separate t h m Hd) as ((ks & [L Z Sg] & Ho) & (ks' & [L' Z' Sg'] & He) & _).
  assert (K : forall s k, nth_error ks s = Some k -> k = fun _ => 0).
  { intros [|s] k Hk.
    - rewrite Z in Hk. now inversion Hk.
    - assert (Hs : (S s < length ks)%nat) by (apply nth_error_Some; congruence). rewrite L in Hs. cbn [length tab_a dopri5_tab7] in Hs.
      do 6 (destruct s as [|s]; [match type of Hk with nth_error _ (S ?n) = _ => rewrite (Sg n _ _ eq_refl eq_refl) in Hk end; now inversion Hk|]). lia. }
  assert (K' : forall s k, nth_error ks' s = Some k -> k = fun _ => 0).
  { intros [|s] k Hk.
    - rewrite Z' in Hk. now inversion Hk.
    - assert (Hs : (S s < length ks')%nat) by (apply nth_error_Some; congruence). rewrite L' in Hs. cbn [length tab_a dopri5_tab7] in Hs.
      do 6 (destruct s as [|s]; [match type of Hk with nth_error _ (S ?n) = _ => rewrite (Sg' n _ _ eq_refl eq_refl) in Hk end; now inversion Hk|]). lia. }
  assert (W : forall row l, (forall s k, nth_error l s = Some k -> k = fun _ : unit => 0) -> wsum row l tt = 0).
  { clear. induction row as [|a row IH]; intros l Hl; [reflexivity|]. destruct l as [|k l]; [reflexivity|].
    unfold wsum in *. cbn [combine map rsum fold_right fst snd]. fold (rsum (map (fun p => fst p * snd p tt) (combine row l))).
    rewrite (IH l) by (intros s k1; exact (Hl (Datatypes.S s) k1)). rewrite (Hl 0%nat k eq_refl). ring. }
  split.
  - change (mkAlias false false) with separate. rewrite He, (W _ _ K'). ring.
  - change (mkAlias false false) with separate. cbn [resolve separate al_x] in Ho.
    apply FunctionalExtensionality.functional_extensionality. intros []. rewrite Ho, (W _ _ K). apply (fun a => eq_trans (f_equal (Rplus a) (Rmult_0_r h)) (Rplus_0_r a)).
Qed.

Notation obj := (drf NN unit (rkmem NN unit * vec NN unit)).
Lemma zero_step : forall (o : obj), (df_der o = true -> df_cderiv o = fun _ => 0) ->
  exists o1 : obj, df_step (N := NN) zero_sys ftry o = (o1, Ok tt)
  /\ df_current o1 = df_current o /\ @eq R (df_t o1) ((df_t o : R) + df_dt o)
  /\ @eq R (df_dt o1) ((df_dt o : R) * grow 0 5) /\ (df_der o1 = true -> df_cderiv o1 = fun _ => 0).
Proof.
  intros o Hd. pose proof (abs_step (N := NN) zero_sys ftry o) as A.
  set (v0 := a_save (a_enter (N := NN) zero_sys (abs o))).
  assert (E : f_d v0 = (fun _ => 0) /\ f_x v0 = df_current o /\ f_t v0 = df_t o /\ f_dt v0 = df_dt o).
  { unfold v0, a_save, a_enter. destruct (f_der (abs o)) eqn:Ed; cbn [f_st f_x f_d f_ox f_od f_t f_told f_dt f_der].
    - change (f_d (abs o)) with (df_cderiv o). repeat split. exact (Hd Ed).
    - repeat split. }
  assert (Ev : v0 = a_save (a_enter (N := NN) zero_sys (abs o))) by reflexivity.
  clearbody v0. destruct E as (E1 & E2 & E3 & E4).
  assert (T : snd (a_try ftry v0) = true /\ f_ox (fst (a_try ftry v0)) = df_current o
     /\ @eq R (f_t (fst (a_try ftry v0))) ((df_t o : R) + df_dt o) /\ @eq R (f_dt (fst (a_try ftry v0))) ((df_dt o : R) * grow 0 5)
     /\ f_od (fst (a_try ftry v0)) = fun _ => 0).
  { clear Ev A. destruct v0 as [st x d ox od t told dt der]. cbn [f_st f_x f_d f_ox f_od f_t f_told f_dt f_der] in *. subst d x t dt.
    pose proof (a_try_cases (N := NN) zero_sys [tt] rpow 4 5 (late_cfg eps) 0%R st (df_current o) (fun _ => 0) ox od (df_t o) told (df_dt o) der) as T.
    cbv zeta in T.
    pose proof (zero_out (upd (upd (fst st) LIn (df_current o)) LDx (fun _ => 0)) (df_t o) (df_dt o) (upd_same _ _ _)) as ZO.
    rewrite upd_other, upd_same in ZO by discriminate. cbv zeta in ZO.
    pose proof (dopri5_fstep_last (N := NN) zero_sys (mkAlias false false) (fst st) (df_current o) (fun _ => 0) (df_t o) (df_dt o)) as DL.
    unfold dopri5_fstep in DL. cbn [fst snd] in DL. unfold rd in DL. cbn [resolve al_x al_dx] in DL.
    set (m2 := fst (exec (N := NN) zero_sys (mkAlias false false) (dopri5_err_prog (N := NN) (mkAlias false false) (df_t o) (df_dt o))
                    (upd (upd (fst st) LIn (df_current o)) LDx (fun _ => 0)))) in *. clearbody m2.
    pose proof (late_err eps (df_current o) (fun _ => 0) (m2 LErr) (df_dt o)) as EV.
    destruct (checker_error (N := NN) [tt] (late_cfg eps) (df_current o) (fun _ => 0) (m2 LErr) (df_dt o)) as [xe err]. cbn [fst snd] in T, EV.
    destruct ZO as [Z1 Z2]. rewrite Z1, Rabs_R0 in EV.
    assert (EV0 : err = 0) by (change (carrier NN) with R in *; lra). clear EV. subst err.
    destruct T as [(E & _)|[(_ & El & _)|(_ & El & ->)]]; cbn [fst snd f_t f_ox f_od f_dt].
    - apply check_R_false in E. destruct E as [E _]. now elim E.
    - apply Rltb_true in El. change (@nofZ NN 1) with 1 in El. lra.
    - split; [reflexivity|]. split; [exact Z2|]. split; [reflexivity|]. split; [|exact DL].
      rewrite increase_R. destruct (Rltb 0 (1 / 2)) eqn:Q; [|apply Rltb_false in Q; lra].
      destruct (@nneq NN 0%R 0%R) eqn:Q2; [apply nneq_R in Q2; now elim Q2|reflexivity]. }
  destruct T as (T1 & T2 & T3 & T4 & T5).
  exists (fst (df_step (N := NN) zero_sys ftry o)).
  destruct (a_step_char (N := NN) zero_sys ftry (abs o)) as [(j & J1 & J2 & J3 & J4)|(J1 & J2)];
    rewrite <- Ev in *.
  - destruct j as [|j].
    + cbn [attempts] in J4. rewrite A in J4. pose proof (f_equal fst J4) as J5. pose proof (f_equal snd J4) as J6. cbn [fst snd] in J5, J6. symmetry in J6.
      split; [rewrite J6; exact (surjective_pairing (df_step (N := NN) zero_sys ftry o))|].
      pose proof (f_equal f_x J5) as X1. pose proof (f_equal f_t J5) as X2.
      pose proof (f_equal f_dt J5) as X3. pose proof (f_equal f_d J5) as X4.
      split; [exact (eq_trans X1 T2)|]. split; [exact (eq_trans X2 T3)|]. split; [exact (eq_trans X3 T4)|].
      intros _. exact (eq_trans X4 T5).
    + specialize (J3 0%nat (Nat.lt_0_succ _)). cbn [attempts] in J3. congruence.
  - specialize (J1 0%nat (Nat.lt_0_succ _)). cbn [attempts] in J1. congruence.
Qed.
End Zero.

(** Theorems about dense_output_runge_kutta (C99-C103). *)
From Coq Require Import ZArith List Bool Lia Arith Reals Lra QArith.
From Verif Require Import M_Num M_Sign M_Run M_Checker M_RK S_RK P_RK M_CtrlRK M_Dense M_DenseRK S_DenseRK P_Det
  S_Real S_Grid S_Dense S_Ctrl S_CtrlRK P_R P_CtrlRKR P_DenseRK P_DenseRef P_DenseRKR P_DenseRKX T_Dense X_Inst.
Import ListNotations.
Local Open Scope R_scope.

(** ** C99: what was done with the object before initialize has no influence on anything visible
    after the next do_step; any number type, [pow] arbitrary. *)
Theorem C99_dopri5 : forall (N : Num) I (sys : vec N I -> N -> vec N I) idx pw eo so cfg max_dt n
    (o o' : drf N I (rkmem N I * vec N I)) x t dt,
  let step := df_step sys (dopri5_ftry sys idx pw eo so cfg max_dt) in
  let r := do_steps step (S n) (df_init o x t dt) in
  let r' := do_steps step (S n) (df_init o' x t dt) in
  snd r = snd r' /\ (snd r = Ok tt -> df_view (fst r) = df_view (fst r')).
Proof. intros N I sys idx pw eo so cfg max_dt. exact (dopri5_fresh sys idx pw eo so cfg max_dt). Qed.
Print Assumptions C99_dopri5.

Theorem C99_euler : forall (N : Num) I (sys : vec N I -> N -> vec N I) n
    (o o' : drp N I (rkmem N I)) junk junk' x t dt,
  dp_view sys junk (dp_steps sys (S n) (dp_init o x t dt))
  = dp_view sys junk' (dp_steps sys (S n) (dp_init o' x t dt)).
Proof. intros N I sys. exact (euler_fresh sys). Qed.
Print Assumptions C99_euler.

(** Without a do_step there is a difference: calc_state works with the old interval. *)
Example C99_before_step :
  let sys := fun (x : vec (QNum 0) unit) (_ : Q) => x in
  let mk := fun t0 : Q => mkDrp (N := QNum 0) (fun (_ : loc) (_ : unit) => 1%Q) (fun _ => 1%Q) (fun _ => 0%Q) true 0%Q t0 0%Q in
  dp_calc (N := QNum 0) (euler_pcalc (N := QNum 0) sys) (dp_init (N := QNum 0) (mk 0%Q) (fun _ => 1%Q) 0%Q 1%Q) (fun _ => 0%Q) 2%Q tt
  <> dp_calc (N := QNum 0) (euler_pcalc (N := QNum 0) sys) (dp_init (N := QNum 0) (mk 1%Q) (fun _ => 1%Q) 0%Q 1%Q) (fun _ => 0%Q) 2%Q tt.
Proof. vm_compute. discriminate. Qed.

(** ** C100: dopri5, any number of steps after initialize: previous_state and previous_time are the
    current ones before the last step; the interpolant meets both states and its slope at both ends
    is the right-hand side, so over two consecutive steps it is continuously differentiable. *)
Theorem C100_interpolant : forall eps : R, (0 <= eps)%R ->
  forall I (idx : list I) (sys : (I -> R) -> R -> (I -> R)) eo so, (2 <= eo)%Z -> (1 <= so)%Z ->
  forall (cfg : err_cfg (RNum eps)) (max_dt : R),
  let step := df_step (N := RNum eps) sys (dopri5_ftry (N := RNum eps) sys idx rpow eo so cfg max_dt) in
  let D := df_calc (N := RNum eps) (dopri5_fcalc (N := RNum eps)) in
  forall n o x (t dt : R) o1, dt <> 0 -> agrees dt max_dt ->
  do_steps step (S n) (df_init (N := RNum eps) o x t dt) = (o1, Ok tt) ->
  exists o0, do_steps step n (df_init (N := RNum eps) o x t dt) = (o0, Ok tt)
  /\ df_told o1 = df_t o0 /\ df_old o1 = df_current o0
  /\ 0 < dir dt * (df_t o1 - df_t o0)
  /\ forall i, D o1 (df_told o1) i = df_old o1 i /\ D o1 (df_t o1) i = df_current o1 i
     /\ derivable_pt_lim (fun s => D o1 s i) (df_told o1) (sys (df_old o1) (df_told o1) i)
     /\ derivable_pt_lim (fun s => D o1 s i) (df_t o1) (sys (df_current o1) (df_t o1) i).
Proof.
  intros eps He I idx sys eo so Heo Hso cfg max_dt. exact (dense_run eps He idx sys eo so Heo Hso cfg max_dt).
Qed.
Print Assumptions C100_interpolant.

Theorem C100_smooth : forall eps : R, (0 <= eps)%R ->
  forall I (idx : list I) (sys : (I -> R) -> R -> (I -> R)) eo so, (2 <= eo)%Z -> (1 <= so)%Z ->
  forall (cfg : err_cfg (RNum eps)) (max_dt : R),
  let step := df_step (N := RNum eps) sys (dopri5_ftry (N := RNum eps) sys idx rpow eo so cfg max_dt) in
  let D := df_calc (N := RNum eps) (dopri5_fcalc (N := RNum eps)) in
  forall n o x (t dt : R) o1 o2, dt <> 0 -> agrees dt max_dt ->
  do_steps step (S n) (df_init (N := RNum eps) o x t dt) = (o1, Ok tt) ->
  do_steps step (S (S n)) (df_init (N := RNum eps) o x t dt) = (o2, Ok tt) ->
  let T : R := df_t o1 in
  forall i, exists l : R,
    @eq R (D o1 T i) (D o2 T i)
    /\ derivable_pt_lim (fun s => D o1 s i) T l /\ derivable_pt_lim (fun s => D o2 s i) T l.
Proof.
  intros eps He I idx sys eo so Heo Hso cfg max_dt step D n o x t dt o1 o2 Hdt Ha H1 H2 T i.
  destruct (dense_run eps He idx sys eo so Heo Hso cfg max_dt n o x t dt o1 Hdt Ha H1) as (o0 & _ & _ & _ & _ & G1).
  destruct (dense_run eps He idx sys eo so Heo Hso cfg max_dt (S n) o x t dt o2 Hdt Ha H2) as (o1' & E & Et & Ex & _ & G2).
  assert (o1' = o1) by (unfold step in H1; pose proof (eq_trans (eq_sym E) H1) as Q; now inversion Q). subst o1'.
  destruct (G1 i) as (_ & A2 & _ & A4). destruct (G2 i) as (B1 & _ & B3 & _). cbv zeta in *.
  rewrite Et, Ex in B1, B3.
  exists (sys (df_current o1) (df_t o1) i). split; [exact (eq_trans A2 (eq_sym B1))|]. split; [exact A4|exact B3].
Qed.
Print Assumptions C100_smooth.

(** Runs of any length exist: x' = 0, dopri5 with order() = 5 and error_order() = 4. *)
Example C100_ex : forall (eps : R) n (o : drf (RNum eps) unit (rkmem (RNum eps) unit * vec (RNum eps) unit)) x (t dt : R),
  exists o1, do_steps (df_step (N := RNum eps) zero_sys (dopri5_ftry (N := RNum eps) zero_sys [tt] rpow 4 5 (late_cfg eps) 0%R))
     n (df_init (N := RNum eps) o x t dt) = (o1, Ok tt).
Proof.
  intros eps n o x t dt.
  assert (H : forall k (o : drf (RNum eps) unit (rkmem (RNum eps) unit * vec (RNum eps) unit)), (df_der o = true -> df_cderiv o = (fun _ => 0%R)) ->
    exists o1, do_steps (df_step (N := RNum eps) zero_sys (dopri5_ftry (N := RNum eps) zero_sys [tt] rpow 4 5 (late_cfg eps) 0%R))
     k o = (o1, Ok tt)).
  { clear. induction k as [|k IH]; intros o H; [exists o; reflexivity|].
    destruct (zero_step eps o H) as (o1 & E & _ & _ & _ & H1). cbn [do_steps]. rewrite E. exact (IH o1 H1). }
  apply H. unfold df_init. destruct (df_cur o); discriminate.
Qed.

(** ** C101: the integrate functions with this stepper (no step limit).  do_step may throw after 500
    rejected attempts; a run that returns is a run of a stepper that satisfies the contract of C08,
    C09 and C13. *)
Section C101.
Variable eps : R.
Hypothesis He : (0 <= eps)%R.
Context {I W : Type}.
Variable idx : list I.
Variable sys : vec (RNum eps) I -> RNum eps -> vec (RNum eps) I.
Variable eo so : Z.
Hypothesis Heo : (2 <= eo)%Z.
Hypothesis Hso : (1 <= so)%Z.
Variable cfg : err_cfg (RNum eps).
Let ops := df_ops (N := RNum eps) sys (dopri5_ftry (N := RNum eps) sys idx (rpow : RNum eps -> RNum eps -> RNum eps) eo so cfg (0%R : RNum eps))
             (dopri5_fcalc (N := RNum eps)) W.
Let tops := df_total_ops eps idx sys eo so cfg W.

Lemma C101_adaptive_run : forall fuel s w x t0 tend dt tr a,
  integrate_adaptive_dense ops rec_obs fuel s w x t0 tend dt = (tr, Ok a) ->
  integrate_adaptive_dense tops rec_obs fuel s w x t0 tend dt = (tr, Ok a).
Proof.
  intros fuel s w x t0 tend dt tr a H.
  rewrite <- H. refine (adaptive_ref _ _ _ _ _ _ _ (df_ops_ref eps idx sys eo so cfg W) rec_obs fuel s w x t0 tend dt a _).
  exact (f_equal snd H).
Qed.
Lemma C101_times_run : forall fuel s w x times dt tr a,
  integrate_times_dense ops rec_obs fuel s w x times dt = (tr, Ok a) ->
  integrate_times_dense tops rec_obs fuel s w x times dt = (tr, Ok a).
Proof.
  intros fuel s w x times dt tr a H.
  rewrite <- H. refine (times_ref _ _ _ _ _ _ _ (df_ops_ref eps idx sys eo so cfg W) rec_obs fuel s w x times dt a _).
  exact (f_equal snd H).
Qed.
Lemma C101_n_steps_run : forall fuel s w x t0 dt n tr a,
  integrate_n_steps_dense ops rec_obs fuel s w x t0 dt n = (tr, Ok a) ->
  integrate_n_steps_dense tops rec_obs fuel s w x t0 dt n = (tr, Ok a).
Proof.
  intros fuel s w x t0 dt n tr a H.
  rewrite <- H. refine (n_steps_ref _ _ _ _ _ _ _ (df_ops_ref eps idx sys eo so cfg W) rec_obs fuel s w x t0 dt n a _).
  exact (f_equal snd H).
Qed.
End C101.

Theorem C101_adaptive : forall eps : R, (0 <= eps)%R ->
  forall I W (idx : list I) (sys : (I -> R) -> R -> (I -> R)) eo so, (2 <= eo)%Z -> (1 <= so)%Z ->
  forall (cfg : err_cfg (RNum eps)) fuel s (w : W) x (t0 tend dt : R) tr s' w' x' n,
  dt <> 0 -> 0 <= dir dt * (tend - t0) ->
  integrate_adaptive_dense (N := RNum eps)
    (df_ops (N := RNum eps) sys (dopri5_ftry (N := RNum eps) sys idx rpow eo so cfg 0%R) (dopri5_fcalc (N := RNum eps)) W)
    rec_obs fuel s w x t0 tend dt = (tr, Ok (s', w', x', n)) ->
  strictly_mono (dir dt) (map snd (obs_of tr))
  /\ Forall (fun T => dir dt * (T - tend) <= eps) (map snd (obs_of tr))
  /\ obs_of tr = (x, t0) :: reached_of tr
  /\ n = length (dos_of tr)
  /\ exists t', last (obs_of tr) (x, t0) = (x', t') /\ Rabs (tend - t') <= eps.
Proof.
  intros eps He I W idx sys eo so Heo Hso cfg fuel s w x t0 tend dt tr s' w' x' n Hdt Hd H.
  apply C101_adaptive_run in H.
  destruct (C08_adaptive_dense eps He _ W _ _ _ _ _ _ _ (df_contract eps He idx sys eo so Heo Hso cfg)
              fuel s w x t0 tend dt tr _ Hdt Hd H) as (_ & A & B & C).
  specialize (C s' w' x' n eq_refl). destruct C as (C1 & C2 & C3). auto.
Qed.
Print Assumptions C101_adaptive.

Theorem C101_times : forall eps : R, (0 <= eps)%R ->
  forall I W (idx : list I) (sys : (I -> R) -> R -> (I -> R)) eo so, (2 <= eo)%Z -> (1 <= so)%Z ->
  forall (cfg : err_cfg (RNum eps)) fuel s (w : W) x (t0 : R) times (dt : R) tr s' w' x' n,
  dt <> 0 -> spaced (dir dt) eps (t0 :: times) ->
  integrate_times_dense (N := RNum eps)
    (df_ops (N := RNum eps) sys (dopri5_ftry (N := RNum eps) sys idx rpow eo so cfg 0%R) (dopri5_fcalc (N := RNum eps)) W)
    rec_obs fuel s w x (t0 :: times) dt = (tr, Ok (s', w', x', n)) ->
  map snd (obs_of tr) = t0 :: times
  /\ valid_calcs (dir dt) eps None tr
  /\ (exists b, adjacent (dir dt) t0 (dos_of tr) b)
  /\ n = length (dos_of tr)
  /\ last (map fst (obs_of tr)) x = x'.
Proof.
  intros eps He I W idx sys eo so Heo Hso cfg fuel s w x t0 times dt tr s' w' x' n Hdt Hd H.
  apply C101_times_run in H.
  destruct (C13_times_dense eps He _ W _ _ _ _ _ _ _ (df_contract eps He idx sys eo so Heo Hso cfg)
              fuel s w x t0 times dt tr _ Hdt Hd H) as (_ & _ & A & _ & B & C).
  specialize (C s' w' x' n eq_refl). destruct C as (C1 & C2 & C3). auto.
Qed.
Print Assumptions C101_times.

Theorem C101_n_steps : forall eps : R, (0 <= eps)%R ->
  forall I W (idx : list I) (sys : (I -> R) -> R -> (I -> R)) eo so, (2 <= eo)%Z -> (1 <= so)%Z ->
  forall (cfg : err_cfg (RNum eps)) fuel s (w : W) x (t0 dt : R) n tr s' w' x' tm,
  dt <> 0 ->
  integrate_n_steps_dense (N := RNum eps)
    (df_ops (N := RNum eps) sys (dopri5_ftry (N := RNum eps) sys idx rpow eo so cfg 0%R) (dopri5_fcalc (N := RNum eps)) W)
    rec_obs fuel s w x t0 dt n = (tr, Ok (s', w', x', tm)) ->
  @eq R tm (t0 + INR n * dt)
  /\ map snd (obs_of tr) = map (fun k => t0 + INR k * dt) (seq 0 (S n))
  /\ valid_calcs (dir dt) eps None tr
  /\ exists b, adjacent (dir dt) t0 (dos_of tr) b.
Proof.
  intros eps He I W idx sys eo so Heo Hso cfg fuel s w x t0 dt n tr s' w' x' tm Hdt H.
  apply C101_n_steps_run in H.
  destruct (C09_n_steps_dense eps He _ W _ _ _ _ _ _ _ (df_contract eps He idx sys eo so Heo Hso cfg)
              t0 dt Hdt n fuel s w x tr _ H) as (A & _ & B & _ & C).
  specialize (C s' w' x' tm eq_refl). destruct C as (C1 & C2 & _). auto.
Qed.
Print Assumptions C101_n_steps.

(** A run that meets the hypotheses: x' = 0 from 0 to 1 with dt = 1 takes one step. *)
Lemma one_step_run : forall (N : Num) S X (D : DenseOps N S unit X) s x (t0 tend dt : N) s1 e,
  let s0 := d_init D s x t0 dt in
  let s2 := d_init D s1 (d_x D s1) (d_t D s1) (nsub tend (d_t D s1)) in
  less_with_sign (d_t D s0) tend (d_dt D s0) = true ->
  less_eq_with_sign (nadd (d_t D s0) (d_dt D s0)) tend (d_dt D s0) = true ->
  d_step D s0 tt = (e, Ok (s1, tt)) ->
  less_eq_with_sign (nadd (d_t D s1) (d_dt D s1)) tend (d_dt D s1) = false ->
  less_with_sign (d_t D s2) tend (d_dt D s2) = false ->
  exists tr, integrate_adaptive_dense D rec_obs 3 s tt x t0 tend dt = (tr, Ok (s2, tt, d_x D s2, 1%nat)).
Proof.
  intros N S X D s x t0 tend dt s1 e s0 s2 H1 H2 H3 H4 H5.
  unfold integrate_adaptive_dense, call_init, rec_obs, bind. fold s0. cbn [iad_outer iad_inner].
  rewrite H1. unfold bind. rewrite H2, H3. unfold reinit_to, call_init, ret. rewrite H4. fold s2. rewrite H5. eexists. reflexivity.
Qed.

Example C101_ex : forall (o : drf (RNum 0) unit (rkmem (RNum 0) unit * vec (RNum 0) unit)) x,
  exists tr o1 x1, integrate_adaptive_dense (N := RNum 0)
    (df_ops (N := RNum 0) zero_sys (dopri5_ftry (N := RNum 0) zero_sys [tt] rpow 4 5 (late_cfg 0) 0%R) (dopri5_fcalc (N := RNum 0)) unit)
    rec_obs 3 o tt x 0%R 1%R 1%R = (tr, Ok (o1, tt, x1, 1%nat)).
Proof.
  intros o x. set (D := df_ops _ _ _ _).
  set (o0 := df_init (N := RNum 0) o x 0%R 1%R).
  assert (A : @eq R (df_t o0) 0 /\ @eq R (df_dt o0) 1 /\ df_der o0 = false).
  { unfold o0, df_init. destruct (df_cur o); auto. }
  destruct A as (A1 & A2 & A3).
  destruct (zero_step 0 o0) as (o1 & E & _ & E2 & E3 & _); [rewrite A3; discriminate|].
  assert (E2' : @eq R (df_t o1) 1) by (rewrite E2, A1, A2; ring).
  assert (E3' : @eq R (df_dt o1) (grow 0 5)) by (rewrite E3, A2; ring).
  set (o2 := df_init (N := RNum 0) o1 (df_current o1) (df_t o1) (1 - df_t o1)%R).
  assert (B : @eq R (df_t o2) 1).
  { unfold o2, df_init. destruct (df_cur o1); cbn [df_t df_dt]; exact E2'. }
  pose proof (grow_pos 0 5) as G.
  assert (P : forall h, 0 < h -> dir h = 1) by (intros h Hh; unfold dir; destruct (Rlt_dec 0 h); lra).
  destruct (one_step_run (RNum 0) _ _ D o x 0%R 1%R 1%R o1 [EDo (df_told o1) (df_t o1) (df_current o1)]) as (tr & H).
  - apply (proj2 (less_R 0 _ _ _)). change (dir (df_dt o0) * (1 - df_t o0) > 0). rewrite A1, A2, P; lra.
  - apply (proj2 (leq_R 0 _ _ _)). change (dir (df_dt o0) * (df_t o0 + df_dt o0 - 1) <= 0). rewrite A1, A2, P; lra.
  - unfold D, df_ops. cbn [d_step d_init]. fold o0. rewrite E. reflexivity.
  - apply (proj2 (leq_R_false 0 _ _ _)). change (dir (df_dt o1) * (df_t o1 + df_dt o1 - 1) > 0). rewrite E2', E3', P; lra.
  - apply (proj2 (less_R_false 0 _ _ _)). change (dir (df_dt o2) * (1 - df_t o2) <= 0). rewrite B. lra.
  - exists tr. eexists. eexists. exact H.
Qed.

(** ** C102 is false: do_step throws step_adjustment_error although its last attempt was accepted;
    current_time has moved on, current_state has not. *)
Theorem C102_refuted : forall eps delta : R, (0 <= eps)%R -> 0 < delta ->
  exists (sys : (unit -> R) -> R -> (unit -> R)) (cfg : err_cfg (RNum eps)),
  forall o : drf (RNum eps) unit (rkmem (RNum eps) unit * vec (RNum eps) unit),
  let try := dopri5_ftry (N := RNum eps) sys [tt] rpow 4 5 cfg 0%R in
  let o1 := df_init (N := RNum eps) o (fun _ => 0) 0 (5 ^ default_max_steps * delta)%R in
  let r := df_step (N := RNum eps) sys try o1 in
  snd (attempts (df_try (N := RNum eps) try) default_max_steps (df_save_time (df_enter (N := RNum eps) sys o1))) = true
  /\ snd r = Exc StepAdjustment
  /\ @eq R (df_t (fst r)) delta /\ df_current (fst r) = (fun _ => 0) /\ sys (fun _ => 0) 0 tt = 1.
Proof.
  intros eps delta He Hd. exists (late_sys delta), (late_cfg eps). intro o.
  destruct (late_throws eps delta Hd default_max_steps eq_refl o) as (A & B & C & D).
  cbv zeta. split; [exact A|]. split; [exact B|]. split; [exact C|]. split; [exact D|].
  unfold late_sys. destruct (Rle_dec 0 delta); [reflexivity|lra].
Qed.
Print Assumptions C102_refuted.

(** What holds (any stepper, any number type): an acceptance among the first 500 attempts ends the
    step normally with that attempt; otherwise 501 attempts are made and do_step throws. *)
Theorem C102_partial : forall (N : Num) I C (sys : vec N I -> N -> vec N I)
    (ftry : C -> vec N I -> vec N I -> N -> vec N I -> vec N I -> N -> C * vec N I * vec N I * N * N * bool) o,
  let o0 := df_save_time (df_enter sys o) in
  (exists j, (j < default_max_steps)%nat /\ snd (attempts (df_try ftry) j o0) = true
      /\ (forall i, (i < j)%nat -> snd (attempts (df_try ftry) i o0) = false)
      /\ df_step sys ftry o = (df_toggle (fst (attempts (df_try ftry) j o0)), Ok tt))
  \/ ((forall i, (i < default_max_steps)%nat -> snd (attempts (df_try ftry) i o0) = false)
      /\ df_step sys ftry o = (fst (attempts (df_try ftry) default_max_steps o0), Exc StepAdjustment)).
Proof. intros N I C sys ftry. exact (df_step_char sys ftry). Qed.
Print Assumptions C102_partial.

(** Both cases occur: the step of C102_refuted throws, every step of C100_ex returns. *)
Example C102_ex : exists (o : drf (RNum 0) unit (rkmem (RNum 0) unit * vec (RNum 0) unit)),
  snd (df_step (N := RNum 0) (late_sys 1) (dopri5_ftry (N := RNum 0) (late_sys 1) [tt] rpow 4 5 (late_cfg 0) 0%R) o) = Exc StepAdjustment
  /\ snd (df_step (N := RNum 0) zero_sys (dopri5_ftry (N := RNum 0) zero_sys [tt] rpow 4 5 (late_cfg 0) 0%R) o) = Ok tt.
Proof.
  set (z := (fun _ : unit => 0%R) : vec (RNum 0) unit).
  set (o := mkDrf (N := RNum 0) (C := rkmem (RNum 0) unit * vec (RNum 0) unit) ((fun _ => z), z) true z z z z 0%R 0%R 0%R false).
  exists (df_init (N := RNum 0) o z 0%R (5 ^ default_max_steps * 1)%R). split.
  - exact (proj1 (proj2 (late_throws 0 1 Rlt_0_1 default_max_steps eq_refl o))).
  - destruct (zero_step 0 (df_init (N := RNum 0) o z 0%R (5 ^ default_max_steps * 1)%R)) as (o1 & E & _); [discriminate|].
    rewrite E. reflexivity.
Qed.

(** ** C103: euler.  The interpolant is the straight line from the previous state with the slope
    there, for every number type; over the reals it meets the current state. *)
Theorem C103_euler : forall (N : Num) I (sys : vec N I -> N -> vec N I) n (o : drp N I (rkmem N I)) junk x t dt,
  let o0 := dp_steps sys n (dp_init o x t dt) in
  let o1 := dp_steps sys (S n) (dp_init o x t dt) in
  dp_old o1 = dp_current o0 /\ dp_told o1 = dp_t o0 /\ dp_t o1 = (dp_t o0 + dp_dt o0)%num
  /\ forall s i, dp_calc (euler_pcalc sys) o1 junk s i
     = scale_sum [(nofZ 1, dp_current o0 i); ((s - dp_t o0)%num, sys (dp_current o0) (dp_t o0) i)].
Proof.
  intros N I sys n o junk x t dt. cbv zeta. rewrite dp_steps_last.
  pose proof (dp_step_view sys (dp_steps sys n (dp_init o x t dt)) junk) as V. cbv zeta in V.
  split; [exact (f_equal v_px V)|]. split; [exact (f_equal v_pt V)|]. split; [exact (f_equal v_t V)|].
  intros s i. exact (f_equal (fun v => v_calc v s i) V).
Qed.
Print Assumptions C103_euler.

Theorem C103_reals : forall (eps : R) I (sys : (I -> R) -> R -> (I -> R)) n (o : drp (RNum eps) I (rkmem (RNum eps) I)) junk x (t dt : R),
  let o1 := dp_steps (N := RNum eps) sys (S n) (dp_init (N := RNum eps) o x t dt) in
  forall i, @eq R (dp_calc (N := RNum eps) (euler_pcalc (N := RNum eps) sys) o1 junk (dp_told o1) i) (dp_old o1 i)
    /\ @eq R (dp_calc (N := RNum eps) (euler_pcalc (N := RNum eps) sys) o1 junk (dp_t o1) i) (dp_current o1 i).
Proof.
  intros eps I sys n o junk x t dt. cbv zeta. rewrite dp_steps_last. intro i.
  set (o0 := dp_steps (N := RNum eps) sys n (dp_init (N := RNum eps) o x t dt)). clearbody o0.
  pose proof (dp_step_view (N := RNum eps) sys o0 junk) as V. cbv zeta in V.
  set (o1 := dp_step (euler_pstep (N := RNum eps) sys) o0) in *. clearbody o1.
  pose proof (f_equal v_px V) as V1. pose proof (f_equal v_pt V) as V2. pose proof (f_equal v_t V) as V3.
  pose proof (f_equal v_x V) as V4. pose proof (f_equal v_calc V) as V5.
  cbn [v_px v_pt v_t v_x v_calc dp_view] in V1, V2, V3, V4, V5.
  rewrite V1, V2, V3, V4.
  pose proof (f_equal (fun g => g (dp_t o0) i) V5) as E1.
  pose proof (f_equal (fun g => g (dp_t o0 + dp_dt o0)%num i) V5) as E2. cbv beta in E1, E2.
  split; [refine (eq_trans E1 _)|refine (eq_trans E2 _)]; unfold scale_sum;
    cbn [map fold_left fold_right fst snd nadd nmul nsub nofZ RNum]; change (carrier (RNum eps)) with R in *; ring.
Qed.
Print Assumptions C103_reals.

(** In double precision it does not: calc_state at current_time copies the current state and then
    overwrites it (dense_output_runge_kutta.hpp:145-149).  x' = 1 from x(1) = 0 with dt = 0.1 (the
    double nearest to it): the state is 0.1, calc_state gives another number. *)
Theorem C103_refuted :
  let sys := fun (_ : vec F64 unit) (_ : F64) => fun _ : unit => f64_ofZ 1 in
  let z := fun _ : unit => f64_ofZ 0 in
  let o := mkDrp (N := F64) (fun (_ : loc) => z) z z true (f64_ofZ 0) (f64_ofZ 0) (f64_ofZ 0) in
  let o1 := dp_steps sys 1 (dp_init o z (f64_ofZ 1) (f64_dyadic 3602879701896397 (-55))) in
  dp_calc (euler_pcalc sys) o1 z (dp_t o1) tt <> dp_current o1 tt.
Proof. vm_compute. discriminate. Qed.
Print Assumptions C103_refuted.

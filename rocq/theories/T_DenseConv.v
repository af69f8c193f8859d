(** Accuracy of the dense output of dopri5 between the steps, for smooth nonlinear systems (C121). *)
From Coq Require Import List Arith ZArith Reals Lia Lra.
From Verif Require Import M_Num M_Sign M_Run M_Checker M_RK S_RK P_RK P_RKR M_CtrlRK M_Dense M_DenseRK S_DenseRK S_Grid S_Real S_Dense S_Ctrl S_CtrlRK S_Conv S_BSeries
  P_R P_PlainR P_CtrlRKR P_RKNamed P_RKOrder P_RKAll P_Integrate P_DenseRK P_DenseRef P_DenseRKR P_DenseRKX P_Conv P_ConvRun P_ConvOrd P_Butcher
  P_DenseConv P_DenseConvRun P_DenseReplay P_DenseConvDrv P_DenseSin T_Dense T_DenseRK T_Butcher.
Import ListNotations.
Local Open Scope R_scope.

(** The bound: [a] the time since the start, [h] the longest step, [d] the initial error, [E] the constant of the local errors.
    The first factor is how much an error at the beginning of a step can grow inside of it. *)
Definition dense_error_bound (eps L H E h d a : R) : R :=
  (1 + H * (6 * L * (1 + H * L * stage_size (dopri5_tab7 (N := RNum eps))) ^ 6))
  * (exp (growth (dopri5_tab7 (N := RNum eps)) L H * a) * (d + E * h ^ 5 * a)) + E * h ^ 5.

Lemma constants eps (I : Type) M H : 0 <= M -> 0 <= H -> exists E, 0 <= E /\
  forall (f : (I -> R) -> R -> (I -> R)) y D (T : R -> Prop),
  (forall s u c, T s -> T u -> 0 <= c <= 1 -> T (s + c * (u - s))) ->
  taylor 5 M (fun v => exists t, T t /\ v = point (y t) t) (autonomous f) D -> solution T f y ->
  consistent (tab_of (N := RNum eps) rk_dopri5) f y T H E 5
  /\ forall t h ks, T t -> T (t + h) -> Rabs h <= H -> rk_stages_R eps (tab_of (N := RNum eps) rk_dopri5) f (y t) t h ks ->
     forall th i, 0 <= th <= 1 -> Rabs (y t i + h * wsum (dense_weights th) ks i - y (t + th * h) i) <= E * Rabs h ^ 5.
Proof.
  intros HM HH. destruct (C120_step eps rk_dopri5 I M H HM HH) as (E1 & P1 & B1).
  destruct (dense_on_solution eps (I := I) M H HM HH) as (E2 & P2 & B2).
  exists (E1 + E2). split; [lra|]. intros f y D T Tc Tay Sol. split.
  - intros t h x' Ht Hth Hh Hr i. eapply Rle_trans; [exact (B1 f y D T Tc Tay Sol t h x' Ht Hth Hh Hr i)|].
    apply Rmult_le_compat_r; [apply pow_le, Rabs_pos|lra].
  - intros t h ks Ht Hth Hh Hk th i Hi.
    eapply Rle_trans; [exact (B2 f y D T Tc (taylor_weaken 5 4 M _ _ D ltac:(lia) Tay) Sol t h ks Ht Hth Hh Hk th i Hi)|].
    apply Rmult_le_compat_r; [apply pow_le, Rabs_pos|lra].
Qed.

(** ** C121: after any number of steps the interpolant is within O(h^5) of the solution everywhere in the last step, h the
    longest step made. *)
Theorem C121_interpolant : forall eps, 0 <= eps -> forall (I : Type) M H, 0 <= M -> 0 <= H -> exists E, 0 <= E /\
  forall (idx : list I) (sys : (I -> R) -> R -> (I -> R)) eo so (cfg : err_cfg (RNum eps)) (max_dt : R) y D (T : R -> Prop) L d h,
  (2 <= eo)%Z -> (1 <= so)%Z -> 0 <= L -> 0 <= d -> 0 <= h <= H ->
  (forall s u c, T s -> T u -> 0 <= c <= 1 -> T (s + c * (u - s))) ->
  lipschitz T L sys -> solution T sys y ->
  taylor 5 M (fun v => exists t, T t /\ v = point (y t) t) (autonomous sys) D ->
  let step := df_step (N := RNum eps) sys (dopri5_ftry (N := RNum eps) sys idx rpow eo so cfg max_dt) in
  forall n o x (t dt : R) o1, dt <> 0 -> agrees dt max_dt -> (forall j, Rabs (x j - y t j) <= d) ->
  do_steps step (S n) (df_init (N := RNum eps) o x t dt) = (o1, Ok tt) -> T t -> T (df_t o1) ->
  (forall k a b, (k <= n)%nat -> do_steps step k (df_init (N := RNum eps) o x t dt) = (a, Ok tt) ->
     do_steps step (S k) (df_init (N := RNum eps) o x t dt) = (b, Ok tt) -> Rabs (df_t b - df_t a) <= h) ->
  forall c i, 0 <= c <= 1 -> let s := df_told o1 + c * (df_t o1 - df_told o1) in
  Rabs (df_calc (N := RNum eps) (dopri5_fcalc (N := RNum eps)) o1 s i - y s i) <= dense_error_bound eps L H E h d (Rabs (s - t)).
Proof.
  intros eps He I M H HM HH. destruct (constants eps I M H HM HH) as (E & PE & B). exists E. split; [exact PE|].
  intros idx sys eo so cfg max_dt y D T L d h Heo Hso HL Hd Hh Tc Lip Sol Tay step n o x t dt o1 Hdt Ha Hx Hr Ht Ht1 Hst c i Hc s.
  destruct (B sys y D T Tc Tay Sol) as [B1 B2].
  set (o0 := df_init (N := RNum eps) o x t dt) in *.
  assert (I0 : df_t o0 = t /\ df_current o0 = x /\ df_dt o0 = dt /\ sound eps sys (abs o0)).
  { unfold o0. rewrite abs_init. unfold df_init. destruct (df_cur o) eqn:Ec; cbn [df_t df_dt]; unfold df_current; cbn;
    (repeat (split; [reflexivity|])); discriminate. }
  destruct I0 as (I1 & I2 & I3 & I4). clearbody o0.
  rewrite <- I3 in Hdt, Ha. rewrite <- I1 in Ht. rewrite <- I2, <- I1 in Hx. rewrite <- I1.
  exact (steps_acc eps He idx sys eo so Heo Hso cfg max_dt T Tc L H E HL HH PE Lip y B1 B2 h Hh n o0 o1 d I4 Hdt Ha Hd Ht Hx Hr Ht1 Hst c i Hc).
Qed.
Print Assumptions C121_interpolant.

(** With the step limit max_dt the bound is known in advance. *)
Theorem C121_limited : forall eps, 0 <= eps -> forall (I : Type) M H, 0 <= M -> 0 <= H -> exists E, 0 <= E /\
  forall (idx : list I) (sys : (I -> R) -> R -> (I -> R)) eo so (cfg : err_cfg (RNum eps)) (max_dt : R) y D (T : R -> Prop) L d,
  (2 <= eo)%Z -> (1 <= so)%Z -> 0 <= L -> 0 <= d -> max_dt <> 0 -> Rabs max_dt + eps <= H ->
  (forall s u c, T s -> T u -> 0 <= c <= 1 -> T (s + c * (u - s))) ->
  lipschitz T L sys -> solution T sys y ->
  taylor 5 M (fun v => exists t, T t /\ v = point (y t) t) (autonomous sys) D ->
  let step := df_step (N := RNum eps) sys (dopri5_ftry (N := RNum eps) sys idx rpow eo so cfg max_dt) in
  forall n o x (t dt : R) o1, dt <> 0 -> agrees dt max_dt -> (forall j, Rabs (x j - y t j) <= d) ->
  do_steps step (S n) (df_init (N := RNum eps) o x t dt) = (o1, Ok tt) -> T t -> T (df_t o1) ->
  forall c i, 0 <= c <= 1 -> let s := df_told o1 + c * (df_t o1 - df_told o1) in
  Rabs (df_calc (N := RNum eps) (dopri5_fcalc (N := RNum eps)) o1 s i - y s i)
  <= dense_error_bound eps L H E (Rabs max_dt + eps) d (Rabs (s - t)).
Proof.
  intros eps He I M H HM HH. destruct (C121_interpolant eps He I M H HM HH) as (E & PE & B). exists E. split; [exact PE|].
  intros idx sys eo so cfg max_dt y D T L d Heo Hso HL Hd Hm HmH Tc Lip Sol Tay step n o x t dt o1 Hdt Ha Hx Hr Ht Ht1.
  refine (B idx sys eo so cfg max_dt y D T L d (Rabs max_dt + eps) Heo Hso HL Hd _ Tc Lip Sol Tay n o x t dt o1 Hdt Ha Hx Hr Ht Ht1 _).
  - pose proof (Rabs_pos max_dt). lra.
  - intros k a b _ Ea Eb. rewrite do_steps_last, Ea in Eb.
    destruct (run_sound eps He idx sys eo so Heo Hso cfg max_dt k o x t dt a Hdt Ha Ea) as (_ & Q2 & Q3 & _).
    pose proof (abs_step (N := RNum eps) sys (dopri5_ftry (N := RNum eps) sys idx (rpow : RNum eps -> RNum eps -> RNum eps) eo so cfg (max_dt : RNum eps)) a) as A.
    rewrite Eb in A. cbn [fst snd] in A.
    exact (step_limit eps He idx sys eo so Heo Hso cfg max_dt (abs a) (abs b) Hm Q2 Q3 A).
Qed.
Print Assumptions C121_limited.

(** ** The integrate functions with exact comparisons: every observation is within the bound, h the longest step made. *)
Definition along (t0 tend sg t : R) : Prop := 0 <= sg * (t - t0) /\ sg * (t - tend) <= 0.

Lemma along_conv t0 tend sg : forall s u c, along t0 tend sg s -> along t0 tend sg u -> 0 <= c <= 1 -> along t0 tend sg (s + c * (u - s)).
Proof.
  intros s u c [S1 S2] [U1 U2] Hc. split.
  - replace (sg * (s + c * (u - s) - t0)) with ((1 - c) * (sg * (s - t0)) + c * (sg * (u - t0))) by ring.
    assert (0 <= (1 - c) * (sg * (s - t0))) by (apply Rmult_le_pos; lra). assert (0 <= c * (sg * (u - t0))) by (apply Rmult_le_pos; lra). lra.
  - replace (sg * (s + c * (u - s) - tend)) with (- ((1 - c) * (- (sg * (s - tend))) + c * (- (sg * (u - tend))))) by ring.
    assert (0 <= (1 - c) * - (sg * (s - tend))) by (apply Rmult_le_pos; lra). assert (0 <= c * - (sg * (u - tend))) by (apply Rmult_le_pos; lra). lra.
Qed.

Lemma adjacent_after sg : forall l a b t0, 0 <= sg * (a - t0) -> adjacent sg a l b -> Forall (fun p => 0 <= sg * (snd p - t0)) l.
Proof.
  induction l as [|[p q] l IH]; intros a b t0 Ha Hl; [constructor|]. destruct Hl as (-> & H1 & H2). 
  assert (P : 0 <= sg * (q - t0)) by (replace (sg * (q - t0)) with (sg * (q - a) + sg * (a - t0)) by ring; lra).
  constructor; [exact P|]. exact (IH q b t0 P H2).
Qed.

Section Drivers.
Variables (I W : Type) (M H E : R).
Hypothesis HM : 0 <= M.
Hypothesis HH : 0 <= H.
Hypothesis PE : 0 <= E.
Hypothesis B : forall (f : (I -> R) -> R -> (I -> R)) y D (T : R -> Prop),
  (forall s u c, T s -> T u -> 0 <= c <= 1 -> T (s + c * (u - s))) ->
  taylor 5 M (fun v => exists t, T t /\ v = point (y t) t) (autonomous f) D -> solution T f y ->
  consistent (tab_of (N := RNum 0) rk_dopri5) f y T H E 5
  /\ forall t h ks, T t -> T (t + h) -> Rabs h <= H -> rk_stages_R 0 (tab_of (N := RNum 0) rk_dopri5) f (y t) t h ks ->
     forall th i, 0 <= th <= 1 -> Rabs (y t i + h * wsum (dense_weights th) ks i - y (t + th * h) i) <= E * Rabs h ^ 5.
Variables (idx : list I) (sys : (I -> R) -> R -> (I -> R)) (eo so : Z) (cfg : err_cfg (RNum 0)).
Hypothesis Heo : (2 <= eo)%Z.
Hypothesis Hso : (1 <= so)%Z.
Variables (y : R -> I -> R) (D : (option I -> R) -> list (option I -> R) -> (option I -> R)) (t0 tend dt L d h : R).
Hypothesis HL : 0 <= L.
Hypothesis Hd : 0 <= d.
Hypothesis Hh : 0 <= h <= H.
Hypothesis Hdt : dt <> 0.
Hypothesis Hdir : 0 <= dir dt * (tend - t0).
Hypothesis Lip : lipschitz (along t0 tend (dir dt)) L sys.
Hypothesis Sol : solution (along t0 tend (dir dt)) sys y.
Hypothesis Tay : taylor 5 M (fun v => exists t, along t0 tend (dir dt) t /\ v = point (y t) t) (autonomous sys) D.
Variable x : I -> R.
Hypothesis Hx : forall j, Rabs (x j - y t0 j) <= d.
Notation ops := (df_ops (N := RNum 0) sys (dopri5_ftry (N := RNum 0) sys idx rpow eo so cfg 0%R) (dopri5_fcalc (N := RNum 0)) W).

Lemma drivers s tr s' b : replay ops (df_init (N := RNum 0) s x t0 dt) tr s' ->
  adjacent (dir dt) t0 (dos_of tr) b -> valid_calcs (dir dt) 0 None tr ->
  Forall (fun p => dir dt * (snd p - tend) <= 0) (dos_of tr) -> Forall (fun p => Rabs (snd p - fst p) <= h) (dos_of tr) ->
  (forall j, Rabs (df_current s' j - y (df_t s') j) <= dense_error_bound 0 L H E h d (Rabs (df_t s' - t0)))
  /\ forall x' u, In (x', u) (obs_of tr) -> forall i, Rabs (x' i - y u i) <= dense_error_bound 0 L H E h d (Rabs (u - t0)).
Proof.
  intros Hr Hadj Hv Hend Hst.
  destruct (B sys y D _ (along_conv t0 tend (dir dt)) Tay Sol) as [B1 B2].
  set (o0 := df_init (N := RNum 0) s x t0 dt) in *.
  assert (I0 : df_t o0 = t0 /\ df_current o0 = x /\ df_dt o0 = dt /\ sound 0 sys (abs o0)).
  { unfold o0. rewrite abs_init. unfold df_init. destruct (df_cur s) eqn:Ec; cbn [df_t df_dt]; unfold df_current; cbn;
    (repeat (split; [reflexivity|])); discriminate. }
  destruct I0 as (I1 & I2 & I3 & I4). clearbody o0.
  assert (Z : dir dt * (t0 - t0) = 0) by ring.
  assert (OT : on_track 0 sys (along t0 tend (dir dt)) L H E y h (dir dt) t0 d o0).
  { split; [exact I4|]. rewrite I1, I2. split; [split; [lra|]|]. { replace (dir dt * (t0 - tend)) with (- (dir dt * (tend - t0))) by ring. lra. }
    split; [lra|]. intro j. replace (t0 - t0) with 0 by ring. rewrite Rabs_R0, bound_0. apply Hx. }
  destruct (replay_track 0 (Rle_refl 0) idx sys eo so Heo Hso cfg (along t0 tend (dir dt)) (along_conv t0 tend (dir dt)) L H E HL HH PE Lip y B1 B2 h Hh
    (dir dt) t0 d (P_Integrate.dir_pm dt) Hd o0 tr s' Hr None b OT Logic.I ltac:(rewrite I1; exact Hadj) Hv) as [G1 G2].
  { pose proof (adjacent_after (dir dt) _ t0 b t0 ltac:(lra) Hadj) as Af. rewrite Forall_forall in *. intros p Hp.
    split; [split; [exact (Af p Hp)|exact (Hend p Hp)]|exact (Hst p Hp)]. }
  split; [|exact G2]. destruct G1 as (_ & _ & _ & G1). intro j. eapply Rle_trans; [apply G1|].
  set (a := Rabs (df_t s' - t0)). assert (Pa : 0 <= a) by apply Rabs_pos.
  unfold dense_error_bound. change (exp (growth (dopri5_tab7 (N := RNum 0)) L H * a) * (d + E * h ^ 5 * a)) with (bound 0 L H E h d a).
  pose proof (bound_pos 0 L H E PE h Hh d a Hd Pa) as P1. pose proof (C_pos H E PE h Hh) as PC. pose proof (G_pos 0 L H HL HH) as PG.
  unfold dense_growth in PG. set (GG := 6 * L * (1 + H * L * stage_size (dopri5_tab7 (N := RNum 0))) ^ 6) in *.
  assert (0 <= H * GG) by now apply Rmult_le_pos. assert (0 <= (H * GG) * bound 0 L H E h d a) by now apply Rmult_le_pos. lra.
Qed.
End Drivers.

Theorem C121_times : forall (I : Type) M H, 0 <= M -> 0 <= H -> exists E, 0 <= E /\
  forall W (idx : list I) (sys : (I -> R) -> R -> (I -> R)) eo so (cfg : err_cfg (RNum 0)) y D t0 times dt L d h,
  (2 <= eo)%Z -> (1 <= so)%Z -> 0 <= L -> 0 <= d -> 0 <= h <= H -> dt <> 0 -> spaced (dir dt) 0 (t0 :: times) ->
  lipschitz (along t0 (last times t0) (dir dt)) L sys -> solution (along t0 (last times t0) (dir dt)) sys y ->
  taylor 5 M (fun v => exists t, along t0 (last times t0) (dir dt) t /\ v = point (y t) t) (autonomous sys) D ->
  forall fuel s (w : W) x tr r, (forall j, Rabs (x j - y t0 j) <= d) ->
  integrate_times_dense (N := RNum 0)
    (df_ops (N := RNum 0) sys (dopri5_ftry (N := RNum 0) sys idx rpow eo so cfg 0%R) (dopri5_fcalc (N := RNum 0)) W)
    rec_obs fuel s w x (t0 :: times) dt = (tr, Ok r) ->
  Forall (fun p => Rabs (snd p - fst p) <= h) (dos_of tr) ->
  map snd (obs_of tr) = t0 :: times
  /\ forall x' t', In (x', t') (obs_of tr) -> forall i,
     Rabs (x' i - y t' i) <= dense_error_bound 0 L H E h d (Rabs (t' - t0)).
Proof.
  intros I M H HM HH. destruct (constants 0 I M H HM HH) as (E & PE & B). exists E. split; [exact PE|].
  intros W idx sys eo so cfg y D t0 times dt L d h Heo Hso HL Hd Hh Hdt Hsp Lip Sol Tay fuel s w x tr [[[s' w'] x'] n] Hx Hr Hst.
  pose proof (C101_times_run 0 idx sys eo so cfg fuel s w x (t0 :: times) dt tr (s', w', x', n) Hr) as Hr2.
  destruct (C13_times_dense 0 (Rle_refl 0) _ W _ _ _ _ _ _ _ (df_contract 0 (Rle_refl 0) idx sys eo so Heo Hso cfg)
              fuel s w x t0 times dt tr _ Hdt Hsp Hr2) as (_ & _ & Hv & Hend & (b & Hadj) & C).
  destruct (C s' w' x' n eq_refl) as (C1 & _ & _). split; [exact C1|].
  destruct (times_replay (N := RNum 0) _ fuel s w x t0 times dt tr s' w' x' n Hr) as (tr1 & -> & Hrp).
  { cbn [d_x d_init df_ops]. unfold df_init. destruct (df_cur s); reflexivity. }
  { cbn [d_t d_init df_ops]. unfold df_init. destruct (df_cur s); reflexivity. }
  assert (Hdir : 0 <= dir dt * (last times t0 - t0)).
  { clear - Hsp. revert t0 Hsp. induction times as [|t1 times IH]; intros t0 Hsp; [cbn; rewrite Rminus_diag_eq by reflexivity; lra|].
    destruct Hsp as [H1 H2]. specialize (IH t1 H2). 
    replace (last (t1 :: times) t0) with (last times t1).
    - replace (dir dt * (last times t1 - t0)) with (dir dt * (last times t1 - t1) + dir dt * (t1 - t0)) by ring. lra.
    - clear. revert t0 t1. induction times as [|t2 times IH]; intros t0 t1; [reflexivity|]. change (last (t2 :: times) t1 = last (t2 :: times) t0). rewrite <- !IH. reflexivity. }
  exact (proj2 (drivers I W M H E HH PE B idx sys eo so cfg Heo Hso y D t0 (last times t0) dt L d h HL Hd Hh Hdir Lip Sol Tay x Hx
    s tr1 s' b Hrp Hadj Hv Hend Hst)).
Qed.
Print Assumptions C121_times.

Theorem C121_adaptive : forall (I : Type) M H, 0 <= M -> 0 <= H -> exists E, 0 <= E /\
  forall W (idx : list I) (sys : (I -> R) -> R -> (I -> R)) eo so (cfg : err_cfg (RNum 0)) y D t0 tend dt L d h,
  (2 <= eo)%Z -> (1 <= so)%Z -> 0 <= L -> 0 <= d -> 0 <= h <= H -> dt <> 0 -> 0 <= dir dt * (tend - t0) ->
  lipschitz (along t0 tend (dir dt)) L sys -> solution (along t0 tend (dir dt)) sys y ->
  taylor 5 M (fun v => exists t, along t0 tend (dir dt) t /\ v = point (y t) t) (autonomous sys) D ->
  forall fuel s (w : W) x tr s' w' x' n, (forall j, Rabs (x j - y t0 j) <= d) ->
  integrate_adaptive_dense (N := RNum 0)
    (df_ops (N := RNum 0) sys (dopri5_ftry (N := RNum 0) sys idx rpow eo so cfg 0%R) (dopri5_fcalc (N := RNum 0)) W)
    rec_obs fuel s w x t0 tend dt = (tr, Ok (s', w', x', n)) ->
  Forall (fun p => Rabs (snd p - fst p) <= h) (dos_of tr) ->
  (forall i, Rabs (x' i - y tend i) <= dense_error_bound 0 L H E h d (Rabs (tend - t0)))
  /\ forall x1 t1, In (x1, t1) (obs_of tr) -> forall i,
     Rabs (x1 i - y t1 i) <= dense_error_bound 0 L H E h d (Rabs (t1 - t0)).
Proof.
  intros I M H HM HH. destruct (constants 0 I M H HM HH) as (E & PE & B). exists E. split; [exact PE|].
  intros W idx sys eo so cfg y D t0 tend dt L d h Heo Hso HL Hd Hh Hdt Hdir Lip Sol Tay fuel s w x tr s' w' x' n Hx Hr Hst.
  pose proof (C101_adaptive_run 0 idx sys eo so cfg fuel s w x t0 tend dt tr (s', w', x', n) Hr) as Hr2.
  destruct (C08_adaptive_dense 0 (Rle_refl 0) _ W _ _ _ _ _ _ _ (df_contract 0 (Rle_refl 0) idx sys eo so Heo Hso cfg)
              fuel s w x t0 tend dt tr _ Hdt Hdir Hr2) as (_ & Hmono & Hend & C).
  destruct (C s' w' x' n eq_refl) as (C1 & _ & t' & C3 & C4).
  assert (Hnc : calcs_of tr = []).
  { refine (adaptive_nocalc (N := RNum 0) _ _ fuel s w x t0 tend dt tr _ Hr).
    intros s1 w1 e r Hs. cbn [d_step df_ops] in Hs. destruct (df_step _ _ s1) as [o3 [[]|e0| |]]; injection Hs as <- <-; reflexivity. }
  destruct (adaptive_replay (N := RNum 0) _ fuel s w x t0 tend dt tr s' w' x' n Hr) as (tr1 & -> & Hrp).
  assert (Et : df_t (df_init (N := RNum 0) s x t0 dt) = t0) by (unfold df_init; destruct (df_cur s); reflexivity).
  change (reached_of (EInit x t0 dt :: tr1)) with (reached_of tr1) in C1.
  assert (Em : map snd (obs_of (EInit x t0 dt :: tr1)) = t0 :: map snd (reached_of tr1)) by exact (f_equal (map snd) C1).
  assert (Hmono' : strictly_mono (dir dt) (t0 :: map snd (reached_of tr1))) by exact (eq_ind _ (strictly_mono (dir dt)) Hmono _ Em).
  assert (Hend1 : Forall (fun T => dir dt * (T - tend) <= 0) (t0 :: map snd (reached_of tr1))) by exact (eq_ind _ (Forall (fun T => dir dt * (T - tend) <= 0)) Hend _ Em).
  clear Hmono Hend Em. rename Hmono' into Hmono, Hend1 into Hend.
  destruct (replay_adjacent (eps := 0) sys _ _ (dir dt) _ tr1 s' Hrp) as [b Hadj]; [cbn [d_init df_ops]; rewrite Et; exact Hmono|].
  assert (Hend' : Forall (fun p => dir dt * (snd p - tend) <= 0) (dos_of tr1)).
  { apply Forall_inv_tail in Hend. clear - Hend. induction tr1 as [|e tr1 IH]; [constructor|].
    destruct e; cbn [dos_of reached_of flat_map app map snd] in *; try (apply IH; exact Hend).
    inversion Hend; subst. constructor; [assumption|apply IH; assumption]. }
  cbn [d_init df_ops] in Hadj. rewrite Et in Hadj.
  destruct (drivers I W M H E HH PE B idx sys eo so cfg Heo Hso y D t0 tend dt L d h HL Hd Hh Hdir Lip Sol Tay x Hx
    s tr1 s' b Hrp Hadj (nocalc_valid _ _ tr1 None Hnc) Hend' Hst) as [_ G].
  split; [|exact G].
  assert (Et' : t' = tend) by (pose proof (Rabs_pos (tend - t')); destruct (Req_dec (tend - t') 0) as [Z|Z]; [lra|apply Rabs_pos_lt in Z; lra]).
  assert (Hin : In (x', t') (obs_of tr1)).
  { assert (Hl : forall A (a z : A) l, In (last (a :: l) z) (a :: l)).
    { clear. intros A a z l. revert a. induction l as [|c l IH]; intro a; [now left|]. right. exact (IH c). }
    pose proof (eq_trans (f_equal (fun l => last l (x, t0)) (eq_sym C1)) C3) as C5. cbv beta in C5.
    pose proof (Hl _ (x, t0) (x, t0) (reached_of tr1)) as Hl1.
    pose proof (eq_ind _ (fun p => In p ((x, t0) :: reached_of tr1)) Hl1 _ C5) as Hl2.
    exact (eq_ind_r (fun l => In (x', t') l) Hl2 C1). }
  intro i. rewrite <- Et'. exact (G x' t' Hin i).
Qed.
Print Assumptions C121_adaptive.

Theorem C121_n_steps : forall (I : Type) M H, 0 <= M -> 0 <= H -> exists E, 0 <= E /\
  forall W (idx : list I) (sys : (I -> R) -> R -> (I -> R)) eo so (cfg : err_cfg (RNum 0)) y D t0 dt n L d h,
  (2 <= eo)%Z -> (1 <= so)%Z -> 0 <= L -> 0 <= d -> 0 <= h <= H -> 0 < dt ->
  lipschitz (along t0 (t0 + INR n * dt) 1) L sys -> solution (along t0 (t0 + INR n * dt) 1) sys y ->
  taylor 5 M (fun v => exists t, along t0 (t0 + INR n * dt) 1 t /\ v = point (y t) t) (autonomous sys) D ->
  forall fuel s (w : W) x tr r, (forall j, Rabs (x j - y t0 j) <= d) ->
  integrate_n_steps_dense (N := RNum 0)
    (df_ops (N := RNum 0) sys (dopri5_ftry (N := RNum 0) sys idx rpow eo so cfg 0%R) (dopri5_fcalc (N := RNum 0)) W)
    rec_obs fuel s w x t0 dt n = (tr, Ok r) ->
  Forall (fun p => Rabs (snd p - fst p) <= h) (dos_of tr) ->
  map snd (obs_of tr) = map (fun k => t0 + INR k * dt) (seq 0 (S n))
  /\ forall x1 t1, In (x1, t1) (obs_of tr) -> forall i,
     Rabs (x1 i - y t1 i) <= dense_error_bound 0 L H E h d (Rabs (t1 - t0)).
Proof.
  intros I M H HM HH. destruct (constants 0 I M H HM HH) as (E & PE & B). exists E. split; [exact PE|].
  intros W idx sys eo so cfg y D t0 dt n L d h Heo Hso HL Hd Hh Hdt Lip Sol Tay fuel s w x tr [[[s' w'] x'] tm] Hx Hr Hst.
  assert (Ed : dir dt = 1) by (unfold dir; destruct (Rlt_dec 0 dt); lra).
  assert (Hdt0 : dt <> 0) by lra.
  pose proof (C101_n_steps_run 0 idx sys eo so cfg fuel s w x t0 dt n tr (s', w', x', tm) Hr) as Hr2.
  destruct (C09_n_steps_dense 0 (Rle_refl 0) _ W _ _ _ _ _ _ _ (df_contract 0 (Rle_refl 0) idx sys eo so Heo Hso cfg)
              t0 dt Hdt0 n fuel s w x tr _ Hr2) as (Hv & Hend & (b & Hadj) & _ & C).
  destruct (C s' w' x' tm eq_refl) as (_ & C2 & tr2 & xf & tf & C3 & _ & _ & C4 & C5). split; [exact C2|].
  specialize (C5 Hdt). cbv beta in *. set (te := t0 + INR n * dt) in *.
  assert (Etf : tf = te) by (change (carrier (RNum 0)) with R in *; lra). clear C5.
  destruct (n_steps_replay (N := RNum 0) _ fuel s w x t0 dt n tr s' w' x' tm Hr) as (tr1 & E1 & Hrp).
  assert (Hsame : tr1 = tr2 /\ d_x (df_ops (N := RNum 0) sys (dopri5_ftry (N := RNum 0) sys idx rpow eo so cfg 0%R) (dopri5_fcalc (N := RNum 0)) W) s' = xf).
  { rewrite C3 in E1. injection E1 as E1. apply app_inj_tail in E1. destruct E1 as [E1 E2]. injection E2 as E2 _. auto. }
  destruct Hsame as [-> Hxf]. clear E1. subst tr.
  assert (AD : dos_of (EInit x t0 dt :: tr2 ++ [EObs xf te]) = dos_of tr2).
  { unfold dos_of. cbn [flat_map app]. rewrite flat_map_app. apply app_nil_r. }
  assert (AO : obs_of (EInit x t0 dt :: tr2 ++ [EObs xf te]) = obs_of tr2 ++ [(xf, te)]).
  { unfold obs_of. cbn [flat_map app]. rewrite flat_map_app. reflexivity. }
  assert (AR : reached_of (EInit x t0 dt :: tr2 ++ [EObs xf te]) = reached_of tr2).
  { unfold reached_of. cbn [flat_map app]. rewrite flat_map_app. apply app_nil_r. }
  assert (Hst2 : Forall (fun p => Rabs (snd p - fst p) <= h) (dos_of tr2)) by exact (eq_ind _ (Forall (fun p => Rabs (snd p - fst p) <= h)) Hst _ AD).
  assert (Hend2 : Forall (fun p => dir dt * (snd p - te) <= 0) (dos_of tr2)) by exact (eq_ind _ (Forall (fun p => dir dt * (snd p - te) <= 0)) Hend _ AD).
  assert (Hadj2 : adjacent (dir dt) t0 (dos_of tr2) b) by exact (eq_ind _ (fun l => adjacent (dir dt) t0 l b) Hadj _ AD).
  assert (C4' : last (reached_of tr2) (x, t0) = (xf, tf)) by exact (eq_ind _ (fun l => last l (x, t0) = (xf, tf)) C4 _ AR).
  assert (Hv2 : valid_calcs (dir dt) 0 None tr2).
  { cbn [valid_calcs] in Hv. clear - Hv. revert Hv. generalize (@None (R * R)). induction tr2 as [|e tr2 IH]; intros iv Hv; [exact Logic.I|].
    cbn [app] in Hv. destruct e; cbn [valid_calcs] in *; try (apply IH; exact Hv). destruct Hv as [V1 V2]. split; [exact V1|apply IH; exact V2]. }
  pose proof (replay_reached (W := W) 0 idx sys eo so cfg _ tr2 s' Hrp) as RR. cbn [d_init df_ops] in RR.
  assert (Et : df_t (df_init (N := RNum 0) s x t0 dt) = t0 /\ df_current (df_init (N := RNum 0) s x t0 dt) = x).
  { unfold df_init. destruct (df_cur s) eqn:Ec; split; try reflexivity; unfold df_current; cbn; reflexivity. }
  rewrite (proj1 Et), (proj2 Et) in RR. pose proof (eq_trans (eq_sym RR) C4') as RC. injection RC as RX RT.
  assert (Hdir : 0 <= dir dt * (te - t0)).
  { rewrite Ed. unfold te. pose proof (pos_INR n). assert (0 <= INR n * dt) by (apply Rmult_le_pos; lra). lra. }
  rewrite <- Ed in Lip, Sol, Tay.
  destruct (drivers I W M H E HH PE B idx sys eo so cfg Heo Hso y D t0 te dt L d h HL Hd Hh Hdir Lip Sol Tay x Hx
    s tr2 s' b Hrp Hadj2 Hv2 Hend2 Hst2) as [G1 G2].
  intros x1 t1 Hin0 i. assert (Hin : In (x1, t1) (obs_of tr2 ++ [(xf, te)])) by exact (eq_ind _ (fun l => In (x1, t1) l) Hin0 _ AO).
  apply in_app_or in Hin. destruct Hin as [Hin|[Hin|[]]]; [exact (G2 x1 t1 Hin i)|].
  injection Hin as <- <-. specialize (G1 i). rewrite RX, RT, Etf in G1. exact G1.
Qed.
Print Assumptions C121_n_steps.

(** ** Runs that meet the hypotheses: x' = sin x from x(0) = pi/2, whose solution is 2 atan(exp t). *)
Lemma sin_bounded : forall x t, Rabs (sin_f x t tt) <= 1.
Proof. intros x t. unfold sin_f. apply Rabs_le. pose proof (SIN_bound (x tt)). lra. Qed.

(** With step limit m: any number of steps, any m up to 1/2. *)
Example C121_limited_ex : exists E, 0 <= E /\ forall m, 0 < m <= 1 / 2 -> forall n o, exists o1,
  do_steps (df_step (N := RNum 0) sin_f (dopri5_ftry (N := RNum 0) sin_f [tt] rpow 4 5 unit_cfg m)) (S n) (df_init (N := RNum 0) o (sin_y 0) 0%R m) = (o1, Ok tt)
  /\ forall c, 0 <= c <= 1 -> let s := df_told o1 + c * (df_t o1 - df_told o1) in
     Rabs (df_calc (N := RNum 0) (dopri5_fcalc (N := RNum 0)) o1 s tt - 2 * atan (exp s)) <= dense_error_bound 0 1 1 E m 0 (Rabs s).
Proof.
  destruct (C121_limited 0 (Rle_refl 0) unit 1 1 ltac:(lra) ltac:(lra)) as (E & PE & HC). exists E. split; [exact PE|].
  intros m Hm n o.
  assert (A : sound 0 sin_f (abs (df_init (N := RNum 0) o (sin_y 0) 0%R m)) /\ df_dt (df_init (N := RNum 0) o (sin_y 0) 0%R m) = m).
  { rewrite abs_init. split; [discriminate|]. unfold df_init. destruct (df_cur o); reflexivity. }
  destruct A as [A1 A2].
  destruct (unit_steps sin_f sin_bounded m Hm (S n) _ A1 ltac:(rewrite A2; lra)) as (o1 & R1 & _).
  exists o1. split; [exact R1|]. intros c Hc s.
  assert (Dm : dir m = 1) by (unfold dir; destruct (Rlt_dec 0 m); lra).
  assert (Ag : agrees m m) by (right; rewrite Dm; lra).
  pose proof (HC [tt] sin_f 4%Z 5%Z unit_cfg m sin_y sin_D (fun _ => True) 1 0 ltac:(lia) ltac:(lia) ltac:(lra) ltac:(lra) ltac:(lra)
    ltac:(rewrite Rabs_pos_eq; lra) ltac:(intros; exact Logic.I) (sin_lipschitz _) (sin_solution _) (sin_taylor _ _)
    n o (sin_y 0) 0 m o1 ltac:(lra) Ag ltac:(intro j; rewrite Rminus_diag_eq, Rabs_R0 by reflexivity; lra)
    R1 Logic.I Logic.I c tt Hc) as B. cbv zeta in B. fold s in B.
  rewrite Rplus_0_r, (Rabs_pos_eq m), Rminus_0_r in B by lra. exact B.
Qed.

(** One step of 1/2 without limit. *)
Lemma sin_one o x : exists o1, 
  df_step (N := RNum 0) sin_f (dopri5_ftry (N := RNum 0) sin_f [tt] rpow 4 5 unit_cfg 0%R) (df_init (N := RNum 0) o x 0%R (1 / 2)%R) = (o1, Ok tt)
  /\ @eq R (df_t o1) (1 / 2) /\ 0 < df_dt o1 /\ @eq R (df_told o1) 0.
Proof.
  set (o0 := df_init (N := RNum 0) o x 0%R (1 / 2)%R).
  assert (A : sound 0 sin_f (abs o0) /\ df_dt o0 = (1 / 2)%R /\ df_t o0 = 0%R).
  { unfold o0. rewrite abs_init. split; [discriminate|]. unfold df_init. destruct (df_cur o); split; reflexivity. }
  destruct A as (A1 & A2 & A3).
  destruct (unit_step sin_f sin_bounded 0 o0 A1 ltac:(rewrite A2; lra) (or_introl eq_refl)) as (o1 & E & E2 & E3 & _).
  exists o1. split; [exact E|]. split; [rewrite E2, A2, A3; ring|]. split; [exact E3|].
  rewrite (proj1 (df_step_told (N := RNum 0) _ _ o0 o1 E)). exact A3.
Qed.

Lemma dir_one q : 0 < q -> dir q = 1.
Proof. intro H. unfold dir. destruct (Rlt_dec 0 q); lra. Qed.

Notation sin_ops := (df_ops (N := RNum 0) sin_f (dopri5_ftry (N := RNum 0) sin_f [tt] rpow 4 5 unit_cfg 0%R) (dopri5_fcalc (N := RNum 0)) unit).

Lemma sin_init o x (t dt : R) : df_t (df_init (N := RNum 0) (I := unit) (C := rkmem (RNum 0) unit * vec (RNum 0) unit) o x t dt) = t
  /\ df_dt (df_init (N := RNum 0) o x t dt) = dt /\ df_current (df_init (N := RNum 0) o x t dt) = x.
Proof. unfold df_init. destruct (df_cur o) eqn:Ec; unfold df_current; cbn; auto. Qed.

Section OneStep.
Context {N : Num} {St X : Type} (D : DenseOps N St unit X).
Variables (s : St) (x : X) (t0 t1 dt : N) (s1 : St) (e : list (ev X N)).
Let s0 := d_init D s x t0 dt.

Lemma one_times : less_eq_with_sign t1 (d_t D s0) (d_dt D s0) = false ->
  less_eq_with_sign (nadd (d_t D s0) (d_dt D s0)) t1 (d_dt D s0) = true -> d_step D s0 tt = (e, Ok (s1, tt)) ->
  less_eq_with_sign t1 (d_t D s1) (d_dt D s1) = true ->
  less_eq_with_sign (nadd (d_t D s1) (d_dt D s1)) t1 (d_dt D s1) = false ->
  integrate_times_dense D rec_obs 3 s tt x [t0; t1] dt
  = (EInit x t0 dt :: EObs x t0 :: e ++ [ECalc t1 (d_calc D s1 t1); EObs (d_calc D s1 t1) t1], Ok (s1, tt, d_calc D s1 t1, 1%nat)).
Proof.
  intros H1 H2 H3 H4 H5. unfold integrate_times_dense, call_init, rec_obs, bind. fold s0. cbn [List.last itd_loop itd_obs].
  rewrite H1. unfold bind, ret. rewrite H2, H3. cbv beta iota. cbn [itd_obs itd_loop]. rewrite H4. unfold call_calc, bind, ret. rewrite H5. cbn [app]. rewrite <- ?app_assoc. reflexivity.
Qed.

Lemma one_adaptive : let s2 := d_init D s1 (d_x D s1) (d_t D s1) (nsub t1 (d_t D s1)) in
  less_with_sign (d_t D s0) t1 (d_dt D s0) = true ->
  less_eq_with_sign (nadd (d_t D s0) (d_dt D s0)) t1 (d_dt D s0) = true ->
  d_step D s0 tt = (e, Ok (s1, tt)) ->
  less_eq_with_sign (nadd (d_t D s1) (d_dt D s1)) t1 (d_dt D s1) = false ->
  less_with_sign (d_t D s2) t1 (d_dt D s2) = false ->
  exists tr, integrate_adaptive_dense D rec_obs 3 s tt x t0 t1 dt = (tr, Ok (s2, tt, d_x D s2, 1%nat)) /\ dos_of tr = dos_of e.
Proof.
  intros s2 H1 H2 H3 H4 H5. unfold integrate_adaptive_dense, call_init, rec_obs, bind. fold s0. cbn [iad_outer iad_inner].
  rewrite H1. unfold bind. rewrite H2, H3. unfold reinit_to, call_init, ret. rewrite H4. fold s2. rewrite H5. eexists. split; [reflexivity|].
  unfold dos_of. cbn [flat_map app]. rewrite !flat_map_app. cbn [flat_map app]. now rewrite ?app_nil_r.
Qed.

Let sr := d_init D s0 (d_x D s0) (d_t D s0) (nsub t1 (d_t D s0)).
Hypothesis Ht1 : nadd t0 (nmul (nofnat 1) dt) = t1.

Lemma one_n_steps : less_with_sign t0 (d_t D s0) (d_dt D s0) = false ->
  less_with_sign (nadd (d_t D s0) (d_dt D s0)) t1 (d_dt D s0) = false ->
  less_with_sign (d_t D s0) t1 (d_dt D s0) = true -> d_step D sr tt = (e, Ok (s1, tt)) ->
  less_with_sign t0 (d_t D s1) (d_dt D s1) = true -> less_with_sign t1 (d_t D s1) (d_dt D s1) = false ->
  less_with_sign (nadd (d_t D s1) (d_dt D s1)) t1 (d_dt D s1) = false ->
  less_with_sign (d_t D s1) t1 (d_dt D s1) = false -> nlt (d_t D s1) t1 = false ->
  exists tr r, integrate_n_steps_dense D rec_obs 4 s tt x t0 dt 1 = (tr, Ok r) /\ dos_of tr = dos_of e.
Proof.
  intros H1 H2 H3 H4 H5 H6 H7 H8 H9. unfold integrate_n_steps_dense, call_init, rec_obs, bind. fold s0. rewrite Ht1. cbn [insd_loop insd_obs insd_final].
  cbn [Nat.ltb Nat.leb]. unfold bind, ret. rewrite H1, H2, H3. unfold reinit_to, call_init, bind. fold sr. rewrite H4, H5. unfold call_calc, bind. rewrite Ht1, H6, H7, H8. cbn [Nat.leb app]. rewrite H9.
  eexists. eexists. split; [reflexivity|]. unfold dos_of. cbn [flat_map app]. rewrite !flat_map_app. cbn [flat_map app]. now rewrite ?app_nil_r.
Qed.
End OneStep.

Example C121_times_ex : exists E, 0 <= E /\ forall o, exists tr r,
  integrate_times_dense (N := RNum 0) sin_ops rec_obs 3 o tt (sin_y 0) [0%R; (1 / 2)%R] (1 / 2)%R = (tr, Ok r)
  /\ map snd (obs_of tr) = [0; 1 / 2]
  /\ forall x' t', In (x', t') (obs_of tr) -> Rabs (x' tt - 2 * atan (exp t')) <= dense_error_bound 0 1 1 E (1 / 2) 0 (Rabs t').
Proof.
  destruct (C121_times unit 1 1 ltac:(lra) ltac:(lra)) as (E & PE & HC). exists E. split; [exact PE|]. intro o.
  destruct (sin_one o (sin_y 0)) as (o1 & S1 & S2 & S3 & S4).
  assert (R1 : exists tr r, integrate_times_dense (N := RNum 0) sin_ops rec_obs 3 o tt (sin_y 0) [0%R; (1 / 2)%R] (1 / 2)%R = (tr, Ok r)
    /\ dos_of tr = [(0, 1 / 2)]).
  { destruct (sin_init o (sin_y 0) 0 (1 / 2)) as (I1 & I2 & _).
    assert (L1 : less_eq_with_sign (N := RNum 0) (1 / 2)%R (df_t (df_init (N := RNum 0) o (sin_y 0) 0%R (1 / 2)%R)) (df_dt (df_init (N := RNum 0) o (sin_y 0) 0%R (1 / 2)%R)) = false).
    { apply (proj2 (leq_R_false 0 _ _ _)). rewrite I1, I2, dir_one; lra. }
    assert (L2 : less_eq_with_sign (N := RNum 0) (nadd (df_t (df_init (N := RNum 0) o (sin_y 0) 0%R (1 / 2)%R)) (df_dt (df_init (N := RNum 0) o (sin_y 0) 0%R (1 / 2)%R))) (1 / 2)%R (df_dt (df_init (N := RNum 0) o (sin_y 0) 0%R (1 / 2)%R)) = true).
    { apply (proj2 (leq_R 0 _ _ _)). rewrite I1, I2, dir_one by lra. change (1 * (0 + 1 / 2 - 1 / 2) <= 0). lra. }
    assert (L3 : less_eq_with_sign (N := RNum 0) (1 / 2)%R (df_t o1) (df_dt o1) = true).
    { apply (proj2 (leq_R 0 _ _ _)). rewrite S2, dir_one by exact S3. lra. }
    assert (L4 : less_eq_with_sign (N := RNum 0) (nadd (df_t o1) (df_dt o1)) (1 / 2)%R (df_dt o1) = false).
    { apply (proj2 (leq_R_false 0 _ _ _)). rewrite dir_one by exact S3. change (1 * (df_t o1 + df_dt o1 - 1 / 2) > 0). rewrite S2. change (carrier (RNum 0)) with R in *. lra. }
    eexists. eexists. split; [refine (one_times sin_ops o (sin_y 0) 0%R (1 / 2)%R (1 / 2)%R o1 [EDo (df_told o1) (df_t o1) (df_current o1)] L1 L2 _ L3 L4);
      cbn [d_step d_init df_ops]; rewrite S1; reflexivity|]. cbn [app dos_of flat_map]. rewrite S2, S4. reflexivity. }
  destruct R1 as (tr & r & R1 & R2). exists tr, r. split; [exact R1|].
  destruct (HC unit [tt] sin_f 4%Z 5%Z unit_cfg sin_y sin_D 0 [1 / 2] (1 / 2) 1 0 (1 / 2) ltac:(lia) ltac:(lia) ltac:(lra) ltac:(lra) ltac:(lra) ltac:(lra)
    ltac:(cbn; rewrite dir_one; lra) (sin_lipschitz _) (sin_solution _) (sin_taylor _ _) 3%nat o tt (sin_y 0) tr r
    ltac:(intro j; rewrite Rminus_diag_eq, Rabs_R0 by reflexivity; lra) R1) as [B1 B2].
  { rewrite R2. constructor; [|constructor]. cbn [fst snd]. rewrite Rabs_pos_eq; lra. }
  split; [exact B1|]. intros x' t' Hin. specialize (B2 x' t' Hin tt). rewrite Rminus_0_r in B2. exact B2.
Qed.

Example C121_n_steps_ex : exists E, 0 <= E /\ forall o, exists tr r,
  integrate_n_steps_dense (N := RNum 0) sin_ops rec_obs 4 o tt (sin_y 0) 0%R (1 / 2)%R 1 = (tr, Ok r)
  /\ map snd (obs_of tr) = [0 + INR 0 * (1 / 2); 0 + INR 1 * (1 / 2)]
  /\ forall x' t', In (x', t') (obs_of tr) -> Rabs (x' tt - 2 * atan (exp t')) <= dense_error_bound 0 1 1 E (1 / 2) 0 (Rabs t').
Proof.
  destruct (C121_n_steps unit 1 1 ltac:(lra) ltac:(lra)) as (E & PE & HC). exists E. split; [exact PE|]. intro o.
  set (o0 := df_init (N := RNum 0) o (sin_y 0) 0%R (1 / 2)%R).
  destruct (sin_init o (sin_y 0) 0 (1 / 2)) as (I1 & I2 & I3). fold o0 in I1, I2, I3.
  destruct (sin_one o0 (sin_y 0)) as (o1 & S1 & S2 & S3 & S4).
  assert (R1 : exists tr r, integrate_n_steps_dense (N := RNum 0) sin_ops rec_obs 4 o tt (sin_y 0) 0%R (1 / 2)%R 1 = (tr, Ok r)
    /\ dos_of tr = [(0, 1 / 2)]).
  { destruct (one_n_steps sin_ops o (sin_y 0) 0%R (1 / 2)%R (1 / 2)%R o1 [EDo (df_told o1) (df_t o1) (df_current o1)]) as (tr & r & Q1 & Q2).
    - change (0 + INR 1 * (1 / 2) = 1 / 2). cbn [INR]. lra.
    - apply (proj2 (less_R_false 0 _ _ _)). cbn [d_t d_dt d_init df_ops]. fold o0. rewrite I1, I2, dir_one; lra.
    - apply (proj2 (less_R_false 0 _ _ _)). cbn [d_t d_dt d_init df_ops]. fold o0. rewrite I1, I2, dir_one by lra. change (1 * (1 / 2 - (0 + 1 / 2)) <= 0). lra.
    - apply (proj2 (less_R 0 _ _ _)). cbn [d_t d_dt d_init df_ops]. fold o0. rewrite I1, I2, dir_one; lra.
    - cbn [d_t d_x d_init d_step df_ops]. fold o0. rewrite I1, I3.
      assert (Er : @nsub (RNum 0) (1 / 2)%R 0%R = (1 / 2)%R) by (change (1 / 2 - 0 = 1 / 2); lra). rewrite Er, S1. reflexivity.
    - apply (proj2 (less_R 0 _ _ _)). cbn [d_t d_dt df_ops]. rewrite S2, dir_one by exact S3. lra.
    - apply (proj2 (less_R_false 0 _ _ _)). cbn [d_t d_dt df_ops]. rewrite S2, dir_one by exact S3. lra.
    - apply (proj2 (less_R_false 0 _ _ _)). cbn [d_t d_dt df_ops]. rewrite dir_one by exact S3. change (1 * (1 / 2 - (df_t o1 + df_dt o1)) <= 0). rewrite S2. change (carrier (RNum 0)) with R in *. lra.
    - apply (proj2 (less_R_false 0 _ _ _)). cbn [d_t d_dt df_ops]. rewrite S2, dir_one by exact S3. lra.
    - cbn [d_t df_ops]. rewrite S2. apply Rltb_false. lra.
    - exists tr, r. split; [exact Q1|]. rewrite Q2. cbn [dos_of flat_map app]. rewrite S2, S4. reflexivity. }
  destruct R1 as (tr & r & R1 & R2). exists tr, r. split; [exact R1|].
  destruct (HC unit [tt] sin_f 4%Z 5%Z unit_cfg sin_y sin_D 0 (1 / 2) 1%nat 1 0 (1 / 2) ltac:(lia) ltac:(lia) ltac:(lra) ltac:(lra) ltac:(lra) ltac:(lra)
    (sin_lipschitz _) (sin_solution _) (sin_taylor _ _) 4%nat o tt (sin_y 0) tr r
    ltac:(intro j; rewrite Rminus_diag_eq, Rabs_R0 by reflexivity; lra) R1) as [B1 B2].
  { rewrite R2. constructor; [|constructor]. cbn [fst snd]. rewrite Rabs_pos_eq; lra. }
  split; [exact B1|]. intros x' t' Hin. specialize (B2 x' t' Hin tt). rewrite Rminus_0_r in B2. exact B2.
Qed.

Example C121_adaptive_ex : exists E, 0 <= E /\ forall o, exists tr o1 x1,
  integrate_adaptive_dense (N := RNum 0) sin_ops rec_obs 3 o tt (sin_y 0) 0%R (1 / 2)%R (1 / 2)%R = (tr, Ok (o1, tt, x1, 1%nat))
  /\ Rabs (x1 tt - 2 * atan (exp (1 / 2))) <= dense_error_bound 0 1 1 E (1 / 2) 0 (1 / 2).
Proof.
  destruct (C121_adaptive unit 1 1 ltac:(lra) ltac:(lra)) as (E & PE & HC). exists E. split; [exact PE|]. intro o.
  set (o0 := df_init (N := RNum 0) o (sin_y 0) 0%R (1 / 2)%R).
  destruct (sin_init o (sin_y 0) 0 (1 / 2)) as (I1 & I2 & I3). fold o0 in I1, I2, I3.
  destruct (sin_one o (sin_y 0)) as (o1 & S1 & S2 & S3 & S4).
  set (o2 := df_init (N := RNum 0) o1 (df_current o1) (df_t o1) (1 / 2 - df_t o1)%R).
  assert (B : @eq R (df_t o2) (1 / 2)) by (unfold o2, df_init; destruct (df_cur o1); exact S2).
  assert (Q1 : less_with_sign (N := RNum 0) (df_t o0) (1 / 2)%R (df_dt o0) = true).
  { apply (proj2 (less_R 0 _ _ _)). rewrite I1, I2, dir_one; lra. }
  assert (Q2 : less_eq_with_sign (N := RNum 0) (nadd (df_t o0) (df_dt o0)) (1 / 2)%R (df_dt o0) = true).
  { apply (proj2 (leq_R 0 _ _ _)). rewrite I1, I2, dir_one by lra. change (1 * (0 + 1 / 2 - 1 / 2) <= 0). lra. }
  assert (Q4 : less_eq_with_sign (N := RNum 0) (nadd (df_t o1) (df_dt o1)) (1 / 2)%R (df_dt o1) = false).
  { apply (proj2 (leq_R_false 0 _ _ _)). rewrite dir_one by exact S3. change (1 * (df_t o1 + df_dt o1 - 1 / 2) > 0). rewrite S2. change (carrier (RNum 0)) with R in *. lra. }
  assert (Q5 : less_with_sign (N := RNum 0) (df_t o2) (1 / 2)%R (df_dt o2) = false).
  { apply (proj2 (less_R_false 0 _ _ _)). rewrite B. lra. }
  assert (R1 : exists tr x1, integrate_adaptive_dense (N := RNum 0) sin_ops rec_obs 3 o tt (sin_y 0) 0%R (1 / 2)%R (1 / 2)%R = (tr, Ok (o2, tt, x1, 1%nat))
    /\ dos_of tr = [(0, 1 / 2)]).
  { destruct (one_adaptive sin_ops o (sin_y 0) 0%R (1 / 2)%R (1 / 2)%R o1 [EDo (df_told o1) (df_t o1) (df_current o1)] Q1 Q2) as (tr & T1 & T2).
    - cbn [d_step d_init df_ops]. rewrite S1. reflexivity.
    - exact Q4.
    - exact Q5.
    - exists tr. eexists. split; [exact T1|]. rewrite T2. cbn [app dos_of flat_map]. rewrite S2, S4. reflexivity. }
  destruct R1 as (tr & x1 & R1 & R2). exists tr, o2, x1. split; [exact R1|].
  destruct (HC unit [tt] sin_f 4%Z 5%Z unit_cfg sin_y sin_D 0 (1 / 2) (1 / 2) 1 0 (1 / 2) ltac:(lia) ltac:(lia) ltac:(lra) ltac:(lra) ltac:(lra) ltac:(lra)
    ltac:(rewrite dir_one; lra) (sin_lipschitz _) (sin_solution _) (sin_taylor _ _) 3%nat o tt (sin_y 0) tr o2 tt x1 1%nat
    ltac:(intro j; rewrite Rminus_diag_eq, Rabs_R0 by reflexivity; lra) R1) as [B1 _].
  { rewrite R2. constructor; [|constructor]. cbn [fst snd]. rewrite Rabs_pos_eq; lra. }
  specialize (B1 tt). rewrite Rminus_0_r, (Rabs_pos_eq (1 / 2)) in B1 by lra. exact B1.
Qed.

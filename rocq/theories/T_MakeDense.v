(** make_dense_output (C124). *)
From Coq Require Import ZArith List Bool Lia Arith Reals Lra.
From Verif Require Import M_Num M_Sign M_Run M_Checker M_RK S_RK P_RK M_CtrlRK M_Dense M_DenseRK M_Integrate M_LU M_Implicit M_MakeDense S_DenseRK P_Det
  S_Grid S_Real S_Dense S_Ctrl S_CtrlRK S_Integrate S_LU S_Implicit P_R P_CtrlRK P_CtrlRKR P_RosR P_DenseRK P_DenseRef
  P_DenseRKR P_DenseRKX P_DenseReplay P_DenseConvRun P_DenseConvDrv P_DenseSin P_LU P_Implicit P_Ros P_RosDense P_MakeDense T_Butcher P_RosInv T_Dense T_DenseRK T_Limit T_Implicit T_DenseConv.
Import ListNotations.
Local Open Scope R_scope.

Definition limit_of (max_dt : option R) : R := match max_dt with Some m => m | None => 0 end.

(** Any number of do_step calls after initialize: the last one is a step of the Dormand-Prince method whose embedded error
    estimate is within the tolerances given to make_dense_output, in the direction of dt, no longer than max_dt. *)
Theorem C124_dopri5 : forall eps, 0 <= eps -> forall (I : Type) (idx : list I) (sys : (I -> R) -> R -> (I -> R)) abs rel max_dt,
  0 < abs -> 0 <= rel ->
  let step := made_dense_step (N := RNum eps) idx rpow sys abs rel max_dt in
  forall n o x (t dt : R) o1, dt <> 0 -> agrees dt (limit_of max_dt) ->
  do_steps step (S n) (df_init (N := RNum eps) o x t dt) = (o1, Ok tt) ->
  exists o0, do_steps step n (df_init (N := RNum eps) o x t dt) = (o0, Ok tt)
  /\ df_told o1 = df_t o0 /\ df_old o1 = df_current o0
  /\ good_step eps (tab_of (N := RNum eps) rk_dopri5) idx sys abs rel (limit_of max_dt) (dir dt) (df_t o1)
       (df_current o0, df_t o0) (df_current o1, df_t o1).
Proof.
  intros eps He I idx sys ab rel max_dt Ha Hr step n o x t dt o1 Hdt Hag H.
  exact (run_good eps He idx sys ab rel Ha Hr (limit_of max_dt) n o x t dt o1 Hdt Hag H).
Qed.
Print Assumptions C124_dopri5.

(** integrate_adaptive with that stepper: the states shown to the observer are joined by such steps, from the start to the end time. *)
Theorem C124_adaptive : forall eps, 0 <= eps -> forall (I W : Type) (idx : list I) (sys : (I -> R) -> R -> (I -> R)) abs rel,
  0 < abs -> 0 <= rel ->
  forall fuel s (w : W) x (t0 tend dt : R) tr s' w' x' n, dt <> 0 -> 0 <= dir dt * (tend - t0) ->
  integrate_adaptive_dense (N := RNum eps) (made_dense_ops (N := RNum eps) idx rpow sys abs rel None W)
    rec_obs fuel s w x t0 tend dt = (tr, Ok (s', w', x', n)) ->
  hd (x, t0) (obs_of tr) = (x, t0) /\ length (obs_of tr) = S n
  /\ linked (good_step eps (tab_of (N := RNum eps) rk_dopri5) idx sys abs rel 0 (dir dt) tend) (obs_of tr)
  /\ exists t', last (obs_of tr) (x, t0) = (x', t') /\ Rabs (tend - t') <= eps.
Proof.
  intros eps He I W idx sys ab rel Ha Hr fuel s w x t0 tend dt tr s' w' x' n Hdt Hdir H.
  pose proof (C101_adaptive_run eps idx sys _ _ (made_cfg (N := RNum eps) ab rel) fuel s w x t0 tend dt tr (s', w', x', n) H) as Hr2.
  destruct (C08_adaptive_dense eps He _ W _ _ _ _ _ _ _ (df_contract eps He idx sys _ _ Heo Hso (made_cfg (N := RNum eps) ab rel))
              fuel s w x t0 tend dt tr _ Hdt Hdir Hr2) as (Hhd & Hmono & Hend & C).
  destruct (C s' w' x' n eq_refl) as (C1 & C2 & C3).
  split; [exact Hhd|]. split; [rewrite (C08_adaptive_dense_count _ _ tr x t0 C1), C2; reflexivity|]. split; [|exact C3].
  destruct (adaptive_replay (N := RNum eps) _ fuel s w x t0 tend dt tr s' w' x' n H) as (tr1 & -> & Hrp).
  change (reached_of (EInit x t0 dt :: tr1)) with (reached_of tr1) in C1.
  assert (Em : map snd (obs_of (EInit x t0 dt :: tr1)) = t0 :: map snd (reached_of tr1)) by exact (f_equal (map snd) C1).
  assert (Hmono' : strictly_mono (dir dt) (t0 :: map snd (reached_of tr1))) by exact (eq_ind _ (strictly_mono (dir dt)) Hmono _ Em).
  assert (Hend' : Forall (fun T => dir dt * (T - tend) <= eps) (t0 :: map snd (reached_of tr1))) by exact (eq_ind _ (Forall (fun T => dir dt * (T - tend) <= eps)) Hend _ Em).
  refine (eq_ind_r (fun l => linked (good_step eps (tab_of (N := RNum eps) rk_dopri5) idx sys ab rel 0 (dir dt) tend) l) _ C1).
  assert (Et : df_t (df_init (N := RNum eps) s x t0 dt) = t0 /\ df_current (df_init (N := RNum eps) s x t0 dt) = x).
  { unfold df_init. destruct (df_cur s) eqn:Ec; split; try reflexivity; unfold df_current; cbn; reflexivity. }
  pose proof (replay_good eps He idx sys ab rel Ha Hr (dir dt) tend _ tr1 s' Hrp) as G.
  cbn [d_init df_ops] in G. unfold made_dense_ops in G. cbn [d_init df_ops] in G. rewrite (proj1 Et), (proj2 Et) in G.
  apply G; [rewrite abs_init; discriminate|exact (P_Integrate.dir_pm dt)|exact Hmono'|exact (Forall_inv_tail Hend')].
Qed.
Print Assumptions C124_adaptive.

(** make_dense_output for rosenbrock4: every do_step that returns has made a step of the method with the coefficients of the source,
    with the root mean square of the scaled error estimate at most 1, in the direction of the step size, no longer than max_dt; the
    step size left behind has the same direction. *)
Theorem C124_rosenbrock : forall eps, 0 <= eps -> forall n (f : (nat -> R) -> R -> nat -> R) (jac : (nat -> R) -> R -> nat -> nat -> R) (dft : (nat -> R) -> R -> nat -> R) (abs rel : R) max_dt, (0 < n)%nat ->
  let co := default_rosenbrock (N := RNum eps) in
  forall (s s1 : rosd (RNum eps) (rosc (RNum eps) nat (rbuf (RNum eps)))), rd_dt s <> 0 -> agrees (rd_dt s) (limit_of max_dt) ->
  made_ros_step (N := RNum eps) n rpow sqrt f jac dft co abs rel max_dt s = Ok s1 ->
  let x := rd_x s in let t := rd_t s in let h := (rd_t s1 - rd_t s)%R in
  rd_told s1 = t /\ rd_xold s1 = x
  /\ (exists e, rms_within (seq 0 n) abs rel x (rd_x s1) e
      /\ (nonsingular n (ros_W n (ro_gamma co) h (jac x t)) ->
          ros_result n f (dft x t) (jac x t) (ro_gamma co) (rows eps co) (weights eps co) x t h (rd_x s1) e))
  /\ 0 < dir (rd_dt s) * h /\ Rabs h <= Rabs (rd_dt s)
  /\ (limit_of max_dt <> 0 -> Rabs h <= Rabs (limit_of max_dt) + eps)
  /\ 0 < dir (rd_dt s) * rd_dt s1.
Proof.
  intros eps He n f jac dft ab rel max_dt Hn co s s1 Hdt Ha H x t h. assert (Hh : h = (rd_t s1 - rd_t s)%R) by reflexivity. clearbody h.
  set (tr := made_ros_try (N := RNum eps) n rpow sqrt f jac dft co ab rel max_dt) in *.
  assert (Hi : seq 0 n <> []) by (destruct n; [lia|discriminate]).
  unfold made_ros_step in H.
  destruct (C102_rosenbrock_partial _ _ tr (made_ros_prepare co) s) as [(j & _ & Hj & Hb & E)|[_ E]]; fold tr in H; rewrite E in H; [|discriminate].
  injection H as <-.
  pose (during := fun v : rosd (RNum eps) (rosc (RNum eps) nat (rbuf (RNum eps))) =>
    rd_x v = rd_x s /\ rd_t v = rd_t s /\ rd_told v = rd_t s /\ 0 < dir (rd_dt s) * rd_dt v /\ Rabs (rd_dt v) <= Rabs (rd_dt s)).
  assert (Hnz : forall v, during v -> (rd_dt v : R) <> 0 /\ dir (rd_dt v) = dir (rd_dt s)).
  { intros v (_ & _ & _ & D & _). split; [|exact (dir_same _ _ D)]. intro Z. rewrite Z, Rmult_0_r in D. lra. }
  assert (Hag : forall v, during v -> agrees (rd_dt v) (limit_of max_dt)).
  { intros v D. unfold agrees in *. rewrite (proj2 (Hnz v D)). exact Ha. }
  assert (Hd0 : during (rd_start s)).
  { unfold during, rd_start, rd_x. cbn [rd_cur rd_x1 rd_x2 rd_t rd_told rd_dt]. repeat split; [|apply Rle_refl].
    replace (dir (rd_dt s) * rd_dt s) with (Rabs (rd_dt s)) by (symmetry; apply dir_abs). now apply Rabs_pos_lt. }
  assert (Hst : forall v, during v -> snd (rd_attempt tr v) = false -> during (fst (rd_attempt tr v))).
  { intros v D. unfold rd_attempt.
    destruct (tr (rd_c v) (rd_x v) (rd_t v) (rd_xold v) (rd_dt v)) as [[[[c xo] t1] dt1] ok] eqn:Et.
    destruct (core_good eps He (seq 0 n) (ros_step (N := RNum eps) n f jac dft co) ab rel (limit_of max_dt) _ _ _ _ _ _ _ _ _ _
      Hi (proj1 (Hnz v D)) (Hag v D) Et) as (G1 & G2 & _).
    rewrite (proj2 (Hnz v D)) in G1. cbn [fst snd]. intro F. destruct (G2 F) as [G3 G4]. destruct D as (D1 & D2 & D3 & D4 & D5).
    destruct v as [vc v1 v2 [] vt vo vd]; unfold during, rd_x in *; cbn [rd_cur rd_x1 rd_x2 rd_t rd_told rd_dt] in *;
      (split; [exact D1|]; split; [rewrite G3; exact D2|]; split; [exact D3|]; split; [exact G1|]; change (carrier (RNum eps)) with R in *; lra). }
  destruct (attempts_inv (rd_attempt tr) during Hst j (rd_start s) Hd0 Hb) as (v & D & Ev).
  rewrite Ev in *. clear Ev Hb Hst Hd0 E.
  pose proof (Hnz v D) as [Vz Vd]. pose proof (Hag v D) as Va. unfold rd_attempt in *.
  destruct (tr (rd_c v) (rd_x v) (rd_t v) (rd_xold v) (rd_dt v)) as [[[[c xo] t1] dt1] ok] eqn:Et.
  destruct (core_good eps He (seq 0 n) (ros_step (N := RNum eps) n f jac dft co) ab rel (limit_of max_dt) _ _ _ _ _ _ _ _ _ _
    Hi Vz Va Et) as (G1 & _ & G2).
  cbn [fst snd] in *. subst ok. destruct (G2 eq_refl) as (G3 & (st' & e & G4 & G5) & G6). destruct D as (D1 & D2 & D3 & D4 & D5).
  set (w := if rd_cur v then _ else _) in *.
  assert (W : rd_t (rd_accept (made_ros_prepare co) w) = t1 /\ rd_told (rd_accept (made_ros_prepare co) w) = rd_told v
    /\ rd_dt (rd_accept (made_ros_prepare co) w) = dt1 /\ rd_x (rd_accept (made_ros_prepare co) w) = xo
    /\ rd_xold (rd_accept (made_ros_prepare co) w) = rd_x v).
  { unfold w, rd_accept, rd_x, rd_xold. destruct v as [vc v1 v2 [] vt vo vd]; cbn; repeat split. }
  destruct W as (W1 & W2 & W3 & W4 & W5).
  set (s1 := rd_accept (made_ros_prepare co) w) in *. clearbody s1.
  assert (Eh : h = rd_dt v).
  { rewrite Hh, W1, G3, <- D2. change (carrier (RNum eps)) with R. ring. }
  clear Hh. subst h. rewrite W2, W3, W4, W5. rewrite D1 in *. rewrite D2 in *.
  split; [exact D3|]. split; [reflexivity|].
  split.
  { exists e. split; [exact G5|]. intro Hns.
    pose proof (C87_stages eps n f jac dft (rc_st (rd_c v)) x t (rd_dt v) Hns) as P. cbv zeta in P.
    fold co in P. fold x t in G4. rewrite G4 in P. exact (proj1 P). }
  split; [exact D4|]. split; [exact D5|]. split; [exact G6|]. rewrite <- Vd. exact G1.
Qed.
Print Assumptions C124_rosenbrock.

(** ** Runs that meet the hypotheses: x' = sin x with tolerance 1 and any step limit up to 1/2. *)
Example C124_dopri5_ex : forall m, 0 < m <= 1 / 2 -> forall n o, exists (o0 o1 : drf (RNum 0) unit (rkmem (RNum 0) unit * vec (RNum 0) unit)),
  do_steps (made_dense_step (N := RNum 0) [tt] rpow sin_f 1%R 0%R (Some m)) (S n) (df_init (N := RNum 0) o (sin_y 0) 0%R m) = (o1, Ok tt)
  /\ good_step 0 (tab_of (N := RNum 0) rk_dopri5) [tt] sin_f 1 0 m 1 (df_t o1) (df_current o0, df_t o0) (df_current o1, df_t o1).
Proof.
  intros m Hm n o.
  assert (A : P_DenseRKR.sound 0 sin_f (abs (df_init (N := RNum 0) o (sin_y 0) 0%R m)) /\ df_dt (df_init (N := RNum 0) o (sin_y 0) 0%R m) = m).
  { rewrite abs_init. split; [discriminate|]. unfold df_init. destruct (df_cur o); reflexivity. }
  destruct A as [A1 A2].
  destruct (unit_steps sin_f sin_bounded m Hm (S n) _ A1 ltac:(rewrite A2; lra)) as (o1 & R1 & _).
  assert (Dm : dir m = 1) by (unfold dir; destruct (Rlt_dec 0 m); lra).
  assert (Ag : agrees m m) by (right; rewrite Dm; lra).
  destruct (C124_dopri5 0 (Rle_refl 0) unit [tt] sin_f 1 0 (Some m) ltac:(lra) ltac:(lra) n o (sin_y 0) 0 m o1 ltac:(lra) Ag R1) as (o0 & _ & _ & _ & G).
  exists o0, o1. split; [exact R1|]. rewrite Dm in G. exact G.
Qed.

Example C124_adaptive_ex : forall o, exists tr o1 x1,
  integrate_adaptive_dense (N := RNum 0) (made_dense_ops (N := RNum 0) [tt] rpow sin_f 1%R 0%R None unit) rec_obs 3 o tt (sin_y 0) 0%R (1 / 2)%R (1 / 2)%R
    = (tr, Ok (o1, tt, x1, 1%nat))
  /\ linked (good_step 0 (tab_of (N := RNum 0) rk_dopri5) [tt] sin_f 1 0 0 1 (1 / 2)) (obs_of tr) /\ length (obs_of tr) = 2%nat.
Proof.
  intro o. destruct C121_adaptive_ex as (E & _ & HC). destruct (HC o) as (tr & o1 & x1 & H & _). clear E HC.
  exists tr, o1, x1. split; [exact H|].
  assert (D : dir (1 / 2) = 1) by (unfold dir; destruct (Rlt_dec 0 (1 / 2)); lra).
  destruct (C124_adaptive 0 (Rle_refl 0) unit unit [tt] sin_f 1 0 ltac:(lra) ltac:(lra) 3%nat o tt (sin_y 0) 0 (1 / 2) (1 / 2) tr o1 tt x1 1%nat
    ltac:(lra) ltac:(rewrite D; lra) H) as (_ & L & G & _).
  rewrite D in G. exact (conj G L).
Qed.

(** x' = t with rosenbrock4 and dt = 1. *)
Example C124_rosenbrock_ex : forall eps, 0 <= eps -> forall (m : rbuf (RNum eps)), exists (abs : R) (s s1 : rosd (RNum eps) (rosc (RNum eps) nat (rbuf (RNum eps)))), 0 < abs /\ rd_dt s = 1
  /\ made_ros_step (N := RNum eps) 1 rpow sqrt ramp no_jac one default_rosenbrock abs 0%R None s = Ok s1
  /\ rd_told s1 = rd_t s /\ 0 < (rd_t s1 - rd_t s)%R <= 1 /\ 53 / 100 <= rd_x s1 0%nat <= 54 / 100.
Proof.
  intros eps He m.
  pose proof (ramp_result eps d4_code (rwrite (N := RNum eps) false m RX (fun _ => 0)) 1 ltac:(lra) eq_refl) as HR.
  rewrite (with_d4_default eps) in HR.
  destruct (kappa_bounds eps d4_code) as [K _]. specialize (K eq_refl).
  remember (ros_run (N := RNum eps) 1 ramp no_jac one default_rosenbrock false 0 1 (rwrite (N := RNum eps) false m RX (fun _ => 0))) as m' eqn:E.
  destruct (accept_first eps rpow (ros_step (N := RNum eps) 1 ramp no_jac one default_rosenbrock) (made_ros_prepare (N := RNum eps) default_rosenbrock)
     m m' (fun _ => 0) (m' ROut) (m' RErr) 0 1) as (atol & c & s' & Ha & P & Q).
  { unfold ros_step. rewrite <- E. reflexivity. }
  exists atol, (mkRosd (N := RNum eps) c (fun _ => 0) (fun _ => 0) true 0 0 1), s'.
  split; [exact Ha|]. split; [reflexivity|]. split; [exact P|].
  destruct (C124_rosenbrock eps He 1 ramp no_jac one atol 0 None ltac:(lia) (mkRosd (N := RNum eps) c (fun _ => 0) (fun _ => 0) true 0 0 1) s'
    ltac:(cbn; lra) (or_introl eq_refl) P) as (G1 & _ & _ & G2 & G3 & _). cbn [rd_t rd_dt] in *.
  assert (D : dir 1 = 1) by (unfold dir; destruct (Rlt_dec 0 1); lra). rewrite D, Rmult_1_l in G2. rewrite Rabs_R1 in G3.
  split; [exact G1|]. split; [|rewrite Q; lra]. split; [exact G2|]. pose proof (Rle_abs (rd_t s' - 0)) as B. change (carrier (RNum eps)) with R in *. lra.
Qed.

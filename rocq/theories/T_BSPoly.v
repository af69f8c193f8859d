(** C122: the extrapolation methods on right-hand sides that are polynomials in time.
    C123: the dense output of bulirsch_stoer_dense_out at the ends of the step. *)
From Coq Require Import ZArith QArith List Bool Arith Reals Lia Lra.
From Verif Require Import M_Num M_Sign M_Run M_Checker M_RK M_CtrlRK M_Midpoint M_BS M_BSDense S_RK S_Real S_CtrlRK S_Midpoint S_BS S_Quad P_R P_RKOrder P_Midpoint P_BS P_BSDense
  P_BSInd P_BSDInd P_Neville P_Extrap P_BSDVal P_BSDVal2 P_BSDPoly P_BSPolyE X_Inst X_BS T_BS.
Import ListNotations.
Local Open Scope R_scope.
Local Ltac toR := match goal with |- @eq _ ?l ?r => change (@eq R l r) end.

Lemma es_even k : exists m, (1 <= m)%nat /\ es_seq k = (2 * m)%nat.
Proof. exists (k + 1)%nat. unfold es_seq. lia. Qed.
Lemma bs_even k : exists m, (1 <= m)%nat /\ bs_seq k = (2 * m)%nat.
Proof. exists (k + 1)%nat. unfold bs_seq. lia. Qed.
Lemma bsd_even k : exists m, (1 <= m)%nat /\ bsd_seq k = (2 * m)%nat.
Proof. exists (2 * k + 1)%nat. unfold bsd_seq. lia. Qed.

(** extrapolation_stepper< Order >: a step into a second state is exact for degree at most Order - 1, and
    the error estimate is zero for degree at most Order - 3. *)
Theorem C122_extrapolation_stepper : forall (eps : R) (I : Type) (order n : nat) (p : I -> list R) P sys (s : es (RNum eps) I) x t dt,
  quadrature p sys -> antideriv p P -> degree_le n p -> Nat.Even order -> (2 <= order)%nat -> (n < order)%nat ->
  (es_kmax order <= length (es_table s))%nat ->
  exists s' x', es_do_step_out (N := RNum eps) sys order s x t dt = Ok (s', x') /\ forall i, x' i = x i + (P i (t + dt) - P i t).
Proof.
  intros eps I order n p P sys s x t dt Hs HP Hd [o ->] Ho Hn Hl. unfold es_do_step_out.
  destruct (es_impl_nev (N := RNum eps) sys (2 * o) s x (sys x t) t dt Hl) as (s' & E & _).
  eexists s', _. split; [exact E|]. intro i.
  assert (Ek : es_kmax (2 * o) = (o - 1)%nat).
  { unfold es_kmax. replace (2 * o - 2)%nat with ((o - 1) * 2)%nat by lia. apply Nat.div_mul. discriminate. }
  apply (nev_quad0 eps p sys Hs es_seq (es_kmax (2 * o)) x t i n (P i) dt); eauto using es_even, es_seq_inc. rewrite Ek. lia.
Qed.
Print Assumptions C122_extrapolation_stepper.

Theorem C122_extrapolation_error : forall (eps : R) (I : Type) (order n : nat) (p : I -> list R) P sys (s : es (RNum eps) I) x t dt,
  quadrature p sys -> antideriv p P -> degree_le n p -> Nat.Even order -> (n + 2 < order)%nat ->
  (es_kmax order <= length (es_table s))%nat ->
  exists s' x' xerr, es_impl_err (N := RNum eps) sys order false s x (sys x t) t dt = Ok (s', x', xerr)
    /\ forall i, x' i = x i + (P i (t + dt) - P i t) /\ xerr i = 0.
Proof.
  intros eps I order n p P sys s x t dt Hs HP Hd [o ->] Ho Hl. unfold es_impl_err.
  destruct (es_impl_nev (N := RNum eps) sys (2 * o) s x (sys x t) t dt Hl) as (s' & E & _ & Ht).
  assert (Ek : es_kmax (2 * o) = (o - 1)%nat).
  { unfold es_kmax. replace (2 * o - 2)%nat with ((o - 1) * 2)%nat by lia. apply Nat.div_mul. discriminate. }
  rewrite E. cbn [rbind]. rewrite (vget_nth _ _ _ (Ht ltac:(lia))). cbn [rbind].
  eexists _, _, _. split; [reflexivity|]. intro i. rewrite Ek.
  assert (E1 : nev (N := RNum eps) es_seq (es_y (N := RNum eps) sys x (sys x t) t dt) (o - 1) (o - 1) i = x i + (P i (t + dt) - P i t)).
  { apply (nev_quad0 eps p sys Hs es_seq (o - 1) x t i n (P i) dt); eauto using es_even, es_seq_inc. lia. }
  assert (E2 : nev (N := RNum eps) es_seq (es_y (N := RNum eps) sys x (sys x t) t dt) (o - 1) (o - 1 - 1) i = x i + (P i (t + dt) - P i t)).
  { apply (nev_quad1 eps p sys Hs es_seq (o - 1) x t i n (P i) dt); eauto using es_even, es_seq_inc; lia. }
  split; [exact E1|]. cbn [scale_sum fold_left fst snd]. rewrite E1, E2. cbn [nadd nmul nopp nofZ RNum]. toR. ring.
Qed.
Print Assumptions C122_extrapolation_error.

(** bulirsch_stoer: every accepted try_step is exact for degree at most 3, whatever the history of the object. *)
Theorem C122_bulirsch_stoer : forall (eps : R) (I : Type) (idx : list I) pw (cfg : err_cfg (RNum eps)) max_dt (s : bs (RNum eps) I),
  bs_reach idx pw cfg max_dt s -> forall (p : I -> list R) P sys rs x t dt s' x' t' dt',
  quadrature p sys -> antideriv p P -> degree_le 3 p ->
  bs_try (N := RNum eps) idx pw sys cfg max_dt s rs x t dt = Ok (s', x', t', dt', true) ->
  t' = t + dt /\ forall i, x' i = x i + (P i t' - P i t).
Proof.
  intros eps I idx pw cfg max_dt s Hr p P sys rs x t dt s' x' t' dt' Hs HP Hd E.
  destruct (bs_try_ok (N := RNum eps) idx pw sys cfg max_dt s rs x t dt (bs_reach_inv _ _ _ _ _ Hr)) as (s1 & x1 & t1 & d1 & ok & E1 & _ & out & Hp & Hx).
  pose proof (eq_trans (eq_sym E) E1) as Q. injection Q as <- <- <- <- <-. subst out.
  destruct Hp as [(_ & _ & _ & _ & _ & _ & _ & Q)|(_ & _ & Ht & _ & nh & lr & _ & _ & (k & Hk & _ & Hx) & _)]; [discriminate|].
  cbn [nadd RNum] in Ht. split; [exact Ht|]. intro i. rewrite Ht, Hx.
  apply (nev_quad0 eps p sys Hs bs_seq k x t i 3 (P i) dt); auto using bs_even; [|lia].
  intros a b Hab. unfold bs_seq. lia.
Qed.
Print Assumptions C122_bulirsch_stoer.

(** For degree at most 1 the error estimate is zero: the first attempt is accepted for every step size. *)
Theorem C122_bulirsch_stoer_accepts : forall (eps : R) (I : Type) (idx : list I) pw (cfg : err_cfg (RNum eps)) (s : bs (RNum eps) I),
  bs_reach idx pw cfg 0 s -> forall (p : I -> list R) P sys rs x t dt, quadrature p sys -> antideriv p P -> degree_le 1 p ->
  exists s' x' dt', bs_try (N := RNum eps) idx pw sys cfg 0 s rs x t dt = Ok (s', x', t + dt, dt', true)
    /\ forall i, x' i = x i + (P i (t + dt) - P i t).
Proof.
  intros eps I idx pw cfg s Hr p P sys rs x t dt Hs HP Hd.
  destruct (bs_linear_accepts eps p sys Hs idx pw cfg s rs x t dt Hd (bs_reach_inv _ _ _ _ _ Hr)) as (s' & x' & dt' & E).
  exists s', x', dt'. split; [exact E|].
  apply (C122_bulirsch_stoer eps I idx pw cfg 0%R s Hr p P sys rs x t dt s' x' (t + dt) dt' Hs HP); [|exact E].
  intro i. specialize (Hd i). lia.
Qed.
Print Assumptions C122_bulirsch_stoer_accepts.

(** bulirsch_stoer_dense_out, one step.  After initialize, or after a step with the same system, [bd_first] is
    true or the stored derivative is the one of the current state.  The new state is exact for degree at most
    2 k + 1 and calc_state is exact at every time for degree at most 2 k, k = [bd_kfinal] >= 1 the last
    column of the extrapolation. *)
Theorem C122_dense_step : forall (eps : R) (I : Type) (idx : list I) pw (cfg : err_cfg (RNum eps)) max_dt ci (s : bsd (RNum eps) I),
  bsd_reach idx pw cfg max_dt ci (fun s => bd_kopt s <= 6)%nat s -> forall (n : nat) (p : I -> list R) P sys s',
  quadrature p sys -> antideriv p P -> degree_le n p ->
  bd_first s = true \/ bd_curdx s = sys (bd_curx s) (bd_t s) ->
  bsd_do_step (N := RNum eps) idx pw cfg max_dt ci sys s = Ok s' ->
  bd_oldx s' = bd_curx s /\ bd_tlast s' = bd_t s /\ (1 <= bd_kfinal s')%nat /\ bd_curdx s' = sys (bd_curx s') (bd_t s') /\
  ((n <= 2 * bd_kfinal s' + 1)%nat -> forall i, bd_curx s' i = bd_curx s i + (P i (bd_t s') - P i (bd_t s))) /\
  ((n <= 2 * bd_kfinal s')%nat -> bd_t s' <> bd_t s -> forall u, exists v, bsd_calc s' u = Ok v /\
     forall i, v i = bd_curx s i + (P i u - P i (bd_t s))).
Proof.
  intros eps I idx pw cfg max_dt ci s Hr n p P sys s' Hs HP Hd Hf E.
  pose proof (bsd_step_val (N := RNum eps) idx pw cfg max_dt ci sys s s' (bsd_reach_inv _ _ _ _ _ _ Hr) E) as V. cbv zeta in V.
  assert (V2 : bd_oldx s' = bd_curx s /\ bd_tlast s' = bd_t s /\ bd_curdx s' = sys (bd_curx s') (bd_t s') /\ exists dt,
    stepped (N := RNum eps) sys (bd_curx s) (sys (bd_curx s) (bd_t s)) (bd_t s) dt s'
    /\ bd_curx s' = bsd_T (N := RNum eps) sys (bd_curx s) (sys (bd_curx s) (bd_t s)) (bd_t s) dt (bd_kfinal s') (bd_kfinal s')).
  { destruct (bd_first s); [exact V|]. destruct Hf as [Hf|Hf]; [discriminate|]. rewrite <- Hf. exact V. }
  clear V. destruct V2 as (A & B & C & dt & D & F).
  pose proof (sd_t _ _ _ _ _ _ D) as D1. pose proof (sd_k _ _ _ _ _ _ D) as D2.
  split; [exact A|]. split; [exact B|]. split; [apply D2|]. split; [exact C|]. cbn [nadd RNum] in D1. split.
  - intros Hn i. rewrite F, D1.
    apply (nev_quad0 eps p sys Hs bsd_seq (bd_kfinal s') (bd_curx s) (bd_t s) i n (P i) dt); auto using bsd_even.
    intros a b Hab. unfold bsd_seq. lia.
  - intros Hn Ht u. assert (Hdt : dt <> 0) by (intro Q; apply Ht; rewrite D1, Q; apply Rplus_0_r).
    eexists. split; [exact (bsd_calc_val (N := RNum eps) sys (bd_curx s) (sys (bd_curx s) (bd_t s)) (bd_t s) dt s' u D)|].
    intro i. cbv zeta.
    rewrite (interp_quad eps p sys Hs (bd_curx s) (bd_t s) dt Hdt (bd_kfinal s') i n (P i) _ (Hd i) Hn (HP i)).
    rewrite B, D1. cbn [nadd nsub nmul ndiv nofZ RNum]. toR. do 3 f_equal. field. lra.
Qed.
Print Assumptions C122_dense_step.

Lemma dense_run_inv eps I (idx : list I) pw (cfg : err_cfg (RNum eps)) max_dt ci (p : I -> list R) P sys :
  quadrature p sys -> antideriv p P -> degree_le 3 p -> forall m (s s' : bsd (RNum eps) I) (c : I -> R),
  bsd_reach idx pw cfg max_dt ci (fun s => bd_kopt s <= 6)%nat s ->
  bd_first s = true \/ bd_curdx s = sys (bd_curx s) (bd_t s) ->
  (forall i, bd_curx s i = c i + P i (bd_t s)) ->
  bsd_steps (N := RNum eps) idx pw cfg max_dt ci sys m s = Ok s' ->
  (forall i, bd_curx s' i = c i + P i (bd_t s')) /\
  ((1 <= m)%nat -> degree_le 2 p -> bd_t s' <> bd_tlast s' -> forall u, exists v, bsd_calc s' u = Ok v /\ forall i, v i = c i + P i u).
Proof.
  intros Hs HP H3. induction m as [|m IH]; intros s s' c Hr Hf Hc E; cbn [bsd_steps] in E.
  - injection E as <-. split; [exact Hc|lia].
  - apply rbind_inv in E. destruct E as (s1 & E1 & E2).
    destruct (C122_dense_step eps I idx pw cfg max_dt ci s Hr 3 p P sys s1 Hs HP H3 Hf E1) as (A & B & K & C & X & _).
    assert (R1 : bsd_reach idx pw cfg max_dt ci (fun s => bd_kopt s <= 6)%nat s1) by (eapply dr_step; eassumption).
    assert (C1 : forall i, bd_curx s1 i = c i + P i (bd_t s1)).
    { intro i. rewrite (X ltac:(lia) i), Hc. toR. ring. }
    destruct (IH s1 s' c R1 (or_intror C) C1 E2) as [G1 G2]. split; [exact G1|].
    intros _ H2 Ht u. destruct m as [|m]; [|apply G2; [lia|exact H2|exact Ht]].
    cbn [bsd_steps] in E2. injection E2 as <-.
    destruct (C122_dense_step eps I idx pw cfg max_dt ci s Hr 2 p P sys s1 Hs HP H2 Hf E1) as (_ & _ & _ & _ & _ & Y).
    destruct (Y ltac:(lia) ltac:(rewrite <- B; exact Ht) u) as (v & Ev & Hv). exists v. split; [exact Ev|].
    intro i. rewrite Hv, Hc. toR. ring.
Qed.

(** Any number of steps after initialize( x , t , dt ) of a new or used object, with rejected attempts and
    changes of order and step size in between: degree at most 3 gives an exact current state, degree
    at most 2 an exact calc_state at every time, also outside the last step. *)
Theorem C122_dense_run : forall (eps : R) (I : Type) (idx : list I) pw (cfg : err_cfg (RNum eps)) max_dt ci (s : bsd (RNum eps) I) (p : I -> list R) P sys,
  bsd_fresh s \/ (bsd_reach idx pw cfg max_dt ci (fun s => bd_kopt s <= 6)%nat s /\ bd_kopt s <= 6)%nat ->
  quadrature p sys -> antideriv p P -> degree_le 3 p ->
  forall m x t dt s', bsd_steps (N := RNum eps) idx pw cfg max_dt ci sys m (bsd_init s x t dt) = Ok s' ->
  (forall i, bd_curx s' i = x i + (P i (bd_t s') - P i t)) /\
  ((1 <= m)%nat -> degree_le 2 p -> bd_t s' <> bd_tlast s' -> forall u, exists v, bsd_calc s' u = Ok v /\
     forall i, v i = x i + (P i u - P i t)).
Proof.
  intros eps I idx pw cfg max_dt ci s p P sys Hs Hq HP H3 m x t dt s' E.
  assert (Hr : bsd_reach idx pw cfg max_dt ci (fun s => bd_kopt s <= 6)%nat (bsd_init s x t dt)).
  { destruct Hs as [Hs|[Hs Hk]]; [now apply dr_new|now apply dr_init]. }
  destruct (dense_run_inv eps I idx pw cfg max_dt ci p P sys Hq HP H3 m _ s' (fun i => x i - P i t) Hr (or_introl eq_refl)) with (2 := E) as [G1 G2].
  { intro i. unfold bd_curx, bsd_init. cbn. destruct (bd_cur1 s); symmetry; toR; ring. }
  split; [intro i; rewrite G1; toR; ring|].
  intros Hm H2 Ht u. destruct (G2 Hm H2 Ht u) as (v & Ev & Hv). exists v. split; [exact Ev|]. intro i. rewrite Hv. toR. ring.
Qed.
Print Assumptions C122_dense_run.

(** x' = 3 + 2 t, and x' = 4 t^3 for the extrapolation stepper. *)
Definition lin_p (i : unit) : list R := [3; 2].
Definition lin_f (x : unit -> R) (t : R) (i : unit) : R := 3 + 2 * t.
Definition lin_P (i : unit) (s : R) : R := 3 * s + s * s.
Lemma lin_quad : quadrature lin_p lin_f. Proof. intros x t i. unfold lin_f, lin_p, peval. ring. Qed.
Lemma lin_anti : antideriv lin_p lin_P.
Proof.
  intros i s. unfold lin_P, lin_p, peval. replace (3 + s * (2 + s * 0)) with (3 * 1 + (1 * s + s * 1)) by ring.
  apply (derivable_pt_lim_plus (fun s => 3 * s) (fun s => s * s)).
  - apply (derivable_pt_lim_scal (fun s => s)), derivable_pt_lim_id.
  - apply (derivable_pt_lim_mult (fun s => s) (fun s => s)); apply derivable_pt_lim_id.
Qed.
Definition cub_p (i : unit) : list R := [0; 0; 0; 4].
Definition cub_f (x : unit -> R) (t : R) (i : unit) : R := 4 * (t * t * t).
Definition cub_P (i : unit) (s : R) : R := (s * s) * (s * s).
Lemma cub_quad : quadrature cub_p cub_f. Proof. intros x t i. unfold cub_f, cub_p, peval. ring. Qed.
Lemma cub_anti : antideriv cub_p cub_P.
Proof.
  intros i s. unfold cub_P, cub_p, peval.
  replace (0 + s * (0 + s * (0 + s * (4 + s * 0)))) with ((1 * s + s * 1) * (s * s) + (s * s) * (1 * s + s * 1)) by ring.
  assert (H : derivable_pt_lim (fun s => s * s) s (1 * s + s * 1)) by (apply (derivable_pt_lim_mult (fun s => s) (fun s => s)); apply derivable_pt_lim_id).
  apply (derivable_pt_lim_mult (fun s => s * s) (fun s => s * s)); exact H.
Qed.

Definition rz (eps : R) : vec (RNum eps) unit := fun _ => 0%R.
Definition bsdR (eps : R) : bsd (RNum eps) unit :=
  @mkBsd (RNum eps) unit (repeat (rz eps) 8) (repeat (rz eps) 9) (map (repeat (rz eps)) derivs_sizes) (map (repeat (rz eps)) diffs_sizes)
    (rz eps) (rz eps) (rz eps) (rz eps) true 4 0 true false 0 0 0.
Lemma bsdR_fresh eps : bsd_fresh (bsdR eps).
Proof. unfold bsd_fresh. cbn. repeat split; reflexivity. Qed.

(** A step of length 2 of the fourth order extrapolation stepper on x' = 4 t^3, x(1) = 0. *)
Example C122_extrapolation_example : forall eps, exists s' x',
  es_do_step_out (N := RNum eps) cub_f 4 (mkEs (N := RNum eps) (I := unit) (fun _ => rz eps) [rz eps] (rz eps)) (rz eps) 1%R 2%R = Ok (s', x') /\ x' tt = 80.
Proof.
  intro eps.
  assert (D : degree_le 3 cub_p) by (intro i; cbn; lia). assert (H4 : Nat.Even 4) by (exists 2%nat; reflexivity).
  assert (L : (es_kmax 4 <= length (es_table (mkEs (N := RNum eps) (I := unit) (fun _ => rz eps) [rz eps] (rz eps))))%nat) by (cbn; lia).
  destruct (C122_extrapolation_stepper eps unit 4 3 cub_p cub_P cub_f _ (rz eps) 1 2 cub_quad cub_anti D H4 ltac:(lia) ltac:(lia) L)
    as (s' & x' & E & H).
  exists s', x'. split; [exact E|]. rewrite H. unfold cub_P, rz. toR. ring.
Qed.
(** A first step of length 2 on x' = 3 + 2 t from x(0) = 7 with the dense output at t = 1/2. *)
Example C122_dense_example : forall eps (cfg : err_cfg (RNum eps)), exists s' v,
  bsd_steps (N := RNum eps) [tt] rpow cfg 0%R false lin_f 1 (bsd_init (N := RNum eps) (bsdR eps) (fun _ => 7) 0%R 2%R) = Ok s'
  /\ bd_t s' = 2 /\ bd_curx s' tt = 17 /\ bsd_calc s' (1 / 2)%R = Ok v /\ v tt = 7 + 7 / 4.
Proof.
  intros eps cfg. set (s := bsd_init (N := RNum eps) (bsdR eps) (fun _ => 7) 0%R 2%R).
  assert (Hr : bsd_reach (N := RNum eps) [tt] rpow cfg 0%R false (fun s => bd_kopt s <= 6)%nat s) by (apply dr_new, bsdR_fresh).
  assert (L : forall i, (length (lin_p i) <= 2)%nat) by (intro i; cbn; lia).
  destruct (bsd_linear_accepts eps lin_p lin_f lin_quad [tt] rpow cfg s L (bsd_reach_inv _ _ _ _ _ _ Hr)) as (s' & E & Ht); [discriminate|].
  assert (E1 : bsd_steps (N := RNum eps) [tt] rpow cfg 0%R false lin_f 1 s = Ok s') by (cbn [bsd_steps]; rewrite E; reflexivity).
  destruct (C122_dense_step eps unit [tt] rpow cfg 0%R false s Hr 1 lin_p lin_P lin_f s' lin_quad lin_anti L (or_introl eq_refl) E) as (_ & B & K & _ & X & Y).
  assert (T2 : bd_t s' = 2) by (rewrite Ht; cbn; ring).
  destruct (Y ltac:(lia) ltac:(rewrite T2; cbn; lra) (1 / 2)%R) as (v & Ev & Hv).
  exists s', v. split; [exact E1|]. split; [exact T2|]. split; [|split; [exact Ev|]].
  - rewrite (X ltac:(lia) tt), T2. unfold lin_P. cbn. toR. ring.
  - rewrite Hv. unfold lin_P. cbn. toR. field.
Qed.

(** ** C123: after a do_step, does calc_state return current_state at current_time and previous_state at
    previous_time?  Not for x' = x: after one step of length 1 from x(0) = 1 the current state is
    42241/15552 and calc_state( 1 ) is 3125/1152, calc_state( 0 ) is 10357/10368. *)
Theorem C123_refuted : exists (s s' : bsd Q0 unit) (sys : vec Q0 unit -> Q -> vec Q0 unit) v w,
  bsd_reach (N := Q0) [tt] qpow cfg1 0%Q false (fun s => bd_kopt s <= 6)%nat s
  /\ bsd_do_step (N := Q0) [tt] qpow cfg1 0%Q false sys s = Ok s'
  /\ bsd_calc s' (bd_t s') = Ok v /\ ~ (v tt == bd_curx s' tt)%Q
  /\ bsd_calc s' (bd_tlast s') = Ok w /\ ~ (w tt == bd_oldx s' tt)%Q.
Proof.
  set (s := bsd_init (N := Q0) bsd0 (fun _ => 1%Q) 0%Q 1%Q).
  set (sys := fun (x : vec Q0 unit) (_ : Q) => x).
  destruct (res_ok (bsd_do_step (N := Q0) [tt] qpow cfg1 0%Q false sys s)
    (fun s' => match bsd_calc s' (bd_t s'), bsd_calc s' (bd_tlast s') with
     | Ok v, Ok w => negb (Qeq_bool (v tt) (bd_curx s' tt)) && negb (Qeq_bool (w tt) (bd_oldx s' tt))
     | _, _ => false end)) as (s' & E & H).
  { vm_compute. reflexivity. }
  assert (Hr : bsd_reach (N := Q0) [tt] qpow cfg1 0%Q false (fun s => bd_kopt s <= 6)%nat s) by (apply dr_new, bsd0_fresh).
  clearbody s sys.
  assert (Hc : forall t, exists v, bsd_calc s' t = Ok v).
  { destruct (C32_tables_partial Q0 unit [tt] qpow cfg1 0%Q false s Hr sys) as [Q|(s1 & Q & _ & Hc)]; rewrite E in Q; [discriminate|].
    injection Q as <-. exact Hc. }
  destruct (Hc (bd_t s')) as [v Ev]. destruct (Hc (bd_tlast s')) as [w Ew]. rewrite Ev, Ew in H.
  apply andb_true_iff in H. destruct H as [H1 H2]. apply negb_true_iff in H1, H2.
  exists s, s', sys, v, w. split; [exact Hr|]. split; [exact E|].
  split; [exact Ev|]. split; [now apply Qeq_bool_neq|]. split; [exact Ew|]. now apply Qeq_bool_neq.
Qed.
Print Assumptions C123_refuted.

(** It does for right-hand sides that are polynomials in time of degree at most 2 k. *)
Theorem C123_quadrature_partial : forall (eps : R) (I : Type) (idx : list I) pw (cfg : err_cfg (RNum eps)) max_dt ci (s : bsd (RNum eps) I),
  bsd_reach idx pw cfg max_dt ci (fun s => bd_kopt s <= 6)%nat s -> forall (p : I -> list R) P sys s',
  quadrature p sys -> antideriv p P ->
  bd_first s = true \/ bd_curdx s = sys (bd_curx s) (bd_t s) ->
  bsd_do_step (N := RNum eps) idx pw cfg max_dt ci sys s = Ok s' -> degree_le (2 * bd_kfinal s') p -> bd_t s' <> bd_tlast s' ->
  exists v w, bsd_calc s' (bd_t s') = Ok v /\ (forall i, v i = bd_curx s' i) /\ bsd_calc s' (bd_tlast s') = Ok w /\ forall i, w i = bd_oldx s' i.
Proof.
  intros eps I idx pw cfg max_dt ci s Hr p P sys s' Hs HP Hf E Hd Ht.
  destruct (C122_dense_step eps I idx pw cfg max_dt ci s Hr _ p P sys s' Hs HP Hd Hf E) as (A & B & _ & _ & X & Y).
  rewrite B in Ht. destruct (Y ltac:(lia) Ht (bd_t s')) as (v & Ev & Hv). destruct (Y ltac:(lia) Ht (bd_tlast s')) as (w & Ew & Hw).
  exists v, w. split; [exact Ev|]. split; [|split; [exact Ew|]].
  - intro i. rewrite Hv, (X ltac:(lia) i). reflexivity.
  - intro i. rewrite Hw, A, B. toR. ring.
Qed.
Print Assumptions C123_quadrature_partial.

(** Theorems about bulirsch_stoer and bulirsch_stoer_dense_out (C31-C33, C49, C74-C77). *)
From Coq Require Import ZArith List Bool Lia Arith Reals Lra QArith.
From Verif Require Import M_Num M_Sign M_Run M_Checker M_Controlled S_Grid M_RK M_CtrlRK M_Midpoint M_BS M_BSDense S_Real S_Ctrl S_CtrlRK
  S_Midpoint S_BS P_R P_BS P_BSDense P_BSInd P_BSDInd P_BSR P_BSDR P_Midpoint P_Neville P_CtrlRKR X_Inst X_BS.
Import ListNotations.
Local Open Scope res_scope.

Lemma res_ok {A} (m : res A) (P : A -> bool) : match m with Ok a => P a | _ => false end = true -> exists a, m = Ok a /\ P a = true.
Proof. destruct m as [a| | |]; try discriminate. now exists a. Qed.

Lemma rbind_inv {A B} (m : res A) (f : A -> res B) b : rbind m f = Ok b -> exists a, m = Ok a /\ f a = Ok b.
Proof. destruct m; try discriminate. intro H. eauto. Qed.

(** ** C31 *)
Lemma bs_v2_ok {N : Num} {I} idx pw cfg max_dt sys (s : bs N I) rs x dxdt t dt : bs_inv s ->
  exists s' x' t' dt' ok, bs_try_v2 idx pw sys cfg max_dt s rs x dxdt t dt = Ok (s', x', t', dt', ok) /\ bs_inv s'
   /\ (exists out, core_post idx pw sys cfg max_dt s x dxdt t dt s' t' out dt' ok /\ x' = if ok then out else x).
Proof.
  intro Hs. unfold bs_try_v2.
  destruct (bs_core_ok idx pw sys cfg max_dt s rs x dxdt t (bs_xnew s) dt Hs) as (s' & t' & out' & dt' & ok & E & Hi & Hp).
  rewrite E. cbn [rbind]. eexists _, _, _, _, _. split; [reflexivity|]. split; [exact Hi|].
  exists out'. split; [exact Hp|reflexivity].
Qed.
Lemma bs_v3_ok {N : Num} {I} idx pw cfg max_dt sys (s : bs N I) rs x t out dt : bs_inv s ->
  exists s' out' t' dt' ok, bs_try_v3 idx pw sys cfg max_dt s rs x t out dt = Ok (s', out', t', dt', ok) /\ bs_inv s'
   /\ core_post idx pw sys cfg max_dt s x (sys x t) t dt s' t' out' dt' ok.
Proof.
  intro Hs. unfold bs_try_v3.
  set (s0 := mkBs _ _ _ _ _ _ _ _). assert (H0 : bs_inv s0) by exact Hs.
  destruct (bs_core_ok idx pw sys cfg max_dt s0 rs x (sys x t) t out dt H0) as (s' & t' & out' & dt' & ok & E & Hi & Hp).
  rewrite E. cbn [rbind]. eexists _, _, _, _, _. split; [reflexivity|]. split; [exact Hi|exact Hp].
Qed.
Lemma bs_reach_inv {N : Num} {I} idx pw cfg max_dt (s : bs N I) : bs_reach idx pw cfg max_dt s -> bs_inv s.
Proof.
  induction 1 as [m table xnew dxdt dtl L|s H IH|sys s rs x t dt s' x' t' dt' ok H IH E|sys s rs x dxdt t dt s' x' t' dt' ok H IH E|sys s rs x t out dt s' x' t' dt' ok H IH E].
  - unfold bs_inv, bs_new, bs_reset. cbn. repeat split; auto; lia.
  - now apply bs_reset_inv.
  - destruct (bs_try_ok idx pw sys cfg max_dt s rs x t dt IH) as (a & b & c & d & e & E2 & Hi & _). rewrite E in E2. now injection E2 as <- _ _ _ _.
  - destruct (bs_v2_ok idx pw cfg max_dt sys s rs x dxdt t dt IH) as (a & b & c & d & e & E2 & Hi & _). rewrite E in E2. now injection E2 as <- _ _ _ _.
  - destruct (bs_v3_ok idx pw cfg max_dt sys s rs x t out dt IH) as (a & b & c & d & e & E2 & Hi & _). rewrite E in E2. now injection E2 as <- _ _ _ _.
Qed.
Lemma core_time {N : Num} {I} idx pw cfg max_dt sys (s : bs N I) x dxdt t dt s' t' out dt' ok :
  core_post idx pw sys cfg max_dt s x dxdt t dt s' t' out dt' ok -> t' = if ok then nadd t dt else t.
Proof. intros [(_ & _ & _ & _ & _ & -> & _ & ->)|(_ & _ & H & _)]; [reflexivity|]. destruct ok; exact H. Qed.

(** Every call of every overload on every reachable object, in every arithmetic: no access outside the
    tables (the result is never UB), the order index stays in 2..7, an accepted call advances the time
    by dt, a rejected call leaves time and state alone. *)
Theorem C31_tables : forall (N : Num) (I : Type) (idx : list I) (pw : N -> N -> N) (cfg : err_cfg N) (max_dt : N) (s : bs N I),
  bs_reach idx pw cfg max_dt s ->
  (2 <= bs_kopt s <= 7)%nat /\
  forall sys rs x t dt,
  (exists s' x' t' dt' ok, bs_try idx pw sys cfg max_dt s rs x t dt = Ok (s', x', t', dt', ok)
     /\ t' = (if ok then nadd t dt else t) /\ (ok = false -> x' = x))
  /\ (forall dxdt, exists s' x' t' dt' ok, bs_try_v2 idx pw sys cfg max_dt s rs x dxdt t dt = Ok (s', x', t', dt', ok)
     /\ t' = (if ok then nadd t dt else t) /\ (ok = false -> x' = x))
  /\ (forall out, exists s' out' t' dt' ok, bs_try_v3 idx pw sys cfg max_dt s rs x t out dt = Ok (s', out', t', dt', ok)
     /\ t' = (if ok then nadd t dt else t)).
Proof.
  intros N I idx pw cfg max_dt s Hr. pose proof (bs_reach_inv idx pw cfg max_dt s Hr) as Hi. split; [apply Hi|].
  intros sys rs x t dt. split; [|split].
  - destruct (bs_try_ok idx pw sys cfg max_dt s rs x t dt Hi) as (a & b & c & d & e & E & _ & out & Hp & Hx).
    exists a, b, c, d, e. split; [exact E|]. split; [exact (core_time _ _ _ _ _ _ _ _ _ _ _ _ _ _ _ Hp)|]. now intros ->.
  - intro dxdt. destruct (bs_v2_ok idx pw cfg max_dt sys s rs x dxdt t dt Hi) as (a & b & c & d & e & E & _ & out & Hp & Hx).
    exists a, b, c, d, e. split; [exact E|]. split; [exact (core_time _ _ _ _ _ _ _ _ _ _ _ _ _ _ _ Hp)|]. now intros ->.
  - intro out. destruct (bs_v3_ok idx pw cfg max_dt sys s rs x t out dt Hi) as (a & b & c & d & e & E & _ & Hp).
    exists a, b, c, d, e. split; [exact E|]. exact (core_time _ _ _ _ _ _ _ _ _ _ _ _ _ _ _ Hp).
Qed.
Print Assumptions C31_tables.

(** Over the reals, without step limit: a rejected call proposes a step of at most 0.94 of the
    attempted one unless the previous call was rejected too and the gain would be below epsilon; no call
    shortens the step by more than a factor 200; the direction is kept. *)
Theorem C31_step_size : forall (eps : R) (I : Type) (idx : list I) (cfg : err_cfg (RNum eps)) (s : bs (RNum eps) I),
  bs_reach (N := RNum eps) idx rpow cfg 0%R s -> forall sys rs x t dt s' x' t' dt' ok, dt <> 0%R ->
  bs_try (N := RNum eps) idx rpow sys cfg 0%R s rs x t dt = Ok (s', x', t', dt', ok) ->
  (0 < dir dt * dt')%R /\ (1 / 200 * Rabs dt <= Rabs dt')%R /\
  (ok = false -> (Rabs dt' <= 94 / 100 * Rabs dt)%R \/ (dt' = dt /\ bs_lastrej s = true /\ (6 / 100 * Rabs dt <= eps)%R)).
Proof.
  intros eps I idx cfg s Hr sys rs x t dt s' x' t' dt' ok Hd E. pose proof (bs_reach_inv (N := RNum eps) idx rpow cfg 0%R s Hr) as Hi.
  destruct (bs_try_ok (N := RNum eps) idx rpow sys cfg 0%R s rs x t dt Hi) as (a & b & c & d & e & E2 & _ & out & Hp & _).
  pose proof (eq_trans (eq_sym E) E2) as Q. injection Q as <- <- <- <- <-.
  destruct (core_R eps idx sys cfg _ _ _ _ _ _ _ _ _ _ Hd Hp) as (_ & j & k & Hj & Hk & Hrej & Hdt).
  set (er := bs_err _ _ _ _ _ _ _ _) in *. clearbody er.
  pose proof (hfac_lower false er j) as Hl. pose proof (Rabs_pos_lt dt Hd) as Pd. pose proof (dir_abs dt) as Da.
  set (q := hfac false er j) in *. assert (P : (1 / 200 <= q * k)%R) by nra.
  assert (Ad : (Rabs (dt * (q * k)) = Rabs dt * (q * k))%R) by (rewrite Rabs_mult, (Rabs_right (q * k)) by lra; reflexivity).
  split; [|split].
  - destruct Hdt as [->|[-> _]]; [|lra]. replace (dir dt * (dt * (q * k)))%R with (dir dt * dt * (q * k))%R by ring. nra.
  - destruct Hdt as [->|[-> _]]; [rewrite Ad; nra|lra].
  - intros ->. destruct (Hrej eq_refl) as [-> He]. pose proof (hfac_reject false er j ltac:(lia) He) as Hh. fold q in Hh.
    destruct Hdt as [->|(-> & Hl2 & Hn)]; [left; rewrite Ad; nra|right]. split; [reflexivity|]. split; [exact Hl2|].
    replace (dir dt * (dt - dt * (q * 1)))%R with (dir dt * dt * (1 - q))%R in Hn by ring. rewrite Da in Hn. nra.
Qed.
Print Assumptions C31_step_size.

(** The stiff system on rationals: the first attempt is rejected, the order index is still 4. *)
Example C31_example :
  exists s : bs Q0 unit, bs_reach (N := Q0) [tt] qpow cfg1 0%Q s /\
  exists s' x' t' dt', bs_try (N := Q0) [tt] qpow stiff_sys cfg1 0%Q s true z0 0%Q 1%Q = Ok (s', x', t', dt', false)
   /\ bs_kopt s' = 4%nat /\ Qle_bool dt' (1 # 2) = true.
Proof.
  exists (bs_new (N := Q0) (fun _ _ => 0%Q) (repeat z0 8) z0 z0 7%Q). split; [now apply br_new|].
  destruct (res_ok (bs_try (N := Q0) [tt] qpow stiff_sys cfg1 0%Q (bs_new (N := Q0) (fun _ _ => 0%Q) (repeat z0 8) z0 z0 7%Q) true z0 0%Q 1%Q)
    (fun '(s', _, _, dt', ok) => negb ok && Nat.eqb (bs_kopt s') 4 && Qle_bool dt' (1 # 2))) as ([[[[s' x'] t'] dt'] ok] & E & H);
    [vm_compute; reflexivity|].
  destruct ok; [discriminate H|]. cbn [negb andb] in H. apply andb_true_iff in H. destruct H as [H1 H2].
  exists s', x', t', dt'. split; [exact E|]. split; [now apply Nat.eqb_eq|exact H2].
Qed.

(** ** C49 for bulirsch_stoer: an accepted step is the value at 0 of the polynomial in h^2 through the
    midpoint results with 2, 4, .., 2(k+1) sub-steps, for some k >= 1. *)
Theorem C49_bulirsch_stoer : forall (eps : R) (I : Type) (idx : list I) (cfg : err_cfg (RNum eps)) max_dt (s : bs (RNum eps) I),
  bs_reach (N := RNum eps) idx rpow cfg max_dt s -> forall sys rs x t dt s' x' t' dt', dt <> 0%R ->
  bs_try (N := RNum eps) idx rpow sys cfg max_dt s rs x t dt = Ok (s', x', t', dt', true) ->
  exists k y, (1 <= k <= 8)%nat /\ mid_values (N := RNum eps) sys bs_seq x t dt y
    /\ forall i p, (length p <= S k)%nat -> (forall j, (j <= k)%nat -> peval p (Rsqr (dt / INR (bs_seq j))) = y j i) -> x' i = peval p 0.
Proof.
  intros eps I idx cfg max_dt s Hr sys rs x t dt s' x' t' dt' Hd E. pose proof (bs_reach_inv (N := RNum eps) idx rpow cfg max_dt s Hr) as Hi.
  destruct (bs_try_ok (N := RNum eps) idx rpow sys cfg max_dt s rs x t dt Hi) as (a & b & c & d & e & E2 & _ & out & Hp & Hx).
  pose proof (eq_trans (eq_sym E) E2) as Q. injection Q as <- <- <- <- <-.
  destruct Hp as [(_ & _ & _ & _ & _ & _ & _ & Hp)|(_ & _ & _ & _ & nh & lr & _ & _ & (k & Hk & _ & Ho) & _)]; [discriminate|].
  exists k, (fun k => mm_val (N := RNum eps) sys (bs_seq k) x (sys x t) t dt). split; [exact Hk|]. split.
  - intro j. eexists _, _. split; [apply gz_gragg|reflexivity].
  - intros i p Hpl Hy. cbn in Hx. rewrite Hx, Ho. unfold bs_T.
    apply (nev_poly eps bs_seq dt Hd k); [intros; unfold bs_seq; lia|exact Hpl|]. intros j Hj. symmetry. now apply Hy.
Qed.
Print Assumptions C49_bulirsch_stoer.

(** ** C74: what the constructor leaves uninitialised (m_dt_last, buffers) does not influence any
    result of any sequence of calls, in any arithmetic. *)
Theorem C74_uninitialised : forall (N : Num) (I : Type) (idx : list I) (pw : N -> N -> N) (cfg : err_cfg N) (max_dt : N)
    m1 m2 table1 table2 xn1 xn2 d1 d2 dtl1 dtl2 (calls : list bs_call),
  length table1 = 8%nat -> length table2 = 8%nat ->
  bs_results idx pw cfg max_dt (bs_new (I := I) m1 table1 xn1 d1 dtl1) calls
  = bs_results idx pw cfg max_dt (bs_new (I := I) m2 table2 xn2 d2 dtl2) calls.
Proof.
  intros N I idx pw cfg max_dt m1 m2 table1 table2 xn1 xn2 d1 d2 dtl1 dtl2 calls L1 L2.
  assert (G : forall l (s1 s2 : bs N I), bs_inv s1 -> bs_inv s2 -> bs_sim s1 s2 ->
    bs_results idx pw cfg max_dt s1 l = bs_results idx pw cfg max_dt s2 l).
  { induction l as [|[sys rs x t dt|] r IH]; intros s1 s2 H1 H2 Hs; cbn [bs_results]; [reflexivity| |].
    - destruct (bs_try_sim idx pw sys cfg max_dt s1 s2 rs x t dt H1 H2 Hs) as (s1' & s2' & x' & t' & dt' & ok & E1 & E2 & Hs' & I1 & I2).
      rewrite E1, E2. f_equal. now apply IH.
    - apply IH; [now apply bs_reset_inv|now apply bs_reset_inv|now apply bs_sim_reset]. }
  apply G.
  - unfold bs_inv, bs_new, bs_reset. cbn. repeat split; auto; lia.
  - unfold bs_inv, bs_new, bs_reset. cbn. repeat split; auto; lia.
  - unfold bs_sim, bs_new, bs_reset. cbn. auto 10.
Qed.
Print Assumptions C74_uninitialised.
(** m_dt_last is really read: an object that is not freshly reset behaves differently for different values. *)
Example C74_example :
  let s dtl := @mkBs Q0 unit (fun _ _ => 0%Q) (repeat z0 8) z0 z0 3 false false dtl in
  let r dtl := match bs_try (N := Q0) [tt] qpow stiff_sys cfg1 0%Q (s dtl) false z0 0%Q (1 # 10)%Q with Ok (_, _, _, dt', _) => dt' | _ => 0%Q end in
  Qeq_bool (r (1 # 10)%Q) (r 7%Q) = false.
Proof. vm_compute. reflexivity. Qed.

(** ** C75: stepping backward is the mirror image of stepping forward.  False: the work per unit
    step is negative for negative dt, so the order selection prefers the most expensive column.  For
    x' = 1 forward and x' = -1 backward a new object accepts the first step but proposes a step twice as long
    backward. *)
Theorem C75_refuted : exists (f : vec Q0 unit -> Q -> vec Q0 unit) (s sf sb : bs Q0 unit) x xf xb tf tb df db,
  bs_reach (N := Q0) [tt] qpow cfg1 0%Q s
  /\ bs_try (N := Q0) [tt] qpow f cfg1 0%Q s true x 0%Q 1%Q = Ok (sf, xf, tf, df, true)
  /\ bs_try (N := Q0) [tt] qpow (fun x t i => - f x (- t) i)%Q cfg1 0%Q s true x 0%Q (-1)%Q = Ok (sb, xb, tb, db, true)
  /\ Qeq_bool (xf tt) (xb tt) = true /\ Qeq_bool tb (- tf) = true
  /\ Qeq_bool db (- df) = false /\ Qeq_bool db (- (2 * df)) = true.
Proof.
  exists (fun _ _ _ => 1%Q), (bs_new (N := Q0) (fun _ _ => 0%Q) (repeat z0 8) z0 z0 7%Q).
  set (s := bs_new _ _ _ _ _).
  destruct (res_ok (let! f := bs_try (N := Q0) [tt] qpow (fun _ _ _ => 1%Q) cfg1 0%Q s true z0 0%Q 1%Q in
                    let! b := bs_try (N := Q0) [tt] qpow (fun x t i => - (fun _ _ _ => 1%Q) x (- t)%Q i)%Q cfg1 0%Q s true z0 0%Q (-1)%Q in Ok (f, b))
    (fun '((_, xf, tf, df, okf), (_, xb, tb, db, okb)) =>
       (okf && okb) && (Qeq_bool (xf tt) (xb tt) && Qeq_bool tb (- tf) && negb (Qeq_bool db (- df)) && Qeq_bool db (- (2 * df)))))
    as ([[[[[sf xf] tf] df] okf] [[[[sb xb] tb] db] okb]] & E & H); [vm_compute; reflexivity|].
  apply rbind_inv in E. destruct E as (f & Ef & E). apply rbind_inv in E. destruct E as (b & Eb & E). injection E as -> ->.
  destruct okf, okb; try discriminate H. cbn [andb] in H.
  apply andb_true_iff in H. destruct H as [H H4]. apply andb_true_iff in H. destruct H as [H H3]. apply andb_true_iff in H. destruct H as [H1 H2].
  apply negb_true_iff in H3.
  exists sf, sb, z0, xf, xb, tf, tb, df, db. split; [now apply br_new|]. auto 10.
Qed.
Print Assumptions C75_refuted.

(** ** C76: bulirsch_stoer satisfies the contract that the theorems about the integrate functions with
    controlled steppers require (C04-C12, C70): [bs_live] pairs a reachable object with a call counter, [rs n] is
    the answer of the resizer in call n, and [bs_live_try] is try_step on it. *)
Theorem C76_contract : forall (eps : R), (0 <= eps)%R -> forall (I : Type) (idx : list I) (sys : (I -> R) -> R -> (I -> R)) (cfg : err_cfg (RNum eps)) (rs : nat -> bool),
  try_contract (bs_live_try eps idx sys cfg rs)
  /\ (forall l x t dt l' x' t' dt' ok, bs_live_try eps idx sys cfg rs l x t dt = (l', x', t', dt', ok) ->
       bs_try (N := RNum eps) idx rpow sys cfg 0%R (proj1_sig (fst l)) (rs (snd l)) x t dt = Ok (proj1_sig (fst l'), x', t', dt', ok))
  /\ (forall s, bs_reach (N := RNum eps) idx rpow cfg 0%R s -> exists l : bs_live eps, proj1_sig (fst l) = s).
Proof.
  intros eps He I idx sys cfg rs. split; [|split].
  - exact (bs_contract eps idx sys cfg rs).
  - intros l x t dt l' x' t' dt' ok E. exact (proj1 (bs_live_spec eps idx sys cfg rs l x t dt l' x' t' dt' ok E)).
  - intros s Hs. exists (exist _ s (bs_reach_inv (N := RNum eps) idx rpow cfg 0%R s Hs), 0%nat). reflexivity.
Qed.
Print Assumptions C76_contract.

(** ** C77: total correctness of integrate_adaptive with bulirsch_stoer.  For every system bounded by B the
    run returns normally at the end time after at most k steps; h is a step width that is always accepted. *)
Theorem C77_terminates : forall eps, (0 <= eps)%R -> forall I W (idx : list I) (cfg : err_cfg (RNum eps)),
  good_tol (eps_abs cfg) (eps_rel cfg) (a_x cfg) (a_dxdt cfg) ->
  forall (sys : (I -> R) -> R -> (I -> R)) B, (forall x t i, Rabs (sys x t i) <= B)%R -> (0 < B)%R ->
  forall (obs : W -> (I -> R) -> R -> M (ev (I -> R) R) W), (forall w x t, exists tr w', obs w x t = (tr, Ok w')) ->
  forall rs, let h := (2 / 10 * eps_abs cfg / (2 * 9 ^ 8 * B))%R in (eps < 6 / 100 * h)%R ->
  forall (l : bs_live eps) w x t0 tend dt, dt <> 0%R -> (0 <= dir dt * (tend - t0))%R ->
  ((94 / 100) ^ 499 * (Rabs (tend - t0) + eps) <= h)%R ->
  forall k fuel, (Rabs (tend - t0) <= INR k * Rmin (Rabs dt) (1 / 200 * h) + eps)%R -> (k < fuel)%nat ->
  exists tr l' w' x' t' dt' steps,
   integrate_adaptive_ctrl (N := RNum eps) (ctrl_step (bs_live_try eps idx sys cfg rs)) obs fuel l w x t0 tend dt
   = (tr, Ok (l', w', x', t', dt', steps)) /\ (Rabs (tend - t') <= eps)%R /\ (steps <= k)%nat.
Proof.
  intros eps He I W idx cfg Ht sys B HB HB0 obs Ho rs h Hh.
  exact (bs_terminates eps He idx sys cfg rs Ht B HB HB0 obs Ho Hh).
Qed.
Print Assumptions C77_terminates.
(** x' = cos(x + t) on [0,10] with tolerance 1/1000. *)
Example C77_example :
  let cfg := mkErrCfg (N := RNum 0) (1 / 1000)%R 0%R 1%R 1%R in
  let h := (2 / 10 * eps_abs cfg / (2 * 9 ^ 8 * 1))%R in
  (0 < 6 / 100 * h)%R /\ (forall (x : unit -> R) t (i : unit), Rabs (cos (x i + t)) <= 1)%R
  /\ ((94 / 100) ^ 499 * (Rabs (10 - 0) + 0) <= h)%R
  /\ exists k, (Rabs (10 - 0) <= INR k * Rmin (Rabs 1) (1 / 200 * h) + 0)%R.
Proof.
  cbv zeta. cbn [eps_abs]. set (h := (2 / 10 * (1 / 1000) / (2 * 9 ^ 8 * 1))%R).
  assert (H9 : (0 < 9 ^ 8 <= 43046721)%R) by (simpl; lra).
  assert (Hh : (1 / 1000000000000 <= h)%R).
  { unfold h. simpl. lra. }
  clearbody h. split; [lra|]. split; [intros; apply Rabs_le; pose proof (COS_bound (x i + t)); lra|]. split.
  - rewrite Rminus_0_r, Rplus_0_r, (Rabs_right 10) by lra.
    assert (A : (0 <= (94 / 100) ^ 38 <= 1 / 10)%R).
    { split; [apply pow_le; lra|]. replace 38%nat with (19 * 2)%nat by reflexivity. rewrite pow_mult.
      assert (Q : (0 <= (94 / 100) ^ 19 <= 31 / 100)%R) by (split; [apply pow_le; lra|simpl; lra]). simpl (_ ^ 2)%R. nra. }
    assert (P : ((94 / 100) ^ 499 <= (1 / 10) ^ 13)%R).
    { replace 499%nat with (5 + 38 * 13)%nat by reflexivity. rewrite pow_add, pow_mult.
      assert (0 <= ((94 / 100) ^ 38) ^ 13 <= (1 / 10) ^ 13)%R by (split; [apply pow_le; lra|apply pow_incr; lra]).
      assert (0 <= (94 / 100) ^ 5 <= 1)%R by (split; [apply pow_le; lra|rewrite <- (pow1 5); apply pow_incr; lra]). nra. }
    assert (Q : ((1 / 10) ^ 13 <= 1 / 10000000000000)%R) by (simpl; lra). lra.
  - set (m := Rmin (Rabs 1) (1 / 200 * h)).
    assert (Pm : (0 < m)%R) by (apply Rmin_glb_lt; [rewrite Rabs_R1; lra|lra]).
    destruct (archimed_cor1 (m / 11)) as (k & Hk & Hk0); [lra|]. exists k.
    rewrite Rminus_0_r, Rplus_0_r, (Rabs_right 10) by lra.
    assert (0 < INR k)%R by now apply lt_0_INR.
    apply (Rmult_lt_compat_r (INR k)) in Hk; [|assumption]. rewrite Rinv_l in Hk by lra. lra.
Qed.

(** ** C32 *)
Lemma bsd_reach_inv {N : Num} {I} idx pw cfg max_dt ci (s : bsd N I) :
  bsd_reach idx pw cfg max_dt ci (fun s => bd_kopt s <= 6)%nat s -> bsd_inv s.
Proof.
  induction 1 as [s x t dt (F1 & F2 & F3 & F4 & F5 & F6 & F7 & F8)|sys s s' H IH E|s x t dt H IH Hk].
  - split; [|cbn; split; [lia|intros; lia]]. split; [exact F1|]. split; [exact F2|]. split; assumption.
  - destruct (bsd_do_step_ok idx pw cfg max_dt ci sys (fun _ _ _ _ _ _ => True) (fun _ _ _ _ _ _ _ _ _ _ => Logic.I) s IH)
      as [E2|(s2 & E2 & Hi & _)]; rewrite E in E2; [discriminate E2|]. now injection E2 as <-.
  - destruct IH as [Hz Hb]. split; [exact Hz|]. cbn. split; [apply Hb|]. intros _. exact Hk.
Qed.
(** [bsd_reach R s]: s is obtained from a new object by initialize, do_step and, in states satisfying R,
    initialize again.  The full property allows every re-initialization, [R := fun _ => True]; it is false
    (below).  With re-initialization only while the order index is at most 6 no do_step ever leaves the
    tables, and calc_state is defined after every do_step. *)
Theorem C32_tables_partial : forall (N : Num) (I : Type) (idx : list I) (pw : N -> N -> N) (cfg : err_cfg N) (max_dt : N) (ci : bool) (s : bsd N I),
  bsd_reach idx pw cfg max_dt ci (fun s => bd_kopt s <= 6)%nat s -> forall sys,
  bsd_do_step idx pw cfg max_dt ci sys s = Exc StepAdjustment \/
  exists s', bsd_do_step idx pw cfg max_dt ci sys s = Ok s' /\ (2 <= bd_kopt s' <= 7)%nat /\ forall t, exists v, bsd_calc s' t = Ok v.
Proof.
  intros N I idx pw cfg max_dt ci s Hr sys. pose proof (bsd_reach_inv idx pw cfg max_dt ci s Hr) as Hi.
  destruct (bsd_do_step_ok idx pw cfg max_dt ci sys (fun _ _ _ _ _ _ => True) (fun _ _ _ _ _ _ _ _ _ _ => Logic.I) s Hi)
    as [E|(s' & E & (Hz & Hk & _) & _ & _ & Hf)]; [now left|right].
  exists s'. split; [exact E|]. split; [exact Hk|]. intro t. apply bsd_calc_ok; [exact Hz|lia].
Qed.
Print Assumptions C32_tables_partial.

Lemma bsd0_fresh : bsd_fresh bsd0.
Proof. unfold bsd_fresh. cbn. repeat split; reflexivity. Qed.
(** Three integrations with one object: the first two raise the order index to 7; initialize keeps it, and
    the first step of the third integration reads m_cost behind its end. *)
Theorem C32_refuted : exists (s : bsd Q0 unit) (sys : vec Q0 unit -> Q -> vec Q0 unit),
  bsd_reach (N := Q0) [tt] qpow cfg1 0%Q false (fun _ => True) s
  /\ bsd_do_step (N := Q0) [tt] qpow cfg1 0%Q false sys s = UB.
Proof.
  destruct (res_ok (let! s1 := bad_step (bsd_init (N := Q0) bsd0 z0 0%Q 1%Q) in
                    let! s2 := bad_step (bsd_init (N := Q0) s1 z0 10%Q 1%Q) in Ok (s1, s2))
    (fun p => match bad_step (bsd_init (N := Q0) (snd p) z0 20%Q 1%Q) with UB => true | _ => false end)) as ([s1 s2] & E & H);
    [vm_compute; reflexivity|].
  apply rbind_inv in E. destruct E as (a & E1 & E). apply rbind_inv in E. destruct E as (b & E2 & E). injection E as -> ->.
  cbn [snd] in H. exists (bsd_init (N := Q0) s2 z0 20%Q 1%Q), bad_sys. split.
  - unfold bad_step in E1, E2. apply dr_init; [|exact Logic.I].
    refine (dr_step (N := Q0) [tt] qpow cfg1 0%Q false _ bad_sys (bsd_init (N := Q0) s1 z0 10%Q 1%Q) s2 _ E2).
    apply dr_init; [|exact Logic.I].
    refine (dr_step (N := Q0) [tt] qpow cfg1 0%Q false _ bad_sys (bsd_init (N := Q0) bsd0 z0 0%Q 1%Q) s1 _ E1). apply dr_new, bsd0_fresh.
  - unfold bad_step in H. revert H. generalize (bsd_do_step (N := Q0) [tt] qpow cfg1 0%Q false bad_sys (bsd_init (N := Q0) s2 z0 20%Q 1%Q)).
    intros [r| | |] H; (discriminate H || reflexivity).
Qed.
Print Assumptions C32_refuted.
(** calc_state before the first do_step uses m_k_final, which nothing has set: with an unlucky value it
    leaves the tables. *)
Theorem C32_calc_refuted : exists (s : bsd Q0 unit) t,
  bsd_reach (N := Q0) [tt] qpow cfg1 0%Q false (fun _ => True) s /\ bsd_calc s t = UB.
Proof.
  exists (bsd_init (N := Q0) (@mkBsd Q0 unit (repeat z0 8) (repeat z0 9) (map (repeat z0) derivs_sizes) (map (repeat z0) diffs_sizes)
    z0 z0 z0 z0 true 4 20 true false 0%Q 0%Q 0%Q) z0 0%Q 1%Q), (1 # 2)%Q. split; [|vm_compute; reflexivity].
  apply dr_new. unfold bsd_fresh. cbn. repeat split; reflexivity.
Qed.
Print Assumptions C32_calc_refuted.
(** The first of the two steps above, as an instance of the partial theorem: the step succeeds with k_opt = 6 at most. *)
Example C32_example : bsd_reach (N := Q0) [tt] qpow cfg1 0%Q false (fun s => bd_kopt s <= 6)%nat (bsd_init (N := Q0) bsd0 z0 0%Q 1%Q)
  /\ match bad_step (bsd_init (N := Q0) bsd0 z0 0%Q 1%Q) with Ok s' => Nat.leb (bd_kopt s') 6 && Nat.leb 5 (bd_kopt s') | _ => false end = true.
Proof. split; [apply dr_new, bsd0_fresh|vm_compute; reflexivity]. Qed.

(** ** C33 *)
(** Forward every rejected attempt shortens the step. *)
Theorem C33_forward_partial : forall (eps : R) (I : Type) (idx : list I) (cfg : err_cfg (RNum eps)) (ci : bool) (s : bsd (RNum eps) I),
  bsd_reach (N := RNum eps) idx rpow cfg 0%R ci (fun s => bd_kopt s <= 6)%nat s -> forall sys s0 s1,
  (s0 = s \/ s0 = set_tlast (eval_cur (N := RNum eps) sys s) (bd_t s)) -> (0 < bd_dt s0)%R ->
  bsd_try (N := RNum eps) idx rpow cfg 0%R ci sys s0 = Ok (s1, false) -> (0 < bd_dt s1 < bd_dt s0)%R.
Proof.
  intros eps I idx cfg ci s Hr sys s0 s1 H0 Hd E. pose proof (bsd_reach_inv (N := RNum eps) idx rpow cfg 0%R ci s Hr) as Hi.
  apply (bsd_forward eps idx cfg ci sys s0 s1); [|exact Hd|exact E]. destruct H0 as [->| ->]; [exact Hi|].
  destruct Hi as [Hz Hb]. split; [exact Hz|exact Hb].
Qed.
Print Assumptions C33_forward_partial.
(** Backward it does not: whenever the first two attempts of a step are rejected, the second rejection
    leaves the step width unchanged, so do the following ones, and do_step ends with the exception
    after 500 attempts. *)
Theorem C33_backward_refuted : forall (eps : R) (I : Type) (idx : list I) (cfg : err_cfg (RNum eps)) (s : bsd (RNum eps) I) x t dt,
  bsd_reach (N := RNum eps) idx rpow cfg 0%R false (fun s => bd_kopt s <= 6)%nat (bsd_init s x t dt) -> (dt < 0)%R -> forall sys s1 s2,
  bsd_try (N := RNum eps) idx rpow cfg 0%R false sys (set_tlast (eval_cur (N := RNum eps) sys (bsd_init (N := RNum eps) s x t dt)) t) = Ok (s1, false) ->
  bsd_try (N := RNum eps) idx rpow cfg 0%R false sys (set_first s1 false) = Ok (s2, false) ->
  bd_dt s2 = bd_dt s1 /\ bsd_do_step (N := RNum eps) idx rpow cfg 0%R false sys (bsd_init s x t dt) = Exc StepAdjustment.
Proof.
  intros eps I idx cfg s x t dt Hr Hd sys s1 s2 E1 E2. pose proof (bsd_reach_inv (N := RNum eps) idx rpow cfg 0%R false _ Hr) as Hi.
  split; [|exact (bsd_backward_throws eps idx cfg sys (bsd_init s x t dt) s1 s2 Hi eq_refl Hd eq_refl E1 E2)].
  assert (Hi0 : bsd_inv (set_tlast (eval_cur (N := RNum eps) sys (bsd_init (N := RNum eps) s x t dt)) t)).
  { destruct Hi as [Hz Hb]. split; [exact Hz|exact Hb]. }
  pose proof (bsd_backward1 eps idx cfg false sys _ s1 Hi0 Hd eq_refl E1) as [_ D1].
  destruct (bsd_reject eps idx cfg false sys _ s1 Hi0 E1) as (L1 & Z1 & K1 & _).
  assert (Hi1 : bsd_inv (set_first s1 false)) by (split; [exact Z1|]; split; [exact K1|discriminate]).
  exact (bsd_backward eps idx cfg false sys (set_first s1 false) s2 Hi1 D1 L1 E2).
Qed.
Print Assumptions C33_backward_refuted.
(** Such a run: x' = 10^12 (0 at t = 0) from t = 0 backward with dt = -1. *)
Theorem C33_refuted : exists (s s1 s2 : bsd Q0 unit) (sys : vec Q0 unit -> Q -> vec Q0 unit),
  bsd_reach (N := Q0) [tt] qpow cfg1 0%Q false (fun s => bd_kopt s <= 6)%nat s /\ bd_dt s = (-1)%Q
  /\ bsd_try (N := Q0) [tt] qpow cfg1 0%Q false sys (set_tlast (eval_cur (N := Q0) sys s) 0%Q) = Ok (s1, false)
  /\ bsd_try (N := Q0) [tt] qpow cfg1 0%Q false sys (set_first s1 false) = Ok (s2, false)
  /\ bd_dt s2 = bd_dt s1 /\ Qeq_bool (bd_dt s1) 0%Q = false
  /\ bsd_do_step (N := Q0) [tt] qpow cfg1 0%Q false sys s = Exc StepAdjustment.
Proof.
  set (s := bsd_init (N := Q0) bsd0 z0 0%Q (-1)%Q).
  assert (Hr : bsd_reach (N := Q0) [tt] qpow cfg1 0%Q false (fun s => bd_kopt s <= 6)%nat s) by apply dr_new, bsd0_fresh.
  destruct (res_ok (let! a := bsd_try (N := Q0) [tt] qpow cfg1 0%Q false stiff_sys (set_tlast (eval_cur (N := Q0) stiff_sys s) 0%Q) in
                    let! b := bsd_try (N := Q0) [tt] qpow cfg1 0%Q false stiff_sys (set_first (fst a) false) in Ok (a, b))
    (fun '((s1, ok1), (s2, ok2)) => (negb ok1 && negb ok2) && ((bd_lastrej s1 && bd_lastrej s2) && (Z.eqb (Qnum (bd_dt s1)) (Qnum (bd_dt s2)) && Pos.eqb (Qden (bd_dt s1)) (Qden (bd_dt s2)) && Nat.eqb (bd_kopt s2) (bd_kopt s1)
        && negb (Qeq_bool (bd_dt s1) 0%Q)))))
    as ([[s1 ok1] [s2 ok2]] & E & H); [vm_compute; reflexivity|].
  apply rbind_inv in E. destruct E as (a & E1 & E). apply rbind_inv in E. destruct E as (b & E2 & E). injection E as -> ->. cbn [fst] in E2.
  destruct ok1; [discriminate H|]. destruct ok2; [discriminate H|]. cbn [negb andb] in H.
  apply andb_true_iff in H. destruct H as [HL H]. apply andb_true_iff in HL. destruct HL as [L1 L2].
  apply andb_true_iff in H. destruct H as [H H0]. apply andb_true_iff in H. destruct H as [H Hk]. apply andb_true_iff in H. destruct H as [Hn Hd].
  apply Z.eqb_eq in Hn. apply Pos.eqb_eq in Hd. apply Nat.eqb_eq in Hk. apply negb_true_iff in H0.
  assert (Ed : bd_dt s2 = bd_dt s1).
  { revert Hn Hd. generalize (bd_dt s1) (bd_dt s2). intros [n1 d1] [n2 d2] Hn Hd. cbn in Hn, Hd. now subst. }
  exists s, s1, s2, stiff_sys. split; [exact Hr|]. split; [reflexivity|]. split; [exact E1|]. split; [exact E2|].
  split; [exact Ed|]. split; [exact H0|].
  exact (bsd_two_rejections (N := Q0) [tt] qpow cfg1 0%Q stiff_sys s s1 s2 (bsd_reach_inv (N := Q0) [tt] qpow cfg1 0%Q false s Hr) eq_refl E1 E2 L1 L2 Ed Hk).
Qed.
Print Assumptions C33_refuted.
(** Forward, x' = 10^12 (0 at t = 0): the first attempt is rejected. *)
Example C33_example : let s := bsd_init (N := Q0) bsd0 z0 0%Q 1%Q in
  match bsd_try (N := Q0) [tt] qpow cfg1 0%Q false stiff_sys (set_tlast (eval_cur (N := Q0) stiff_sys s) 0%Q) with
  | Ok (s1, ok) => negb ok && Qle_bool (bd_dt s1) (1 # 2) && negb (Qle_bool (bd_dt s1) 0%Q) | _ => false end = true.
Proof. vm_compute. reflexivity. Qed.

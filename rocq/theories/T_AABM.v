(** * adaptive_adams_bashforth_moulton and controlled_adams_bashforth_moulton: C59, C60, C92, C93, C94 *)
From Coq Require Import QArith ZArith List Bool Arith Lia Reals Lra.
From Verif Require Import M_Num M_Run M_RK M_CtrlRK M_Midpoint M_Adams M_AABM S_RK S_Adams S_AABM
  P_R P_Poly P_BS P_Adams P_AABM P_AABM2 P_Newton P_AABMR P_CABM X_Inst.
Import ListNotations.
Local Open Scope res_scope.
Local Open Scope nat_scope.

(** ** C59: tables in bounds, exact extrapolation on any steps *)

(** Every do_step of every object finds its tables: no access is out of bounds, in any arithmetic. *)
Lemma in_bounds N I ov (s : aac N I) sys x t dt : 1 <= ov -> aabm_obj ov s ->
  exists r, aabm_do_step ov sys s x t dt = Ok r.
Proof.
  intros Hov H. destruct (step_shape ov Hov sys s x t dt (obj_shape ov Hov s H)) as (s' & out & xerr & log & E & _). eauto.
Qed.
Theorem C59_in_bounds : forall (N : Num) I ov (s : aac N I) sys x t dt, 1 <= ov -> aabm_obj ov s ->
  exists r, aabm_do_step ov sys s x t dt = Ok r.
Proof. exact in_bounds. Qed.
Print Assumptions C59_in_bounds.

Definition mem_beta (N : Num) ov : list (list N) := repeat (repeat (nofZ 7) (ov + 1)) 2.
Definition mem_phi (N : Num) I ov : list (list (vec N I)) := repeat (repeat (fun _ => nofZ 5) (ov + 2)) 3.
Definition mem_g (N : Num) ov : list N := repeat (nofZ 3) (ov + 2).
Definition mem_time (N : Num) ov : list N := repeat (nofZ 9) (ov + 1).
Definition mem_c (N : Num) ov : list N := repeat (nofZ 11) ((ov + 2) * (ov + 2)).
Lemma mem_ok (N : Num) I ov : memory ov (mem_beta N ov) (mem_phi N I ov) (mem_g N ov) (mem_time N ov) (mem_c N ov).
Proof.
  unfold memory, mem_beta, mem_phi, mem_g, mem_time, mem_c. rewrite !repeat_length.
  repeat split; try reflexivity; apply Forall_forall; intros r Hr; apply repeat_spec in Hr; rewrite Hr; apply repeat_length.
Qed.
(** There is an object for every order, whatever the memory held before. *)
Example C59_in_bounds_ex : forall (N : Num) I ov, 1 <= ov -> exists s : aac N I, aabm_obj ov s.
Proof.
  intros N I ov Hov. destruct (ctor_ok ov Hov (mem_beta N ov) (mem_phi N I ov) (mem_g N ov) (mem_time N ov) (mem_c N ov) (mem_ok N I ov)) as (s & E & _).
  exists s. exact (ob_ctor ov _ _ _ _ _ s (mem_ok N I ov) E).
Qed.

(** The step over the reals.  [h0]: the points of the run so far with the derivatives there, latest first; [k]:
    the number of points the method uses.  The predictor integrates the polynomial through the last [k] points,
    the corrector the one through these and the predicted point; all times are different and otherwise
    arbitrary. *)
Definition step_theorem : Prop :=
  forall eps I ov (s0 s : aac (RNum eps) I) (h : list (R * (I -> R))) sys (x : I -> R) (t dt : R),
  1 <= ov -> aabm_obj ov s0 -> aabm_trace ov s0 h s -> starts (N := RNum eps) h t ->
  let h0 : list (R * (I -> R)) := with_start (N := RNum eps) h t (sys x t) in
  let k := Nat.min (length h0) ov in
  NoDup ((t + dt)%R :: map fst h0) ->
  exists s' (pred out xerr : I -> R),
    aabm_do_step (N := RNum eps) ov sys s x t dt = Ok (s', out, xerr,
      match h with [] => [(x, t)] | _ => [] end ++ [(pred, (t + dt)%R); (out, (t + dt)%R)])
    /\ (forall i q X, length q <= k -> interpolates q i (firstn k h0) -> antiderivative X q ->
          pred i = (x i + (X (t + dt) - X t))%R)
    /\ (forall i q X, length q <= S k -> interpolates q i (((t + dt)%R, sys pred (t + dt)%R) :: firstn k h0) -> antiderivative X q ->
          out i = (x i + (X (t + dt) - X t))%R)
    /\ (forall i, xerr i = (out i - pred i)%R).
Lemma with_start_len (N : Num) I (h : list (N * vec N I)) t d : 0 < length (with_start h t d).
Proof. destruct h; cbn; lia. Qed.
Lemma step_thm : step_theorem.
Proof.
  intros eps I ov s0 s h sys x t dt Hov Ho T St h0 k Hnd.
  destruct (trace_next ov Hov s0 h s sys x t (obj_shape ov Hov s0 Ho) T St) as (Rd & Eo & Es). fold h0 in Rd, Eo.
  pose proof (starts_tms (N := RNum eps) h t (sys x t) St) as E0. fold h0 in E0.
  destruct (do_step_ok (N := RNum eps) ov Hov sys s x t dt h0 Rd E0) as (s' & E & _).
  rewrite Es in E. change (length h0) with (length (with_start (N := RNum eps) h t (sys x t))) in k. change (a_eo s = k) in Eo. rewrite Eo in E.
  pose proof (with_start_len (RNum eps) I h t (sys x t) : 0 < length h0) as Hh.
  assert (Hk : k <= length h0) by apply Nat.le_min_l.
  eexists s', _, _, _. split; [|split; [|split]].
  - rewrite E. f_equal. f_equal. destruct h; reflexivity.
  - intros i q X Lq Hq HX. exact (predictor_R eps i h0 t dt E0 Hh Hnd k x q X Hk Lq Hq HX).
  - intros i q X Lq Hq HX. exact (corrector_R eps i h0 t dt E0 Hh Hnd k x q X _ Hk Lq Hq HX).
  - intro i. cbv beta. rewrite scale1_R, scale2_R. change (nofZ (n := RNum eps) 1) with 1%R. ring.
Qed.
Theorem C59_exact_extrapolation : step_theorem.
Proof. exact step_thm. Qed.
Print Assumptions C59_exact_extrapolation.

(** For a right-hand side that is a polynomial in the time: with [k] stored derivatives the predictor is exact
    for degree < k (and then the error estimate is 0), the corrected result for degree <= k. *)
Lemma quadrature eps I ov (s0 s : aac (RNum eps) I) (h : list (R * (I -> R))) sys (x : I -> R) (t dt : R) i q X :
  1 <= ov -> aabm_obj ov s0 -> aabm_trace ov s0 h s -> starts (N := RNum eps) h t ->
  let h0 : list (R * (I -> R)) := with_start (N := RNum eps) h t (sys x t) in
  let k := Nat.min (length h0) ov in
  NoDup ((t + dt)%R :: map fst h0) ->
  (forall y u, sys y u i = peval q u) -> interpolates q i (firstn k h0) -> antiderivative X q ->
  exists s' (out xerr : I -> R) log,
    aabm_do_step (N := RNum eps) ov sys s x t dt = Ok (s', out, xerr, log)
    /\ (length q <= S k -> out i = (x i + (X (t + dt) - X t))%R)
    /\ (length q <= k -> xerr i = 0%R).
Proof.
  intros Hov Ho T St h0 k Hnd Hs Hq HX.
  destruct (step_thm eps I ov s0 s h sys x t dt Hov Ho T St Hnd) as (s' & pred & out & xerr & E & Hp & Hc & He).
  exists s', out, xerr. eexists. split; [exact E|].
  assert (Q : interpolates q i (((t + dt)%R, sys pred (t + dt)%R) :: firstn k h0)) by (constructor; [symmetry; apply Hs|exact Hq]).
  split; intro L.
  - exact (Hc i q X L Q HX).
  - rewrite He, (Hc i q X (le_S _ _ L) Q HX), (Hp i q X L Hq HX). ring.
Qed.
Theorem C59_quadrature : forall eps I ov (s0 s : aac (RNum eps) I) (h : list (R * (I -> R))) sys (x : I -> R) (t dt : R) i q X,
  1 <= ov -> aabm_obj ov s0 -> aabm_trace ov s0 h s -> starts (N := RNum eps) h t ->
  let h0 : list (R * (I -> R)) := with_start (N := RNum eps) h t (sys x t) in
  let k := Nat.min (length h0) ov in
  NoDup ((t + dt)%R :: map fst h0) ->
  (forall y u, sys y u i = peval q u) -> interpolates q i (firstn k h0) -> antiderivative X q ->
  exists s' (out xerr : I -> R) log,
    aabm_do_step (N := RNum eps) ov sys s x t dt = Ok (s', out, xerr, log)
    /\ (length q <= S k -> out i = (x i + (X (t + dt) - X t))%R)
    /\ (length q <= k -> xerr i = 0%R).
Proof. exact quadrature. Qed.
Print Assumptions C59_quadrature.

(** A run with steps 1, 2 and then a step of 1/2: three points, [k] = 2 for order 2. *)
Example C59_ex : forall (eps : R) (x : unit -> R), exists (s0 s : aac (RNum eps) unit) (h : list (R * (unit -> R))),
  aabm_obj 2 s0 /\ aabm_trace 2 s0 h s /\ starts (N := RNum eps) h 3%R
  /\ NoDup ((3 + 1/2)%R :: map fst (with_start (N := RNum eps) h 3%R (fun _ => 6%R)))
  /\ Nat.min (length h) 2 = 2 /\ interpolates [0; 2]%R tt (firstn 2 h) /\ antiderivative (fun u => u * u)%R [0; 2]%R.
Proof.
  intros eps x. destruct (C59_in_bounds_ex (RNum eps) unit 2 ltac:(lia)) as (s0 & H0).
  set (sys := fun (_ : vec (RNum eps) unit) (t : R) => (fun _ : unit => (2 * t)%R) : vec (RNum eps) unit).
  destruct (in_bounds (RNum eps) unit 2 (aac_reset s0) sys x 0%R 1%R ltac:(lia) (ob_reset 2 s0 H0)) as ([[[s1 x1] e1] l1] & E1).
  assert (H1 := ob_step 2 _ _ _ _ _ _ _ _ _ (ob_reset 2 s0 H0) E1).
  destruct (in_bounds (RNum eps) unit 2 s1 sys x1 1%R 2%R ltac:(lia) H1) as ([[[s2 x2] e2] l2] & E2).
  assert (T1 := tr_step 2 s0 [] _ sys x 0%R 1%R s1 x1 e1 l1 (tr_reset 2 s0) Logic.I E1).
  assert (T2 := tr_step 2 s0 _ _ sys x1 1%R 2%R s2 x2 e2 l2 T1 ltac:(cbn; lra) E2).
  cbn [with_start] in T1, T2. exists s0, s2. eexists. split; [exact H0|]. split; [exact T2|].
  split; [cbn; lra|]. split; [|split; [reflexivity|split]].
  - cbn [with_start map fst nadd RNum]. repeat constructor; cbn [In]; intro Q; repeat (destruct Q as [Q|Q]; [change (@eq R) with (@eq R) in Q; revert Q; cbn; lra|]); exact Q.
  - cbn [firstn with_start]. unfold sys. repeat constructor; cbn; lra.
  - intro u. replace (peval [0; 2]%R u) with (1 * u + u * 1)%R by (cbn; ring).
    apply (derivable_pt_lim_mult (fun v => v) (fun v => v)); apply derivable_pt_lim_id.
Qed.

(** Numbers: order 3, x' = 3 t^2 - t, steps 1, 1/2, 1/3, 2 from x(0) = 0; the derivative list is exact there. *)
Section Run.
Let sys : vec Q0 unit -> Q -> vec Q0 unit := fun _ t _ => (3 * t * t - t)%Q.
Fixpoint q_run (n : nat) (dts : list Q) (s : aac Q0 unit) (x : vec Q0 unit) (t : Q) : res (list (Q * Q)) :=
  match dts with
  | [] => Ok []
  | dt :: r => let! (s1, x1, e, _) := aabm_do_step (N := Q0) n sys s x t dt in
               let! l := q_run n r s1 (fun _ => Qred (x1 tt)) (Qred (t + dt)) in Ok ((Qred (x1 tt), Qred (e tt)) :: l)
  end.
End Run.
Definition q_numbers : res (list (Q * Q)) :=
  let! s := aac_ctor (N := Q0) (I := unit) 3 (mem_beta Q0 3) (mem_phi Q0 unit 3) (mem_g Q0 3) (mem_time Q0 3) (mem_c Q0 3) in
  q_run 3 [1; 1#2; 1#3; 2]%Q s (fun _ => 0%Q) 0%Q.
(** The third and the fourth step use three points: their increments are those of t^3 - t^2/2, and their error
    estimates are 0; those of the first two steps are not. *)
Example C59_numbers : match q_numbers with
  | Ok [(x1, e1); (x2, e2); (x3, e3); (x4, e4)] =>
      let F := fun t : Q => (t * t * t - (1#2) * t * t)%Q in
      Qred (x3 - x2) = Qred (F (11#6) - F (3#2)) /\ e3 = 0%Q /\ Qred (x4 - x3) = Qred (F (23#6) - F (11#6)) /\ e4 = 0%Q
      /\ negb (Qeq_bool e1 0) && negb (Qeq_bool e2 0) = true
  | _ => False
  end.
Proof. vm_compute. repeat split. Qed.

(** The same for the attempts of controlled_adams_bashforth_moulton, accepted or not, with the order [k] it has
    chosen: rejected attempts leave no trace in the later ones. *)
Definition try_theorem : Prop :=
  forall eps I ov PA norm (adj : PA -> nat -> RNum eps -> vec (RNum eps) I -> vec (RNum eps) I -> vec (RNum eps) I -> PA * vec (RNum eps) I * RNum eps)
    (thr : R) s0 s (h : list (R * (I -> R))) sys (x : I -> R) (t dt : R) s' b out (t' dt' : R),
  1 <= ov -> cabm_obj ov norm adj thr s0 -> cabm_trace ov norm adj thr s0 h s -> starts (N := RNum eps) h t ->
  let h0 : list (R * (I -> R)) := with_start (N := RNum eps) h t (sys x t) in
  let k := a_eo (cm_coeff s) in
  NoDup ((t + dt)%R :: map fst h0) ->
  cabm_try (N := RNum eps) ov norm adj thr sys s x t dt = Ok (s', b, out, t', dt') ->
  exists pred : I -> R,
    (forall i q X, length q <= k -> interpolates q i (firstn k h0) -> antiderivative X q ->
          pred i = (x i + (X (t + dt) - X t))%R)
    /\ (forall i q X, length q <= S k -> interpolates q i (((t + dt)%R, sys pred (t + dt)%R) :: firstn k h0) -> antiderivative X q ->
          out i = (x i + (X (t + dt) - X t))%R).
Lemma try_thm : try_theorem.
Proof.
  intros eps I ov PA norm adj thr s0 s h sys x t dt s' b out t' dt' Hov Ho T St h0 k Hnd E.
  destruct (cobj_shape ov Hov norm adj thr s0 Ho) as (Hs0 & L0).
  destruct (ctrace_next ov Hov norm adj thr s0 h s sys x t Hs0 L0 T St) as (Rd & Eo & L). fold h0 in Rd, Eo. fold k in Eo.
  pose proof (starts_tms (N := RNum eps) h t (sys x t) St) as E0. fold h0 in E0.
  pose proof (with_start_len (RNum eps) I h t (sys x t) : 0 < length h0) as Hh.
  assert (Hk : k <= length h0) by exact (Nat.le_trans _ _ _ (proj2 Eo) (Nat.le_min_l _ _)).
  exists (predS (N := RNum eps) h0 dt k x). split; intros i q X Lq Hq HX.
  - exact (predictor_R eps i h0 t dt E0 Hh Hnd k x q X Hk Lq Hq HX).
  - rewrite (try_run ov Hov norm adj thr sys s x t dt h0 Rd L E0 _ _ _ _ _ E).
    exact (corrector_R eps i h0 t dt E0 Hh Hnd k x q X _ Hk Lq Hq HX).
Qed.
Theorem C59_controlled : try_theorem.
Proof. exact try_thm. Qed.
Print Assumptions C59_controlled.

(** Two accepted attempts with steps 1 and 2, and an attempt with step 1/2. *)
Definition r_keep (eps : R) (_ : unit) (_ : nat) (dt : R) (e x d : unit -> R) : unit * (unit -> R) * R := (tt, e, dt).
Example C59_controlled_ex : forall (eps : R) (x : unit -> R) (norm : vec (RNum eps) unit -> R),
  exists s0 s (h : list (R * (unit -> R))) x2 r,
  cabm_obj (N := RNum eps) 2 norm (r_keep eps) (9/10)%R s0 /\ cabm_trace (N := RNum eps) 2 norm (r_keep eps) (9/10)%R s0 h s
  /\ starts (N := RNum eps) h 3%R /\ NoDup ((3 + 1/2)%R :: map fst (with_start (N := RNum eps) h 3%R (fun _ => 6%R))) /\ length h = 3
  /\ cabm_try (N := RNum eps) 2 norm (r_keep eps) (9/10)%R (fun _ u _ => (2 * u)%R) s x2 3%R (1/2)%R = Ok r.
Proof.
  intros eps x norm.
  destruct (ctor_ok (N := RNum eps) 2 ltac:(lia) (mem_beta (RNum eps) 2) (mem_phi (RNum eps) unit 2) (mem_g (RNum eps) 2) (mem_time (RNum eps) 2) (mem_c (RNum eps) 2) (mem_ok (RNum eps) unit 2)) as (c & E & Hc).
  set (s0 := mkCabm c (repeat (fun _ => 0%R) 4) tt : cabm (RNum eps) unit unit).
  assert (H0 : cabm_obj (N := RNum eps) 2 norm (r_keep eps) (9/10)%R s0)
    by (now apply (co_ctor (N := RNum eps) 2 norm (r_keep eps) (9/10)%R _ _ _ _ _ c _ tt (mem_ok (RNum eps) unit 2) E)).
  set (sys := fun (_ : unit -> R) (u : R) (_ : unit) => (2 * u)%R).
  assert (A : forall s y (t dt : R), dt <> 0%R -> cabm_obj (N := RNum eps) 2 norm (r_keep eps) (9/10)%R s ->
      exists s' out t', cabm_try (N := RNum eps) 2 norm (r_keep eps) (9/10)%R sys s y t dt = Ok (s', true, out, t', dt)).
  { intros s y t dt Hdt Hs. destruct (cobj_shape (N := RNum eps) 2 ltac:(lia) norm (r_keep eps) (9/10)%R s Hs) as (Sh & L).
    destruct (impl_shape (N := RNum eps) 2 ltac:(lia) sys (cm_coeff s) y t dt Sh) as (c1 & out1 & d & e2 & log & E1 & Hs1 & _ & _).
    destruct (try_spec (N := RNum eps) 2 ltac:(lia) norm (r_keep eps) (9/10)%R sys s y t dt c1 out1 d e2 log Hs1 L E1) as (K1 & K2).
    destruct (K1 ltac:(lia)) as ([[[[s' b] out] t'] dt'] & Er). destruct (K2 _ _ _ _ _ Er) as (_ & _ & Eb & Ec).
    assert (Ed : @eq R dt' dt).
    { unfold cabm_try in Er. rewrite E1 in Er. cbn [rbind] in Er. unfold r_keep in Er.
      destruct (vset (cm_xerr s) 2 e2) as [xe| | |]; cbn [rbind] in Er; try discriminate Er.
      match type of Er with (if ?a then _ else _) = _ => destruct a end; [|now injection Er].
      repeat match type of Er with rbind ?m _ = _ => destruct m; cbn [rbind] in Er; try discriminate Er end. now injection Er. }
    assert (Eb' : b = true).
    { rewrite Eb, Ed. apply Rleb_true. cbn [ndiv RNum]. unfold Rdiv at 2. rewrite Rinv_r by exact Hdt. lra. }
    rewrite Ed, Eb' in Er. eauto. }
  destruct (A (cm_reset s0) x 0%R 1%R ltac:(lra) (co_reset (N := RNum eps) 2 norm (r_keep eps) (9/10)%R s0 H0)) as (s1 & x1 & t1 & E1).
  assert (H1 := co_try (N := RNum eps) 2 norm (r_keep eps) (9/10)%R _ _ _ _ _ _ _ _ _ _ (co_reset (N := RNum eps) 2 norm (r_keep eps) (9/10)%R s0 H0) E1).
  destruct (A s1 x1 1%R 2%R ltac:(lra) H1) as (s2 & x2 & t2 & E2).
  assert (H2 := co_try (N := RNum eps) 2 norm (r_keep eps) (9/10)%R _ _ _ _ _ _ _ _ _ _ H1 E2).
  assert (T1 := ct_success (N := RNum eps) 2 norm (r_keep eps) (9/10)%R s0 [] _ sys x 0%R 1%R _ _ _ _ (ct_reset (N := RNum eps) 2 norm (r_keep eps) (9/10)%R s0) Logic.I E1).
  assert (T2 := ct_success (N := RNum eps) 2 norm (r_keep eps) (9/10)%R s0 _ _ sys x1 1%R 2%R _ _ _ _ T1 ltac:(cbn; lra) E2).
  cbn [with_start] in T1, T2.
  destruct (A s2 x2 3%R (1/2)%R ltac:(lra) H2) as (s3 & x3 & t3 & E3).
  exists s0, s2. eexists _, x2, _. split; [exact H0|]. split; [exact T2|]. split; [cbn; lra|]. split; [|split; [reflexivity|exact E3]].
  cbn [with_start map fst nadd RNum]. repeat constructor; cbn [In]; intro Q; repeat (destruct Q as [Q|Q]; [revert Q; cbn; lra|]); exact Q.
Qed.

(** ** C60: the order of the controlled stepper *)

(** Any calls with any arguments, any norm, step adjuster and arithmetic. *)
Lemma order_bounds (N : Num) I ov PA norm adj thr (s : cabm N I PA) : 1 <= ov -> cabm_obj ov norm adj thr s ->
  1 <= a_eo (cm_coeff s) <= ov /\ a_eo (cm_coeff s) <= a_si (cm_coeff s).
Proof.
  intros Hov H. destruct (cobj_shape ov Hov norm adj thr s H) as ([Z1 Z2 _ _ _ _ _ _ _ _ _] & _). lia.
Qed.
Theorem C60_order : forall (N : Num) I ov PA norm adj thr (s : cabm N I PA), 1 <= ov -> cabm_obj ov norm adj thr s ->
  1 <= a_eo (cm_coeff s) <= ov /\ a_eo (cm_coeff s) <= a_si (cm_coeff s).
Proof. exact order_bounds. Qed.
Print Assumptions C60_order.

(** In a run the order is at most the number of points known. *)
Lemma order_history (N : Num) I ov PA norm adj thr (s0 s : cabm N I PA) h : 1 <= ov -> cabm_obj ov norm adj thr s0 ->
  cabm_trace ov norm adj thr s0 h s -> 1 <= a_eo (cm_coeff s) <= Nat.min (Nat.max 1 (length h)) ov.
Proof.
  intros Hov Ho T. destruct (cobj_shape ov Hov norm adj thr s0 Ho) as (Hs0 & L0).
  destruct (ctrace_ready ov Hov norm adj thr s0 h s Hs0 L0 T) as (_ & [(-> & _ & _ & ->)|(Hi & H1 & H2 & H3)]).
  - cbn [length]. lia.
  - pose proof (proj1 Hi) as [Z1 Z2 _ _ _ _ _ _ _ _ _]. lia.
Qed.
Theorem C60_history : forall (N : Num) I ov PA norm adj thr (s0 s : cabm N I PA) h, 1 <= ov -> cabm_obj ov norm adj thr s0 ->
  cabm_trace ov norm adj thr s0 h s -> 1 <= a_eo (cm_coeff s) <= Nat.min (Nat.max 1 (length h)) ov.
Proof. exact order_history. Qed.
Print Assumptions C60_history.

(** An accepted attempt changes the order by at most one. *)
Lemma order_by_one (N : Num) I ov PA norm adj thr (s s' : cabm N I PA) sys x t dt b out t' dt' : 1 <= ov -> cabm_obj ov norm adj thr s ->
  cabm_try ov norm adj thr sys s x t dt = Ok (s', b, out, t', dt') ->
  a_eo (cm_coeff s') <= a_eo (cm_coeff s) + 1 /\ a_eo (cm_coeff s) <= a_eo (cm_coeff s') + 1
  /\ (b = false -> a_eo (cm_coeff s') = a_eo (cm_coeff s)).
Proof.
  intros Hov Ho E. destruct (cobj_shape ov Hov norm adj thr s Ho) as (Hs & L).
  destruct (impl_shape ov Hov sys (cm_coeff s) x t dt Hs) as (c1 & out1 & d & e2 & log & E1 & Hs1 & P1 & P2).
  destruct (proj2 (try_spec ov Hov norm adj thr sys s x t dt c1 out1 d e2 log Hs1 L E1) _ _ _ _ _ E) as (_ & _ & _ & C).
  destruct b.
  - destruct C as (c2 & eo' & _ & -> & R1 & R2 & R3 & _). rewrite <- P1. cbn [set_eo a_eo]. split; [exact R2|]. split; [exact R3|discriminate].
  - destruct C as (-> & _). rewrite P1. lia.
Qed.
Theorem C60_order_by_one : forall (N : Num) I ov PA norm adj thr (s s' : cabm N I PA) sys x t dt b out t' dt', 1 <= ov ->
  cabm_obj ov norm adj thr s -> cabm_try ov norm adj thr sys s x t dt = Ok (s', b, out, t', dt') ->
  a_eo (cm_coeff s') <= a_eo (cm_coeff s) + 1 /\ a_eo (cm_coeff s) <= a_eo (cm_coeff s') + 1
  /\ (b = false -> a_eo (cm_coeff s') = a_eo (cm_coeff s)).
Proof. exact order_by_one. Qed.
Print Assumptions C60_order_by_one.

(** ** C92: the table of the error constants has 14 entries *)
Lemma ctrl_in_bounds (N : Num) I ov PA norm adj thr (s : cabm N I PA) sys x t dt : 1 <= ov <= 13 -> cabm_obj ov norm adj thr s ->
  exists r, cabm_try ov norm adj thr sys s x t dt = Ok r.
Proof.
  intros [Hov H13] Ho. destruct (cobj_shape ov Hov norm adj thr s Ho) as (Hs & L).
  exact (proj1 (try_shape ov Hov norm adj thr sys s x t dt Hs L) H13).
Qed.
Theorem C92_in_bounds : forall (N : Num) I ov PA norm adj thr (s : cabm N I PA) sys x t dt, 1 <= ov <= 13 -> cabm_obj ov norm adj thr s ->
  exists r, cabm_try ov norm adj thr sys s x t dt = Ok r.
Proof. exact ctrl_in_bounds. Qed.
Print Assumptions C92_in_bounds.

Definition qnorm (v : vec Q0 unit) : Q := norm_inf (N := Q0) [tt] v.
(** A step adjuster that keeps the step. *)
Definition keep_adj (_ : unit) (_ : nat) (dt : Q) (e x d : vec Q0 unit) : unit * vec Q0 unit * Q := (tt, e, dt).
Definition q_obj ov (e : Q) : res (cabm Q0 unit unit) :=
  let! s := aac_ctor (N := Q0) (I := unit) ov (mem_beta Q0 ov) (mem_phi Q0 unit ov) (mem_g Q0 ov) (mem_time Q0 ov) (mem_c Q0 ov) in
  Ok (mkCabm s [(fun _ => 0%Q); (fun _ => 0%Q); (fun _ => 0%Q); (fun _ => e)] tt).
Lemma q_obj_ok ov e s : q_obj ov e = Ok s -> cabm_obj (N := Q0) ov qnorm keep_adj (9#10)%Q s.
Proof.
  unfold q_obj. destruct (aac_ctor (N := Q0) (I := unit) ov _ _ _ _ _) as [c| | |] eqn:E; cbn [rbind]; intro Q; try discriminate Q.
  injection Q as <-. now apply (co_ctor (N := Q0) ov qnorm keep_adj (9#10)%Q _ _ _ _ _ c _ tt (mem_ok Q0 unit ov) E).
Qed.
Example C92_ex : exists s, cabm_obj (N := Q0) 13 qnorm keep_adj (9#10)%Q s.
Proof.
  destruct (C59_in_bounds_ex Q0 unit 13 ltac:(lia)) as (s & _).
  destruct (ctor_ok 13 ltac:(lia) (mem_beta Q0 13) (mem_phi Q0 unit 13) (mem_g Q0 13) (mem_time Q0 13) (mem_c Q0 13) (mem_ok Q0 unit 13)) as (c & E & _).
  exists (mkCabm c (repeat (fun _ => 0%Q) 4) tt). now apply (co_ctor (N := Q0) 13 qnorm keep_adj (9#10)%Q _ _ _ _ _ c _ tt (mem_ok Q0 unit 13) E).
Qed.

(** Orders of a run with steps 1, 1, ...: they rise and fall. *)
Fixpoint q_orders (sys : vec Q0 unit -> Q -> vec Q0 unit) (n : nat) (s : cabm Q0 unit unit) (x : vec Q0 unit) (t : Q) : res (list nat) :=
  match n with
  | O => Ok []
  | S n' => let! (s1, b, x1, t1, _) := cabm_try (N := Q0) 3 qnorm keep_adj (9#10)%Q sys s x t 1%Q in
            let! l := q_orders sys n' s1 (fun _ => Qred (x1 tt)) (Qred t1) in Ok (a_eo (cm_coeff s1) :: l)
  end.
Example C60_orders : (let! s := q_obj 3 0%Q in q_orders (fun _ t _ => if Qle_bool t 2 then t * t * t else 50)%Q 7 s (fun _ => 0%Q) 0%Q) = Ok [2; 3; 3; 3; 2; 1; 1].
Proof. vm_compute. reflexivity. Qed.

(** A larger order: once it has reached 14, an accepted try_step reads gs[14]; initialize gets it there at once. *)
Lemma order14 (N : Num) I ov PA norm adj thr (s : cabm N I PA) sys x t dt : 14 <= ov -> cabm_obj ov norm adj thr s ->
  (forall pa n e y d, nle thr (ndiv (snd (adj pa n dt e y d)) dt) = true) ->
  14 <= a_eo (cm_coeff s) -> cabm_try ov norm adj thr sys s x t dt = UB.
Proof.
  intros H14 Ho Ha He. assert (Hov : 1 <= ov) by lia. destruct (cobj_shape ov Hov norm adj thr s Ho) as (Hs & L).
  exact (large_order ov Hov norm adj thr sys s x t dt Hs L He Ha).
Qed.
Theorem C92_large_order_out_of_bounds : forall (N : Num) I ov PA norm adj thr (s : cabm N I PA) sys x t dt, 14 <= ov -> cabm_obj ov norm adj thr s ->
  (forall pa n e y d, nle thr (ndiv (snd (adj pa n dt e y d)) dt) = true) ->
  14 <= a_eo (cm_coeff s) -> cabm_try ov norm adj thr sys s x t dt = UB.
Proof. exact order14. Qed.
Print Assumptions C92_large_order_out_of_bounds.
Definition q_estep (_ : unit) (x d : vec Q0 unit) (t dt : Q) : res (unit * vec Q0 unit) := Ok (tt, x).
Definition q_zero (_ : vec Q0 unit) (_ : Q) : vec Q0 unit := fun _ => 0%Q.
Lemma order14_ex : forall ov, 14 <= ov -> exists s, cabm_obj (N := Q0) ov qnorm keep_adj (9#10)%Q s /\ a_eo (cm_coeff s) = ov
  /\ cabm_try (N := Q0) ov qnorm keep_adj (9#10)%Q q_zero s (fun _ => 0%Q) 1%Q 1%Q = UB.
Proof.
  intros ov H14. assert (Hov : 1 <= ov) by lia.
  destruct (ctor_ok ov Hov (mem_beta Q0 ov) (mem_phi Q0 unit ov) (mem_g Q0 ov) (mem_time Q0 ov) (mem_c Q0 ov) (mem_ok Q0 unit ov)) as (c & E & Hc).
  destruct (init_full (N := Q0) (I := unit) ov Hov q_zero q_estep tt c (fun _ => 0%Q) 0%Q 1%Q) as (e' & c' & x' & t' & Ei & Eo); [intros; eexists; reflexivity|exact Hc|].
  set (s0 := mkCabm c (repeat (fun _ => 0%Q) 4) tt : cabm Q0 unit unit).
  assert (H0 : cabm_obj (N := Q0) ov qnorm keep_adj (9#10)%Q s0)
    by (exact (co_ctor (N := Q0) ov qnorm keep_adj (9#10)%Q _ _ _ _ _ c (repeat (fun _ => 0%Q) 4) tt (mem_ok Q0 unit ov) E eq_refl)).
  exists (mkCabm c' (repeat (fun _ => 0%Q) 4) tt).
  assert (H1 : cabm_obj (N := Q0) ov qnorm keep_adj (9#10)%Q (mkCabm c' (repeat (fun _ => 0%Q) 4) tt))
    by (exact (co_init (N := Q0) ov qnorm keep_adj (9#10)%Q _ _ _ _ s0 _ _ _ _ _ _ _ H0 Ei)).
  split; [exact H1|]. split; [exact Eo|]. apply order14; [exact H14|exact H1|reflexivity|]. cbn [cm_coeff]. rewrite Eo. exact H14.
Qed.

Theorem C92_large_order_refuted : forall ov, 14 <= ov -> exists s, cabm_obj (N := Q0) ov qnorm keep_adj (9#10)%Q s /\ a_eo (cm_coeff s) = ov
  /\ cabm_try (N := Q0) ov qnorm keep_adj (9#10)%Q q_zero s (fun _ => 0%Q) 1%Q 1%Q = UB.
Proof. exact order14_ex. Qed.
Print Assumptions C92_large_order_refuted.

(** ** C93: the order depends on old contents of m_xerr *)

(** Two objects that differ only in m_xerr[3], which neither the constructor nor reset() sets: the same first
    step (x' = t, order at most 2, dt = 1) leads to the orders 2 and 1. *)
Definition q_lin (_ : vec Q0 unit) (t : Q) : vec Q0 unit := fun _ => t.
Definition q_first_order (e : Q) : res nat :=
  let! s := q_obj 2 e in
  let! (s', b, _, _, _) := cabm_try (N := Q0) 2 qnorm keep_adj (9#10)%Q q_lin (cm_reset s) (fun _ => 0%Q) 0%Q 1%Q in
  if b : bool then Ok (a_eo (cm_coeff s')) else UB.
Lemma stale_order : exists s1 s2 s1' s2' out1 out2 t1 t2 dt1 dt2,
  cabm_obj (N := Q0) 2 qnorm keep_adj (9#10)%Q s1 /\ cabm_obj (N := Q0) 2 qnorm keep_adj (9#10)%Q s2
  /\ cm_coeff s1 = cm_coeff s2 /\ cm_adj s1 = cm_adj s2 /\ firstn 3 (cm_xerr s1) = firstn 3 (cm_xerr s2)
  /\ cabm_try (N := Q0) 2 qnorm keep_adj (9#10)%Q q_lin (cm_reset s1) (fun _ => 0%Q) 0%Q 1%Q = Ok (s1', true, out1, t1, dt1)
  /\ cabm_try (N := Q0) 2 qnorm keep_adj (9#10)%Q q_lin (cm_reset s2) (fun _ => 0%Q) 0%Q 1%Q = Ok (s2', true, out2, t2, dt2)
  /\ a_eo (cm_coeff s1') = 2 /\ a_eo (cm_coeff s2') = 1.
Proof.
  assert (G : forall e n, q_first_order e = Ok n -> exists s s' out t dt, q_obj 2 e = Ok s
     /\ cabm_try (N := Q0) 2 qnorm keep_adj (9#10)%Q q_lin (cm_reset s) (fun _ => 0%Q) 0%Q 1%Q = Ok (s', true, out, t, dt) /\ a_eo (cm_coeff s') = n).
  { intros e n. unfold q_first_order. destruct (q_obj 2 e) as [s| | |]; cbn [rbind]; intro Q; try discriminate Q.
    destruct (cabm_try (N := Q0) 2 qnorm keep_adj (9#10)%Q q_lin (cm_reset s) (fun _ => 0%Q) 0%Q 1%Q) as [[[[[s' b] out] t] dt]| | |] eqn:E; cbn [rbind] in Q; try discriminate Q.
    destruct b; [|discriminate Q]. injection Q as Q. exists s, s', out, t, dt. auto. }
  destruct (G 0%Q 2) as (s1 & s1' & out1 & t1 & dt1 & A1 & B1 & C1); [vm_compute; reflexivity|].
  destruct (G 5%Q 1) as (s2 & s2' & out2 & t2 & dt2 & A2 & B2 & C2); [vm_compute; reflexivity|].
  exists s1, s2, s1', s2', out1, out2, t1, t2, dt1, dt2.
  split; [exact (q_obj_ok _ _ _ A1)|]. split; [exact (q_obj_ok _ _ _ A2)|].
  unfold q_obj in A1, A2. destruct (aac_ctor (N := Q0) (I := unit) 2 _ _ _ _ _) as [c| | |]; cbn [rbind] in A1, A2; try discriminate A1.
  injection A1 as <-. injection A2 as <-. repeat split; assumption.
Qed.
Theorem C93_order_from_this_step_refuted : exists s1 s2 s1' s2' out1 out2 t1 t2 dt1 dt2,
  cabm_obj (N := Q0) 2 qnorm keep_adj (9#10)%Q s1 /\ cabm_obj (N := Q0) 2 qnorm keep_adj (9#10)%Q s2
  /\ cm_coeff s1 = cm_coeff s2 /\ cm_adj s1 = cm_adj s2 /\ firstn 3 (cm_xerr s1) = firstn 3 (cm_xerr s2)
  /\ cabm_try (N := Q0) 2 qnorm keep_adj (9#10)%Q q_lin (cm_reset s1) (fun _ => 0%Q) 0%Q 1%Q = Ok (s1', true, out1, t1, dt1)
  /\ cabm_try (N := Q0) 2 qnorm keep_adj (9#10)%Q q_lin (cm_reset s2) (fun _ => 0%Q) 0%Q 1%Q = Ok (s2', true, out2, t2, dt2)
  /\ a_eo (cm_coeff s1') = 2 /\ a_eo (cm_coeff s2') = 1.
Proof. exact stale_order. Qed.
Print Assumptions C93_order_from_this_step_refuted.

(** ** C94: initialize_controlled stores wrong times *)

(** x' = 2 t with an exact controlled stepper whose step doubles after every step: initialize_controlled from
    t = 0 with dt = 1 reaches t = 3, x = 9 with dt = 4.  The next step, of order 2, should be exact for this
    right-hand side (C59_controlled), but its result at t = 4 is not 16. *)
Definition q_two (_ : vec Q0 unit) (t : Q) : vec Q0 unit := fun _ => (2 * t)%Q.
Definition q_ctry (_ : unit) (x : vec Q0 unit) (t dt : Q) : res (unit * bool * vec Q0 unit * Q * Q) :=
  Ok (tt, true, (fun _ => Qred (x tt + ((t + dt) * (t + dt) - t * t)))%Q, Qred (t + dt), Qred (2 * dt)).
Definition q_wrong : res (nat * Q * Q * Q * Q) :=
  let! s := q_obj 2 0%Q in
  let! (_, s1, x, t, dt) := cabm_initialize_controlled (N := Q0) 2 q_two q_ctry 5 tt s (fun _ => 0%Q) 0%Q 1%Q in
  let! (_, _, out, _, _) := cabm_try (N := Q0) 2 qnorm keep_adj (9#10)%Q q_two s1 x t 1%Q in
  Ok (a_eo (cm_coeff s1), Qred t, Qred (x tt), Qred dt, Qred (out tt)).
Lemma wrong_times : exists s s1 x t dt out s2 b t2 dt2,
  cabm_obj (N := Q0) 2 qnorm keep_adj (9#10)%Q s
  /\ cabm_initialize_controlled (N := Q0) 2 q_two q_ctry 5 tt s (fun _ => 0%Q) 0%Q 1%Q = Ok (tt, s1, x, t, dt)
  /\ Qred t = 3%Q /\ Qred (x tt) = 9%Q /\ Qred dt = 4%Q /\ a_eo (cm_coeff s1) = 2
  /\ cabm_try (N := Q0) 2 qnorm keep_adj (9#10)%Q q_two s1 x t 1%Q = Ok (s2, b, out, t2, dt2) /\ ~ (out tt == 16)%Q.
Proof.
  assert (G : forall n a c d e, q_wrong = Ok (n, a, c, d, e) -> exists s s1 x t dt out s2 b t2 dt2, q_obj 2 0%Q = Ok s
     /\ cabm_initialize_controlled (N := Q0) 2 q_two q_ctry 5 tt s (fun _ => 0%Q) 0%Q 1%Q = Ok (tt, s1, x, t, dt)
     /\ Qred t = a /\ Qred (x tt) = c /\ Qred dt = d /\ a_eo (cm_coeff s1) = n
     /\ cabm_try (N := Q0) 2 qnorm keep_adj (9#10)%Q q_two s1 x t 1%Q = Ok (s2, b, out, t2, dt2) /\ Qred (out tt) = e).
  { intros n a c d e. unfold q_wrong. destruct (q_obj 2 0%Q) as [s| | |]; cbn [rbind]; intro Q; try discriminate Q.
    destruct (cabm_initialize_controlled (N := Q0) 2 q_two q_ctry 5 tt s (fun _ => 0%Q) 0%Q 1%Q) as [[[[[u s1] x] t] dt]| | |] eqn:E1; cbn [rbind] in Q; try discriminate Q.
    destruct (cabm_try (N := Q0) 2 qnorm keep_adj (9#10)%Q q_two s1 x t 1%Q) as [[[[[s2 b] out] t2] dt2]| | |] eqn:E2; cbn [rbind] in Q; try discriminate Q.
    destruct u. injection Q as Q1 Q2 Q3 Q4 Q5. exists s, s1, x, t, dt, out, s2, b, t2, dt2. auto 10. }
  destruct (G 2 3%Q 9%Q 4%Q (Qred (match q_wrong with Ok (_, _, _, _, v) => v | _ => 0 end))) as (s & s1 & x & t & dt & out & s2 & b & t2 & dt2 & A & B & C1 & C2 & C3 & C4 & D & F);
    [vm_compute; reflexivity|].
  exists s, s1, x, t, dt, out, s2, b, t2, dt2. split; [exact (q_obj_ok _ _ _ A)|].
  repeat (split; [assumption|]). intro Q. apply Qred_complete in Q. rewrite F in Q. revert Q. vm_compute. discriminate.
Qed.
Theorem C94_initialize_controlled_exact_refuted : exists s s1 x t dt out s2 b t2 dt2,
  cabm_obj (N := Q0) 2 qnorm keep_adj (9#10)%Q s
  /\ cabm_initialize_controlled (N := Q0) 2 q_two q_ctry 5 tt s (fun _ => 0%Q) 0%Q 1%Q = Ok (tt, s1, x, t, dt)
  /\ Qred t = 3%Q /\ Qred (x tt) = 9%Q /\ Qred dt = 4%Q /\ a_eo (cm_coeff s1) = 2
  /\ cabm_try (N := Q0) 2 qnorm keep_adj (9#10)%Q q_two s1 x t 1%Q = Ok (s2, b, out, t2, dt2) /\ ~ (out tt == 16)%Q.
Proof. exact wrong_times. Qed.
Print Assumptions C94_initialize_controlled_exact_refuted.

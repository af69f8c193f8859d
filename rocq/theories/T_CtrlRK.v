(** Theorems about controlled_runge_kutta and rosenbrock4_controller (C22-C30, C70-C72). *)
From Coq Require Import ZArith List Bool Lia Reals Lra QArith Floats.SpecFloat.
From Verif Require Import M_Num M_Sign M_Run M_Checker M_Controlled S_Grid M_RK S_RK M_CtrlRK S_Real S_Ctrl S_CtrlRK
  P_R P_RKAll P_Det P_CtrlRK P_CtrlRKR P_CtrlRKT P_CtrlRKN P_CtrlRKW P_RosR P_CtrlR X_Inst.
Import ListNotations.

(** ** C22: effect of an attempt, in any arithmetic. *)
Theorem C22_explicit : forall (N : Num) I S (idx : list I) pw sys
    (estep : S -> vec N I -> vec N I -> N -> N -> S * vec N I * vec N I) eo so cfg max_dt
    c x t dt c' x' t' dt' ok,
  ck_try idx pw sys estep eo so cfg max_dt c x t dt = (c', x', t', dt', ok) ->
  if (ok : bool)
  then t' = (t + dt)%num /\ x' = snd (fst (estep (ck_st c) x (sys x t) t dt))
  else x' = x /\ t' = t.
Proof. intros N I S. exact (@ck_effect N I S). Qed.
Print Assumptions C22_explicit.

Theorem C22_in_place : forall (N : Num) I S (idx : list I) pw sys
    (estep : S -> vec N I -> vec N I -> N -> N -> S * vec N I * vec N I) eo so cfg max_dt
    c x t out dt c1 x1 t1 dt1 ok1 c3 out3 t3 dt3 ok3,
  ck_try idx pw sys estep eo so cfg max_dt c x t dt = (c1, x1, t1, dt1, ok1) ->
  ck_try_v3 idx pw sys estep eo so cfg max_dt c x t out dt = (c3, out3, t3, dt3, ok3) ->
  t1 = t3 /\ dt1 = dt3 /\ ok1 = ok3 /\ (ok1 = true -> x1 = out3) /\ ck_st c1 = ck_st c3.
Proof. intros N I S. exact (@ck_in_place N I S). Qed.
Print Assumptions C22_in_place.

(** FSAL: [det] outputs determined by state and derivative; [lst] last stage at the new point. *)
Theorem C22_fsal : forall (N : Num) I (idx : list I) pw sys eo so cfg max_dt rs
    (c : ckf N I (rkmem N I)) x t dt c' x' t' dt' ok,
  cf_first c = true \/ cf_dxdt c = sys x t ->
  ckf_try idx pw sys (dopri5_fstep sys (mkAlias false false)) eo so cfg max_dt rs c x t dt = (c', x', t', dt', ok) ->
  (cf_first c' = true \/ cf_dxdt c' = sys x' t')
  /\ (if (ok : bool)
      then t' = (t + dt)%num /\ x' = snd (fst (fst (dopri5_fstep sys (mkAlias false false) (cf_st c) x (sys x t) t dt)))
      else x' = x /\ t' = t).
Proof.
  intros N I idx pw sys eo so cfg max_dt rs c x t dt c' x' t' dt' ok.
  exact (ckf_step idx pw sys (dopri5_fstep sys (mkAlias false false)) eo so cfg max_dt
           (dopri5_fstep_last sys (mkAlias false false)) rs c x t dt c' x' t' dt' ok).
Qed.
Print Assumptions C22_fsal.

(** The stepper's memory (buffers, earlier attempts) has no influence: a sequence of attempts gives
    what a newly constructed stepper gives for each of them. *)
Theorem C22_no_memory : forall (N : Num) I (idx : list I) pw sys n eo so cfg max_dt l
    (c c0 : ck N I (rkmem N I)) x t,
  drive (fun _ => ck_try idx pw sys (rk_estep sys n) eo so cfg max_dt) (fun c => c) c x t l
  = drive_fresh (fun _ => ck_try idx pw sys (rk_estep sys n) eo so cfg max_dt) c0 x t l.
Proof.
  intros N I idx pw sys n eo so cfg max_dt.
  exact (ck_drive_fresh idx pw sys (rk_estep sys n) eo so cfg max_dt (rk_estep_det sys n)).
Qed.
Print Assumptions C22_no_memory.

(** Over the reals: an accepted step is one step of the method. *)
Theorem C22_method : forall eps I (idx : list I) pw (sys : (I -> R) -> R -> (I -> R)) n eo so cfg max_dt
    c x t dt c' x' t' dt',
  (0 < rk_error_order n)%nat ->
  ck_try (N := RNum eps) idx pw sys (rk_estep (N := RNum eps) sys n) eo so cfg max_dt c x t dt = (c', x', t', dt', true) ->
  rk_result eps (tab_of n) sys x t dt x'.
Proof.
  intros eps I idx pw sys n eo so cfg max_dt c x t dt c' x' t' dt' Hn H.
  exact (match ck_effect (N := RNum eps) idx pw sys (rk_estep (N := RNum eps) sys n) eo so cfg max_dt
                 c x t dt c' x' t' dt' true H with
         | conj _ E => eq_ind_r (fun v => rk_result eps (tab_of n) sys x t dt v)
             (proj1 (rk_estep_R eps sys n (ck_st c) x t dt _ _ _ Hn
               (eq_trans (surjective_pairing _)
                  (f_equal (fun p => (p, snd (rk_estep (N := RNum eps) sys n (ck_st c) x (sys x t) t dt)))
                     (surjective_pairing _))))) E
         end).
Qed.
Print Assumptions C22_method.

(** Cash-Karp on x' = 5 t^4, tolerance 1/1000 and dt = 1: rejected; then dt = 1/2 accepted. *)
Definition q_quintic (x : unit -> Q) (t : Q) : unit -> Q := fun _ => Qred (5 * t * t * t * t).
Definition q_ck54 (tol max_dt : Q) := ck_try (N := Q0) [tt] (fun _ _ => (1 # 2)%Q) q_quintic
  (rk_estep (N := Q0) q_quintic rk_ck54) 4 5 (mkErrCfg (N := Q0) tol 0%Q 1%Q 1%Q) max_dt.
Definition q_ck0 : ck Q0 unit (rkmem Q0 unit) := mkCk (N := Q0) (fun _ _ => 0%Q) (fun _ => 0%Q) (fun _ => 0%Q) (fun _ => 0%Q).
Definition seen (r : ck Q0 unit (rkmem Q0 unit) * (unit -> Q) * Q * Q * bool) : Q * Q * Q * bool :=
  let '(_, x, t, dt, ok) := r in (x tt, t, dt, ok).
Example C22_example :
  seen (q_ck54 (1 # 1000) 0 q_ck0 (fun _ => 0%Q) 0%Q 1%Q) = (0, 0, 9 # 20, false)%Q
  /\ seen (q_ck54 (1 # 1000) 0 q_ck0 (fun _ => 0%Q) 0%Q (1 # 2)%Q) = (1 # 32, 1 # 2, 9 # 40, true)%Q
  /\ map (fun r => let '(x, t, dt, ok) := r in (x tt, t, ok))
       (drive (fun _ => q_ck54 (1 # 1000) 0) (fun c => c) q_ck0 (fun _ => 0%Q) 0%Q
         [Attempt false 1%Q; Attempt false (1 # 2)%Q; Attempt true (1 # 2)%Q])
     = [(0, 0, false); (1 # 32, 1 # 2, true); (1, 1, true)]%Q.
Proof. vm_compute. auto. Qed.

(** ** C23: the tolerance of the user holds in every component of an accepted step; a step
    rejected for its error violates it in some component. *)
Theorem C23_explicit : forall eps I S (idx : list I) sys
    (estep : S -> (I -> R) -> (I -> R) -> R -> R -> S * (I -> R) * (I -> R)) eo so (cfg : err_cfg (RNum eps)) max_dt
    c x t dt c' x' t' dt' ok,
  good_tol (eps_abs cfg) (eps_rel cfg) (a_x cfg) (a_dxdt cfg) ->
  ck_try (N := RNum eps) idx rpow sys estep eo so cfg max_dt c x t dt = (c', x', t', dt', ok) ->
  let e := snd (estep (ck_st c) x (sys x t) t dt) in
  (ok = true -> within_tol idx (eps_abs cfg) (eps_rel cfg) (a_x cfg) (a_dxdt cfg) x (sys x t) e dt)
  /\ (ok = false -> (max_dt = 0 \/ dir dt * (dt - max_dt) <= eps)%R ->
      exists i, In i idx /\
        (eps_abs cfg + eps_rel cfg * (a_x cfg * Rabs (x i) + a_dxdt cfg * Rabs dt * Rabs (sys x t i)) < Rabs (e i))%R).
Proof.
  intros eps I S idx sys estep eo so cfg max_dt c x t dt c' x' t' dt' ok Ht H.
  exact (outcome_tol eps idx eo so cfg max_dt _ _ _ _ _ _ Ht
          (proj1 (ck_outcome eps idx sys eo so cfg max_dt estep c x t dt c' x' t' dt' ok H))).
Qed.
Print Assumptions C23_explicit.

Theorem C23_fsal : forall eps I S (idx : list I) sys
    (fstep : S -> (I -> R) -> (I -> R) -> R -> R -> S * (I -> R) * (I -> R) * (I -> R)) eo so
    (cfg : err_cfg (RNum eps)) max_dt rs c x t dt c' x' t' dt' ok,
  good_tol (eps_abs cfg) (eps_rel cfg) (a_x cfg) (a_dxdt cfg) ->
  cf_first c = true \/ cf_dxdt c = sys x t ->
  ckf_try (N := RNum eps) idx rpow sys fstep eo so cfg max_dt rs c x t dt = (c', x', t', dt', ok) ->
  let e := snd (fstep (cf_st c) x (sys x t) t dt) in
  (ok = true -> within_tol idx (eps_abs cfg) (eps_rel cfg) (a_x cfg) (a_dxdt cfg) x (sys x t) e dt)
  /\ (ok = false -> (max_dt = 0 \/ dir dt * (dt - max_dt) <= eps)%R ->
      exists i, In i idx /\
        (eps_abs cfg + eps_rel cfg * (a_x cfg * Rabs (x i) + a_dxdt cfg * Rabs dt * Rabs (sys x t i)) < Rabs (e i))%R).
Proof.
  intros eps I S idx sys fstep eo so cfg max_dt rs c x t dt c' x' t' dt' ok Ht Hc H.
  destruct (ckf_outcome eps idx sys eo so cfg max_dt fstep rs c x t dt c' x' t' dt' ok H) as (dx & Hdx & Oc & _).
  rewrite (Hdx Hc) in Oc. exact (outcome_tol eps idx eo so cfg max_dt _ _ _ _ _ _ Ht Oc).
Qed.
Print Assumptions C23_fsal.

(** A tolerance as in the example above; an accepted and a rejected error. *)
Example C23_example :
  let cfg := mkErrCfg (N := RNum 0) (1 / 1000)%R (1 / 100)%R 1%R 1%R in
  good_tol (eps_abs cfg) (eps_rel cfg) (a_x cfg) (a_dxdt cfg)
  /\ within_tol [tt] (eps_abs cfg) (eps_rel cfg) (a_x cfg) (a_dxdt cfg) (fun _ => 2%R) (fun _ => 1%R) (fun _ => (3 / 100)%R) 1
  /\ ~ within_tol [tt] (eps_abs cfg) (eps_rel cfg) (a_x cfg) (a_dxdt cfg) (fun _ => 2%R) (fun _ => 1%R) (fun _ => (4 / 100)%R) 1.
Proof.
  cbv zeta. unfold good_tol, within_tol. cbn [eps_abs eps_rel a_x a_dxdt].
  rewrite (Rabs_right 2), (Rabs_right 1), (Rabs_right (3 / 100)), (Rabs_right (4 / 100)) by lra.
  repeat split; try lra.
  - intros; lra.
  - intro H. specialize (H tt (or_introl eq_refl)). lra.
Qed.

(** ** C24 is false: an error estimate that is nothing but NaN is accepted, and the step is
    made.  (norm_inf: max( 0 , NaN ) = 0.) *)
Theorem C24_nan_accepted_refuted : forall I S (idx : list I) pw sys
    (estep : S -> vec F64 I -> vec F64 I -> F64 -> F64 -> S * vec F64 I * vec F64 I) eo so cfg c x t dt,
  (forall i, In i idx -> snd (estep (ck_st c) x (sys x t) t dt) i = S754_nan) ->
  exists c' dt',
  ck_try (N := F64) idx pw sys estep eo so cfg (@nofZ F64 0) c x t dt
  = (c', snd (fst (estep (ck_st c) x (sys x t) t dt)), (t + dt)%num, dt', true).
Proof. exact nan_accepted. Qed.
Print Assumptions C24_nan_accepted_refuted.

(** Cash-Karp in double precision on a system that returns NaN: the hypothesis holds, the step
    succeeds and the state becomes NaN. *)
Definition nan_sys (x : vec F64 unit) (t : F64) : vec F64 unit := fun _ => S754_nan.
Definition nan_run := ck_try (N := F64) [tt] (fun a _ => a) nan_sys (rk_estep (N := F64) nan_sys rk_ck54) 4 5
  (mkErrCfg (N := F64) (f64_dyadic 1 (-20)) (f64_dyadic 1 (-20)) (f64_ofZ 1) (f64_ofZ 1)) (f64_ofZ 0)
  (mkCk (N := F64) (fun _ _ => f64_ofZ 0) (fun _ => f64_ofZ 0) (fun _ => f64_ofZ 0) (fun _ => f64_ofZ 0))
  (fun _ => f64_ofZ 1) (f64_ofZ 0) (f64_ofZ 1).
Theorem C24_run_refuted : exists c' x' t' dt', nan_run = (c', x', t', dt', true) /\ x' tt = S754_nan.
Proof.
  destruct (C24_nan_accepted_refuted unit _ [tt] (fun a _ => a) nan_sys (rk_estep (N := F64) nan_sys rk_ck54) 4 5
    (mkErrCfg (N := F64) (f64_dyadic 1 (-20)) (f64_dyadic 1 (-20)) (f64_ofZ 1) (f64_ofZ 1))
    (mkCk (N := F64) (fun _ _ => f64_ofZ 0) (fun _ => f64_ofZ 0) (fun _ => f64_ofZ 0) (fun _ => f64_ofZ 0))
    (fun _ => f64_ofZ 1) (f64_ofZ 0) (f64_ofZ 1)) as (c' & dt' & E).
  - intros [] _. vm_compute. reflexivity.
  - exists c'. eexists. eexists. exists dt'. split; [exact E|]. vm_compute. reflexivity.
Qed.
Print Assumptions C24_run_refuted.

(** ** C25: a rejection keeps the direction and shortens the step by a factor in [1/5, 9/10). *)
Theorem C25_rejection : forall eps I S (idx : list I) sys
    (estep : S -> (I -> R) -> (I -> R) -> R -> R -> S * (I -> R) * (I -> R)) eo so (cfg : err_cfg (RNum eps))
    c x t dt c' x' t' dt',
  (0 <= eps)%R -> dt <> 0%R -> (2 <= eo)%Z -> (1 <= so)%Z ->
  ck_try (N := RNum eps) idx rpow sys estep eo so cfg 0%R c x t dt = (c', x', t', dt', false) ->
  (0 < dir dt * dt' /\ 1 / 5 * Rabs dt <= Rabs dt' < 9 / 10 * Rabs dt)%R.
Proof.
  intros eps I S idx sys estep eo so cfg c x t dt c' x' t' dt' Hp Hd He Ho H.
  destruct (outcome_dt eps idx eo so cfg 0 _ _ _ _ _ _ Hd He Ho Hp (or_introl eq_refl)
    (proj1 (ck_outcome eps idx sys eo so cfg 0 estep c x t dt c' x' t' dt' false H))) as (A & _ & B & _).
  exact (conj A (B eq_refl eq_refl)).
Qed.
Print Assumptions C25_rejection.

Theorem C25_fsal : forall eps I S (idx : list I) sys
    (fstep : S -> (I -> R) -> (I -> R) -> R -> R -> S * (I -> R) * (I -> R) * (I -> R)) eo so
    (cfg : err_cfg (RNum eps)) rs c x t dt c' x' t' dt',
  (0 <= eps)%R -> dt <> 0%R -> (2 <= eo)%Z -> (1 <= so)%Z ->
  ckf_try (N := RNum eps) idx rpow sys fstep eo so cfg 0%R rs c x t dt = (c', x', t', dt', false) ->
  (0 < dir dt * dt' /\ 1 / 5 * Rabs dt <= Rabs dt' < 9 / 10 * Rabs dt)%R.
Proof.
  intros eps I S idx sys fstep eo so cfg rs c x t dt c' x' t' dt' Hp Hd He Ho H.
  destruct (ckf_outcome eps idx sys eo so cfg 0 fstep rs c x t dt c' x' t' dt' false H) as (dx & _ & Oc & _).
  destruct (outcome_dt eps idx eo so cfg 0 _ _ _ _ _ _ Hd He Ho Hp (or_introl eq_refl) Oc) as (A & _ & B & _).
  exact (conj A (B eq_refl eq_refl)).
Qed.
Print Assumptions C25_fsal.

(** k+1 rejections in a row. *)
Theorem C25_geometric : forall eps I S (idx : list I) sys
    (estep : S -> (I -> R) -> (I -> R) -> R -> R -> S * (I -> R) * (I -> R)) eo so (cfg : err_cfg (RNum eps)),
  (0 <= eps)%R -> (2 <= eo)%Z -> (1 <= so)%Z ->
  let f := ck_try (N := RNum eps) idx rpow sys estep eo so cfg 0%R in
  forall k c x t dt, dt <> 0%R ->
  (forall j, (j <= k)%nat -> snd (attempt f j c x t dt) = false) ->
  ((1 / 5) ^ Datatypes.S k * Rabs dt <= Rabs (snd (fst (attempt f k c x t dt))) <= (9 / 10) ^ Datatypes.S k * Rabs dt)%R.
Proof.
  intros eps I S idx sys estep eo so cfg Hp He Ho f.
  apply (geo_attempts f (1 / 5) (9 / 10)); try lra.
  intros s x t dt s' x' t' dt' Hd E.
  pose proof (C25_rejection eps I S idx sys estep eo so cfg s x t dt s' x' t' dt' Hp Hd He Ho E). lra.
Qed.
Print Assumptions C25_geometric.

(** The rational run above: three rejections with tolerance 10^-6, factor 9/20. *)
Example C25_example :
  seen (attempt (q_ck54 (1 # 1000000) 0) 2 q_ck0 (fun _ => 0%Q) 0%Q 1%Q) = (0, 0, 729 # 8000, false)%Q.
Proof. vm_compute. reflexivity. Qed.

(** ** C26 for stepper orders up to 6. *)
Theorem C26_acceptance_partial : forall eps I S (idx : list I) sys
    (estep : S -> (I -> R) -> (I -> R) -> R -> R -> S * (I -> R) * (I -> R)) eo so (cfg : err_cfg (RNum eps))
    c x t dt c' x' t' dt',
  (0 <= eps)%R -> dt <> 0%R -> (2 <= eo)%Z -> (1 <= so)%Z ->
  ck_try (N := RNum eps) idx rpow sys estep eo so cfg 0%R c x t dt = (c', x', t', dt', true) ->
  (0 < dir dt * dt' /\ Rabs dt' <= 9 / 2 * Rabs dt)%R /\ ((so <= 6)%Z -> (Rabs dt <= Rabs dt')%R).
Proof.
  intros eps I S idx sys estep eo so cfg c x t dt c' x' t' dt' Hp Hd He Ho H.
  destruct (outcome_dt eps idx eo so cfg 0 _ _ _ _ _ _ Hd He Ho Hp (or_introl eq_refl)
    (proj1 (ck_outcome eps idx sys eo so cfg 0 estep c x t dt c' x' t' dt' true H))) as (A & _ & _ & B & C & _).
  exact (conj (conj A (B eq_refl)) (C eq_refl eq_refl)).
Qed.
Print Assumptions C26_acceptance_partial.

Theorem C26_fsal_partial : forall eps I S (idx : list I) sys
    (fstep : S -> (I -> R) -> (I -> R) -> R -> R -> S * (I -> R) * (I -> R) * (I -> R)) eo so
    (cfg : err_cfg (RNum eps)) rs c x t dt c' x' t' dt',
  (0 <= eps)%R -> dt <> 0%R -> (2 <= eo)%Z -> (1 <= so)%Z ->
  ckf_try (N := RNum eps) idx rpow sys fstep eo so cfg 0%R rs c x t dt = (c', x', t', dt', true) ->
  (0 < dir dt * dt' /\ Rabs dt' <= 9 / 2 * Rabs dt)%R /\ ((so <= 6)%Z -> (Rabs dt <= Rabs dt')%R).
Proof.
  intros eps I S idx sys fstep eo so cfg rs c x t dt c' x' t' dt' Hp Hd He Ho H.
  destruct (ckf_outcome eps idx sys eo so cfg 0 fstep rs c x t dt c' x' t' dt' true H) as (dx & _ & Oc & _).
  destruct (outcome_dt eps idx eo so cfg 0 _ _ _ _ _ _ Hd He Ho Hp (or_introl eq_refl) Oc) as (A & _ & _ & B & C & _).
  exact (conj (conj A (B eq_refl)) (C eq_refl eq_refl)).
Qed.
Print Assumptions C26_fsal_partial.

(** fehlberg78 (order 8) can shrink the step after a success: error 0.49, factor
    0.9 * 0.49^(-1/8) < 1. *)
Theorem C26_fehlberg78_refuted : forall eps, (0 <= eps)%R ->
  exists (sys : (unit -> R) -> R -> (unit -> R)) (cfg : err_cfg (RNum eps)) c x t dt c' x' t' dt',
  good_tol (eps_abs cfg) (eps_rel cfg) (a_x cfg) (a_dxdt cfg) /\ (0 < dt)%R /\
  ck_try (N := RNum eps) [tt] rpow sys (rk_estep (N := RNum eps) sys rk_f78)
    (Z.of_nat (rk_error_order rk_f78)) (Z.of_nat (rk_order rk_f78)) cfg 0%R c x t dt = (c', x', t', dt', true)
  /\ (dt' < dt)%R.
Proof.
  intros eps Hp. set (a := (840 / 41 * (49 / 100))%R).
  set (cfg := mkErrCfg (N := RNum eps) 1%R 0%R 1%R 1%R).
  set (c := mkCk (N := RNum eps) (fun _ _ => 0%R) (fun _ => 0%R) (fun _ => 0%R) (fun _ => 0%R) : ck (RNum eps) unit (rkmem (RNum eps) unit)).
  destruct (ck_try (N := RNum eps) [tt] rpow (spike a) (rk_estep (N := RNum eps) (spike a) rk_f78)
    (Z.of_nat (rk_error_order rk_f78)) (Z.of_nat (rk_order rk_f78)) cfg 0%R c (fun _ => 0%R) 0%R 1%R) as [[[[c' x'] t'] dt'] ok] eqn:E.
  destruct (ck_outcome eps [tt] (spike a) _ _ cfg 0 _ _ _ _ _ _ _ _ _ _ E) as [Oc _].
  set (est := rk_estep (N := RNum eps) (spike a) rk_f78 (ck_st c) (fun _ => 0%R) (spike a (fun _ => 0%R) 0%R) 0%R 1%R) in *.
  change (outcome eps [tt] (Z.of_nat (rk_error_order rk_f78)) (Z.of_nat (rk_order rk_f78)) cfg 0 (fun _ : unit => 0%R)
    (spike a (fun _ => 0%R) 0%R) (snd est) 1 dt' ok) in Oc.
  assert (Z : snd est tt = (- (49 / 100))%R).
  { destruct est as [[st out] e] eqn:Ee.
    cbn [snd]. rewrite (spike_error eps a e); [unfold a; lra|unfold a; lra|].
    refine (proj2 (rk_estep_R eps (spike a) rk_f78 (ck_st c) (fun _ => 0%R) 0%R 1%R st out e _ Ee)). cbn; lia. }
  clearbody est.
  assert (Zn : snd (@checker_error (RNum eps) unit [tt] cfg (fun _ : unit => 0%R)
     (spike a (fun _ => 0%R) 0%R) (snd est) 1%R) = (49 / 100)%R).
  { unfold checker_error. cbn [snd]. unfold norm_inf. cbn [fold_left]. rewrite nmax_R. unfold rel_error.
    rewrite Z. unfold cfg. cbn [eps_abs eps_rel a_x a_dxdt nabs nadd nmul ndiv nofZ RNum].
    rewrite !(Rabs_left (- (49 / 100))) by lra.
    match goal with |- context [(1 + 0 * ?z)%R] => replace (1 + 0 * z)%R with 1%R by ring end.
    rewrite Rabs_right by lra. rewrite Rmax_right; lra. }
  unfold outcome in Oc. cbv zeta in Oc. rewrite Zn in Oc.
  destruct Oc as [(H1 & _)|[(_ & H1 & _)|(_ & _ & H3 & H4)]]; [lra|lra|].
  subst ok. exists (spike a), cfg, c, (fun _ => 0%R), 0%R, 1%R, c', x', t', dt'.
  split; [unfold good_tol, cfg; cbn; lra|]. split; [lra|]. split; [exact E|].
  rewrite increase_R in H4.
  replace (Rltb (49 / 100) (1 / 2)) with true in H4 by (symmetry; apply Rltb_true; lra).
  replace (@nneq (RNum eps) 0%R 0%R) with false in H4 by (symmetry; now apply nneq_R_false).
  subst dt'. change (Z.of_nat (rk_order rk_f78)) with 8%Z.
  pose proof (grow_below (49 / 100) (Rle_refl _)). lra.
Qed.
Print Assumptions C26_fehlberg78_refuted.

(** ** C27: the step limit in the direction of integration.  The comparison tolerates machine
    epsilon, so the bound is max_dt + eps. *)
Theorem C27_explicit : forall eps I S (idx : list I) sys
    (estep : S -> (I -> R) -> (I -> R) -> R -> R -> S * (I -> R) * (I -> R)) eo so (cfg : err_cfg (RNum eps))
    max_dt c x t dt c' x' t' dt' ok,
  (0 <= eps)%R -> dt <> 0%R -> (2 <= eo)%Z -> (1 <= so)%Z -> (0 < dir dt * max_dt)%R ->
  ck_try (N := RNum eps) idx rpow sys estep eo so cfg max_dt c x t dt = (c', x', t', dt', ok) ->
  (0 < dir dt * dt' /\ Rabs dt' <= Rabs max_dt + eps)%R
  /\ (ok = true -> (Rabs dt <= Rabs max_dt + eps)%R)
  /\ ((Rabs dt > Rabs max_dt + eps)%R -> ok = false /\ dt' = max_dt /\ x' = x /\ t' = t /\ ck_st c' = ck_st c).
Proof.
  intros eps I S idx sys estep eo so cfg max_dt c x t dt c' x' t' dt' ok Hp Hd He Ho Ha H.
  destruct (ck_outcome eps idx sys eo so cfg max_dt estep c x t dt c' x' t' dt' ok H) as [Oc St].
  destruct (outcome_dt eps idx eo so cfg max_dt _ _ _ _ _ _ Hd He Ho Hp (or_intror Ha) Oc) as (A & _ & _ & _ & _ & B).
  assert (Z : max_dt <> 0%R) by (intro Z; rewrite Z in Ha; lra).
  destruct (B Z) as [B1 B2]. split; [split; [exact A|exact B1]|]. split; [exact B2|]. intro L.
  assert (M : (dir dt * (dt - max_dt) > eps)%R).
  { rewrite Rmult_minus_distr_l, dir_abs, <- (abs_lim dt max_dt Ha). lra. }
  pose proof (ck_effect (N := RNum eps) idx rpow sys estep eo so cfg max_dt c x t dt c' x' t' dt' ok H) as Ef.
  destruct Oc as [(_ & _ & H3 & H4)|[([H1|H1] & _)|([H1|H1] & _)]]; try lra.
  subst ok. destruct Ef as [E1 E2]. exact (conj eq_refl (conj H4 (conj E1 (conj E2 (St Z M))))).
Qed.
Print Assumptions C27_explicit.

Theorem C27_fsal : forall eps I S (idx : list I) sys
    (fstep : S -> (I -> R) -> (I -> R) -> R -> R -> S * (I -> R) * (I -> R) * (I -> R)) eo so
    (cfg : err_cfg (RNum eps)) max_dt rs c x t dt c' x' t' dt' ok,
  (0 <= eps)%R -> dt <> 0%R -> (2 <= eo)%Z -> (1 <= so)%Z -> (0 < dir dt * max_dt)%R ->
  ckf_try (N := RNum eps) idx rpow sys fstep eo so cfg max_dt rs c x t dt = (c', x', t', dt', ok) ->
  (0 < dir dt * dt' /\ Rabs dt' <= Rabs max_dt + eps)%R
  /\ (ok = true -> (Rabs dt <= Rabs max_dt + eps)%R)
  /\ ((Rabs dt > Rabs max_dt + eps)%R -> ok = false /\ dt' = max_dt /\ x' = x /\ t' = t /\ cf_st c' = cf_st c).
Proof.
  intros eps I S idx sys fstep eo so cfg max_dt rs c x t dt c' x' t' dt' ok Hp Hd He Ho Ha H.
  destruct (ckf_outcome eps idx sys eo so cfg max_dt fstep rs c x t dt c' x' t' dt' ok H) as (dx & _ & Oc & Ef & St).
  destruct (outcome_dt eps idx eo so cfg max_dt _ _ _ _ _ _ Hd He Ho Hp (or_intror Ha) Oc) as (A & _ & _ & _ & _ & B).
  assert (Z : max_dt <> 0%R) by (intro Z; rewrite Z in Ha; lra).
  destruct (B Z) as [B1 B2]. split; [split; [exact A|exact B1]|]. split; [exact B2|]. intro L.
  assert (M : (dir dt * (dt - max_dt) > eps)%R).
  { rewrite Rmult_minus_distr_l, dir_abs, <- (abs_lim dt max_dt Ha). lra. }
  destruct Oc as [(_ & _ & H3 & H4)|[([H1|H1] & _)|([H1|H1] & _)]]; try lra.
  subst ok. destruct Ef as [E1 E2]. exact (conj eq_refl (conj H4 (conj E1 (conj E2 (St Z M))))).
Qed.
Print Assumptions C27_fsal.

(** rosenbrock4_controller: the same bounds. *)
Theorem C27_rosenbrock : forall eps I S (idx : list I)
    (rstep : S -> (I -> R) -> R -> R -> S * (I -> R) * (I -> R)) atol rtol max_dt c x t dt c' x' t' dt' ok,
  (0 <= eps)%R -> dt <> 0%R -> (0 < dir dt * max_dt)%R ->
  rosc_try (N := RNum eps) idx rpow sqrt rstep atol rtol max_dt c x t dt = (c', x', t', dt', ok) ->
  (0 < dir dt * dt' /\ Rabs dt' <= Rabs max_dt + eps)%R
  /\ (ok = true -> (Rabs dt <= Rabs max_dt + eps)%R).
Proof.
  intros eps I S idx rstep atol rtol max_dt c x t dt c' x' t' dt' ok Hp Hd Ha H.
  destruct (ros_dt eps idx rstep atol rtol max_dt c x t dt c' x' t' dt' ok Hd Hp (or_intror Ha) H)
    as (A & _ & _ & _ & _ & _ & B).
  assert (Z : max_dt <> 0%R) by (intro Z; rewrite Z in Ha; lra).
  destruct (B Z) as [B1 B2]. exact (conj (conj A B1) B2).
Qed.
Print Assumptions C27_rosenbrock.

(** Limit 1/4 on the run of C22: dt = 1 is refused with dt = 1/4; then accepted, growth cut off. *)
Example C27_example :
  seen (q_ck54 (1 # 1000) (1 # 4) q_ck0 (fun _ => 0%Q) 0%Q 1%Q) = (0, 0, 1 # 4, false)%Q
  /\ seen (q_ck54 1 (1 # 4) q_ck0 (fun _ => 0%Q) 0%Q (1 # 4)%Q) = (1 # 1024, 1 # 4, 9 # 80, true)%Q
  /\ (0 < dir 1 * (1 / 4))%R.
Proof.
  split; [vm_compute; reflexivity|]. split; [vm_compute; reflexivity|].
  unfold dir. destruct (Rlt_dec 0 1); lra.
Qed.

(** ** C28 is false: a positive limit reverses a backward step, whatever the underlying stepper. *)
Theorem C28_refuted : forall eps I S (idx : list I) sys
    (estep : S -> (I -> R) -> (I -> R) -> R -> R -> S * (I -> R) * (I -> R)) eo so (cfg : err_cfg (RNum eps))
    max_dt c x t dt,
  (dt < 0)%R -> (0 < max_dt)%R -> (eps < max_dt - dt)%R ->
  exists c', ck_try (N := RNum eps) idx rpow sys estep eo so cfg max_dt c x t dt = (c', x, t, max_dt, false).
Proof. exact limit_reverses. Qed.
Print Assumptions C28_refuted.
Theorem C28_rosenbrock_refuted : forall eps I S (idx : list I)
    (rstep : S -> (I -> R) -> R -> R -> S * (I -> R) * (I -> R)) atol rtol max_dt c x t dt,
  (dt < 0)%R -> (0 < max_dt)%R -> (eps < max_dt - dt)%R ->
  exists c', rosc_try (N := RNum eps) idx rpow sqrt rstep atol rtol max_dt c x t dt = (c', x, t, max_dt, false).
Proof. exact limit_reverses_ros. Qed.
Print Assumptions C28_rosenbrock_refuted.

(** End to end: integrate_adaptive from 0 back to -1 (x' = 5 t^4, Cash-Karp, positive limit 1)
    returns normally with the state at time +1. *)
Theorem C28_run_refuted :
  let r := integrate_adaptive_ctrl (N := Q0) (W := unit) (ctrl_step (q_ck54 (277 # 61440) 1)) rec_obs 5 q_ck0 tt
             (fun _ => 0%Q) 0%Q (-1)%Q (-1 # 2)%Q in
  map (fun p => (fst p tt, snd p)) (obs_of (trace_of r)) = [(0, 0); (1, 1)]%Q
  /\ match result_of r with Ok (_, _, x', t', dt', n) => (x' tt, t', dt', n) = (1, 1, 1, 1%nat)%Q | _ => False end.
Proof. vm_compute. auto. Qed.
Print Assumptions C28_run_refuted.

(** With a limit that has the direction of integration the direction is kept. *)
Theorem C28_partial : forall eps I S (idx : list I) sys
    (estep : S -> (I -> R) -> (I -> R) -> R -> R -> S * (I -> R) * (I -> R)) eo so (cfg : err_cfg (RNum eps))
    max_dt c x t dt c' x' t' dt' ok,
  (0 <= eps)%R -> dt <> 0%R -> (2 <= eo)%Z -> (1 <= so)%Z -> agrees dt max_dt ->
  ck_try (N := RNum eps) idx rpow sys estep eo so cfg max_dt c x t dt = (c', x', t', dt', ok) ->
  (0 < dir dt * dt')%R /\ (ok = false -> (Rabs dt' < Rabs dt)%R).
Proof.
  intros eps I S idx sys estep eo so cfg max_dt c x t dt c' x' t' dt' ok Hp Hd He Ho Ha H.
  destruct (outcome_dt eps idx eo so cfg max_dt _ _ _ _ _ _ Hd He Ho Hp Ha
    (proj1 (ck_outcome eps idx sys eo so cfg max_dt estep c x t dt c' x' t' dt' ok H))) as (A & B & _).
  exact (conj A B).
Qed.
Print Assumptions C28_partial.
Example C28_example : agrees (-1) (-2) /\ agrees (-1) 0 /\ ~ agrees (-1) 2.
Proof.
  unfold agrees, dir. destruct (Rlt_dec 0 (-1)); [lra|]. repeat split; try (right; lra); try (left; lra).
  intros [H|H]; lra.
Qed.

(** ** C29: FSAL caching is invisible.  [l] is any sequence of attempts, with or without resizing
    of the temporaries, and restarts elsewhere after reset(). *)
Theorem C29_controlled : forall (N : Num) I (idx : list I) pw sys eo so cfg max_dt l
    (c c0 : ckf N I (rkmem N I)) x t,
  cf_first c = true \/ cf_dxdt c = sys x t -> cf_first c0 = true ->
  let try := ckf_try idx pw sys (dopri5_fstep sys (mkAlias false false)) eo so cfg max_dt in
  drive try (@ckf_reset N I (rkmem N I)) c x t l = drive_fresh try c0 x t l.
Proof.
  intros N I idx pw sys eo so cfg max_dt.
  exact (ckf_drive_fresh idx pw sys (dopri5_fstep sys (mkAlias false false)) eo so cfg max_dt
           (dopri5_fstep_det sys (mkAlias false false)) (dopri5_fstep_last sys (mkAlias false false))).
Qed.
Print Assumptions C29_controlled.

(** do_step of dopri5 itself, in place or out of place. *)
Theorem C29_do_step : forall (N : Num) I sys alx l (s s0 : fsal N I (rkmem N I)) x t,
  fs_first s = true \/ fs_dxdt s = sys x t -> fs_first s0 = true ->
  let try := fsal_try sys (dopri5_fstep_noerr sys) alx in
  drive try (@fsal_reset N I (rkmem N I)) s x t l = drive_fresh try s0 x t l.
Proof.
  intros N I sys.
  exact (fsal_drive_fresh sys (dopri5_fstep_noerr sys) (dopri5_fstep_noerr_det sys) (dopri5_fstep_noerr_last sys)).
Qed.
Print Assumptions C29_do_step.
Theorem C29_do_step_error : forall (N : Num) I sys alx l (s s0 : fsal N I (rkmem N I)) x t,
  fs_first s = true \/ fs_dxdt s = sys x t -> fs_first s0 = true ->
  let try := fsal_try sys (dopri5_fstep sys) alx in
  drive try (@fsal_reset N I (rkmem N I)) s x t l = drive_fresh try s0 x t l.
Proof.
  intros N I sys.
  exact (fsal_drive_fresh sys (dopri5_fstep sys) (fun al s s0 x dx t dt => proj2 (dopri5_fstep_det sys al s s0 x dx t dt))
           (dopri5_fstep_last sys)).
Qed.
Print Assumptions C29_do_step_error.

(** Whole runs of integrate_adaptive: the same trace, result and exceptions as with a controller
    that evaluates the system anew in every attempt ([rs] = true). *)
Theorem C29_integrate_adaptive : forall (N : Num) I W (idx : list I) pw sys eo so cfg max_dt
    (obs : W -> vec N I -> N -> M (ev (vec N I) (carrier N)) W) fuel tend (c : ckf N I (rkmem N I)) w x t dt,
  cf_first c = true ->
  let try := ckf_try idx pw sys (dopri5_fstep sys (mkAlias false false)) eo so cfg max_dt in
  let m1 := integrate_adaptive_ctrl (N := N) (ctrl_step (try false)) obs fuel c w x t tend dt in
  let m2 := integrate_adaptive_ctrl (N := N) (ctrl_step (try true)) obs fuel c w x t tend dt in
  fst m1 = fst m2 /\
  match snd m1, snd m2 with
  | Ok (_, w1, x1, t1, d1, n1), Ok (_, w2, x2, t2, d2, n2) =>
      (w1, x1, t1, d1, n1) = (w2, x2, t2, d2, n2)
  | Exc e1, Exc e2 => e1 = e2
  | UB, UB => True | Fuel, Fuel => True
  | _, _ => False
  end.
Proof.
  intros N I W idx pw sys eo so cfg max_dt obs fuel tend c w x t dt Hc.
  refine (adaptive_sim (ckf_try idx pw sys (dopri5_fstep sys (mkAlias false false)) eo so cfg max_dt false)
    (ckf_try idx pw sys (dopri5_fstep sys (mkAlias false false)) eo so cfg max_dt true)
    (fun s1 s2 x t => cache_ok sys s1 x t /\ cache_ok sys s2 x t) _ obs fuel tend c c w x t dt 0 (conj (or_introl Hc) (or_introl Hc))).
  intros s1 s2 x0 t0 dt0 s1' x1 t1 d1 ok1 s2' x2 t2 d2 ok2 [H1 H2] E1 E2.
  pose proof (ckf_memoryless idx pw sys (dopri5_fstep sys (mkAlias false false)) eo so cfg max_dt
    (dopri5_fstep_det sys (mkAlias false false)) _ _ _ _ _ _ _ _ _ _ _ _ _ _ _ _ _ H1 H2 E1 E2) as E.
  split; [exact E|].
  pose proof (proj1 (C22_fsal N I idx pw sys eo so cfg max_dt _ _ _ _ _ _ _ _ _ _ H1 E1)) as K1.
  pose proof (proj1 (C22_fsal N I idx pw sys eo so cfg max_dt _ _ _ _ _ _ _ _ _ _ H2 E2)) as K2.
  inversion E; subst. exact (conj K1 K2).
Qed.
Print Assumptions C29_integrate_adaptive.

(** A run with a rejection, a success and a restart; the cached derivative is used. *)
Definition q_exp (x : unit -> Q) (t : Q) : unit -> Q := fun i => Qred (x i).
Definition q_dopri (rs : bool) := ckf_try (N := Q0) [tt] (fun _ _ => (1 # 2)%Q) q_exp
  (dopri5_fstep (N := Q0) q_exp (mkAlias false false)) 4 5 (mkErrCfg (N := Q0) (1 # 10000) 0%Q 1%Q 1%Q) 0%Q rs.
Definition q_ckf0 : ckf Q0 unit (rkmem Q0 unit) :=
  mkCkf (N := Q0) (fun _ _ => 0%Q) (fun _ => 0%Q) (fun _ => 0%Q) (fun _ => 0%Q) (fun _ => 0%Q) true.
Example C29_example :
  map (fun r => let '(x, t, dt, ok) := r in (t, ok))
    (drive q_dopri (@ckf_reset Q0 unit (rkmem Q0 unit)) q_ckf0 (fun _ => 1%Q) 0%Q
       [Attempt false 1%Q; Attempt false (1 # 4)%Q; Attempt true (1 # 4)%Q; Restart (fun _ => 3%Q) 0%Q; Attempt false (1 # 4)%Q])
  = [(0, false); (1 # 4, true); (1 # 2, true); (1 # 4, true)]%Q.
Proof. vm_compute. reflexivity. Qed.

(** ** C30: rosenbrock4_controller. *)
Theorem C30_effect : forall (N : Num) I S (idx : list I) pw sq
    (rstep : S -> vec N I -> N -> N -> S * vec N I * vec N I) atol rtol max_dt c x t dt c' x' t' dt' ok,
  rosc_try idx pw sq rstep atol rtol max_dt c x t dt = (c', x', t', dt', ok) ->
  if (ok : bool)
  then t' = (t + dt)%num /\ x' = snd (fst (rstep (rc_st c) x t dt)) /\ rc_rejected c' = false
  else x' = x /\ t' = t.
Proof.
  intros N I S idx pw sq rstep atol rtol max_dt c x t dt c' x' t' dt' ok H.
  pose proof (ros_effect idx pw sq rstep atol rtol max_dt c x t dt c' x' t' dt' ok H) as E.
  destruct ok; [exact (conj (proj1 E) (conj (proj1 (proj2 E)) (proj1 (proj2 (proj2 (proj2 (proj2 E)))))))
               |exact (conj (proj1 E) (proj1 (proj2 E)))].
Qed.
Print Assumptions C30_effect.

Theorem C30_bounds : forall eps I S (idx : list I)
    (rstep : S -> (I -> R) -> R -> R -> S * (I -> R) * (I -> R)) atol rtol c x t dt c' x' t' dt' ok,
  (0 <= eps)%R -> dt <> 0%R -> idx <> [] ->
  rosc_try (N := RNum eps) idx rpow sqrt rstep atol rtol 0%R c x t dt = (c', x', t', dt', ok) ->
  (0 < dir dt * dt')%R
  /\ (ok = true -> rms_within idx atol rtol x x' (snd (rstep (rc_st c) x t dt))
        /\ (1 / 5 * Rabs dt <= Rabs dt' <= 6 * Rabs dt)%R
        /\ (rc_rejected c = true -> (Rabs dt' <= Rabs dt)%R))
  /\ (ok = false -> (1 / 5 * Rabs dt <= Rabs dt' < 9 / 10 * Rabs dt)%R).
Proof.
  intros eps I S idx rstep atol rtol c x t dt c' x' t' dt' ok Hp Hd Hn H.
  destruct (ros_dt eps idx rstep atol rtol 0 c x t dt c' x' t' dt' ok Hd Hp (or_introl eq_refl) H)
    as (A & _ & B & C & D & E & _).
  split; [exact A|]. split; [|intro F; exact (B F eq_refl)].
  intro F. split; [|exact (conj (conj (D F eq_refl) (C F)) (E F))].
  subst ok. pose proof (ros_effect (N := RNum eps) idx rpow sqrt rstep atol rtol _ c x t dt c' x' t' dt' true H) as Q.
  cbv iota in Q. destruct Q as (_ & _ & Q & _). apply Rleb_true in Q.
  exact (proj1 (ros_error_le1 eps idx atol rtol x' x _ Hn) Q).
Qed.
Print Assumptions C30_bounds.

(** m_last_rejected: after any rejection for the error the flag is set, so the bound above
    applies to the next success. *)
Theorem C30_flag : forall eps I S (idx : list I)
    (rstep : S -> (I -> R) -> R -> R -> S * (I -> R) * (I -> R)) atol rtol c x t dt c' x' t' dt',
  rosc_try (N := RNum eps) idx rpow sqrt rstep atol rtol 0%R c x t dt = (c', x', t', dt', false) ->
  rc_rejected c' = true.
Proof.
  intros eps I S idx rstep atol rtol c x t dt c' x' t' dt'. unfold rosc_try, rosc_core.
  replace (@nneq (RNum eps) 0%R (nofZ 0)) with false by (symmetry; now apply nneq_R_false). cbn [andb].
  destruct (rstep (rc_st c) x t dt) as [[st1 xout1] xerr1].
  destruct (_ <=? _)%num; intro H; inversion H; reflexivity.
Qed.
Print Assumptions C30_flag.

(** An error estimate with a component that is not a number is rejected; the step is divided by 5. *)
Theorem C30_nan : forall I S (idx : list I) (pw : F64 -> F64 -> F64) (sq : F64 -> F64),
  (forall y, pw S754_nan y = S754_nan) -> sq S754_nan = S754_nan ->
  forall (rstep : S -> vec F64 I -> F64 -> F64 -> S * vec F64 I * vec F64 I) atol rtol c x t dt c' x' t' dt' ok,
  (exists i, In i idx /\ snd (rstep (rc_st c) x t dt) i = S754_nan) ->
  rosc_try idx pw sq rstep atol rtol (@nofZ F64 0) c x t dt = (c', x', t', dt', ok) ->
  ok = false /\ x' = x /\ t' = t /\ dt' = (dt / nofZ 5)%num.
Proof. exact @ros_nan. Qed.
Print Assumptions C30_nan.

Definition q_ros (max_dt : Q) := rosc_try (N := Q0) [tt] (fun a _ => a) (fun a => a)
  (fun (s : unit) (x : unit -> Q) t dt => (s, fun i => Qred (x i + dt), fun _ => Qred (dt / 2))) 1%Q 0%Q max_dt.
Definition q_ros0 : rosc Q0 unit unit := rosc_new (N := Q0) tt (fun _ => 0%Q) (fun _ => 0%Q).
Example C30_example :
  (let '(c, x, t, dt, ok) := q_ros 0 q_ros0 (fun _ => 0%Q) 0%Q 4%Q in
   (x tt, t, dt, ok, rc_rejected c) = (0, 0, 9 # 10, false, true)%Q /\
   let '(c2, x2, t2, dt2, ok2) := q_ros 0 c x t dt in
   (x2 tt, t2, dt2, ok2, rc_rejected c2) = (9 # 10, 9 # 10, 9 # 10, true, false)%Q)
  /\ (forall y, (fun a _ : f64 => a) S754_nan y = S754_nan).
Proof. split; [vm_compute; auto|reflexivity]. Qed.

(** ** The library's controllers obey the contract under which the integrate functions with
    controlled steppers are verified (C04, C05, C06, C12, C18, C19). *)
Theorem C70_explicit : forall eps I (idx : list I) (sys : (I -> R) -> R -> (I -> R)) n (cfg : err_cfg (RNum eps)),
  (0 <= eps)%R -> (0 < rk_error_order n)%nat ->
  try_contract (ck_try (N := RNum eps) idx rpow sys (rk_estep (N := RNum eps) sys n)
    (Z.of_nat (rk_error_order n)) (Z.of_nat (rk_order n)) cfg 0%R).
Proof.
  intros eps I idx sys n cfg Hp Hn. apply ck_contract; [exact Hp| |]; destruct n; cbn in *; lia.
Qed.
Print Assumptions C70_explicit.
Theorem C70_fsal : forall eps I (idx : list I) (sys : (I -> R) -> R -> (I -> R)) (cfg : err_cfg (RNum eps)) rs,
  (0 <= eps)%R ->
  try_contract (ckf_try (N := RNum eps) idx rpow sys (dopri5_fstep (N := RNum eps) sys (mkAlias false false))
    (Z.of_nat (rk_error_order rk_dopri5)) (Z.of_nat (rk_order rk_dopri5)) cfg 0%R rs).
Proof. intros eps I idx sys cfg rs Hp. apply ckf_contract; [exact Hp| |]; cbn; lia. Qed.
Print Assumptions C70_fsal.
Theorem C70_rosenbrock : forall eps I S (idx : list I)
    (rstep : S -> (I -> R) -> R -> R -> S * (I -> R) * (I -> R)) atol rtol, (0 <= eps)%R ->
  try_contract (rosc_try (N := RNum eps) idx rpow sqrt rstep atol rtol 0%R).
Proof. exact ros_contract. Qed.
Print Assumptions C70_rosenbrock.

(** For example C04 for controlled_runge_kutta< runge_kutta_cash_karp54 >. *)
Theorem C70_adaptive : forall eps : R, (0 <= eps)%R ->
  forall I (idx : list I) (sys : (I -> R) -> R -> (I -> R)) n (cfg : err_cfg (RNum eps)), (0 < rk_error_order n)%nat ->
  forall W fuel c (w : W) x t0 tend dt tr r,
  dt <> 0%R -> (0 <= dir dt * (tend - t0))%R ->
  integrate_adaptive_ctrl (N := RNum eps)
    (ctrl_step (ck_try (N := RNum eps) idx rpow sys (rk_estep (N := RNum eps) sys n)
       (Z.of_nat (rk_error_order n)) (Z.of_nat (rk_order n)) cfg 0%R)) rec_obs (Datatypes.S fuel) c w x t0 tend dt = (tr, r) ->
  strictly_mono (dir dt) (map snd (obs_of tr)) /\
  Forall (fun T => (dir dt * (T - tend) <= eps)%R) (map snd (obs_of tr)) /\
  (forall s' w' x' t' dt' k, r = Ok (s', w', x', t', dt', k) -> (Rabs (tend - t') <= eps)%R).
Proof.
  intros eps Hp I idx sys n cfg Hn W fuel c w x t0 tend dt tr r Hd Hs H.
  destruct (@adaptive_ctrl_R eps Hp _ W _ _ (C70_explicit eps I idx sys n cfg Hp Hn) fuel c w x t0 tend dt tr r Hd Hs H)
    as (_ & A & B & C).
  split; [exact A|]. split; [exact B|]. intros s' w' x' t' dt' k E.
  exact (proj2 (proj2 (proj2 (C s' w' x' t' dt' k E)))).
Qed.
Print Assumptions C70_adaptive.
Example C70_example : (0 < rk_error_order rk_ck54)%nat /\ (0 < rk_error_order rk_f78)%nat.
Proof. cbn; lia. Qed.

(** ** C71: is the error of a quadrature x' = g(t) seen by the controller?  Not with fehlberg78:
    every step is accepted and the step size multiplied by 4.5, for every g and every tolerance. *)
Theorem C71_fehlberg78_refuted : forall eps I (idx : list I) (g : R -> I -> R) (cfg : err_cfg (RNum eps)) c x t dt,
  (0 <= eps)%R ->
  exists c' x',
  ck_try (N := RNum eps) idx rpow (fun _ s => g s) (rk_estep (N := RNum eps) (fun _ s => g s) rk_f78)
    (Z.of_nat (rk_error_order rk_f78)) (Z.of_nat (rk_order rk_f78)) cfg 0%R c x t dt
  = (c', x', (t + dt)%R, (dt * (9 / 2))%R, true).
Proof. exact f78_blind. Qed.
Print Assumptions C71_fehlberg78_refuted.
(** With g = 9 t^8 and dt = 1 the method itself is not exact, so there is an error to see. *)
Example C71_example :
  let g := fun (_ : unit -> Q) (s : Q) (_ : unit) => Qred (9 * s * s * s * s * s * s * s * s) in
  let '(_, y, e) := rk_estep (N := Q0) g rk_f78 (fun _ _ => 0%Q) (fun _ => 0%Q) (g (fun _ => 0%Q) 0%Q) 0%Q 1%Q in
  Qeq_bool (y tt) 1 = false /\ Qeq_bool (e tt) 0 = true.
Proof. vm_compute. auto. Qed.

(** ** C72: continuing from another state without reset() does use the cached derivative of the
    old state: dopri5 for x' = x, one step from 1, then a step from 0 (the exact result is 0). *)
Theorem C72_stale_refuted :
  let s1 := fst (fst (fsal_do_step (N := Q0) q_exp (dopri5_fstep_noerr (N := Q0) q_exp) true
              (mkFsal (N := Q0) (fun _ _ => 0%Q) (fun _ => 0%Q) true) false (fun _ => 1%Q) 0%Q 1%Q)) in
  let y2 := snd (fst (fsal_do_step (N := Q0) q_exp (dopri5_fstep_noerr (N := Q0) q_exp) true s1 false (fun _ => 0%Q) 0%Q 1%Q)) in
  let y3 := snd (fst (fsal_do_step (N := Q0) q_exp (dopri5_fstep_noerr (N := Q0) q_exp) true (fsal_reset s1) false (fun _ => 0%Q) 0%Q 1%Q)) in
  Qeq_bool (y2 tt) 0 = false /\ y3 tt = 0%Q.
Proof. vm_compute. auto. Qed.
Print Assumptions C72_stale_refuted.

(** * controlled_runge_kutta with matrix states: C117 *)
From Coq Require Import QArith Qabs ZArith List Bool Lia Reals Lra.
From Verif Require Import M_Num M_Sign M_RK M_CtrlRK M_Ublas S_RK S_Real S_CtrlRK S_Ublas P_R P_CtrlRKR P_Ublas X_Inst.
Import ListNotations.
Local Open Scope R_scope.

(** What is checked: the fractions of the tolerance used up in a row are added. *)
Theorem C117_exact : forall eps rows cols S sys
    (estep : S -> (nat * nat -> R) -> (nat * nat -> R) -> R -> R -> S * (nat * nat -> R) * (nat * nat -> R)) eo so (cfg : err_cfg (RNum eps)) max_dt
    c x t dt c' x' t' dt' ok,
  good_tol (eps_abs cfg) (eps_rel cfg) (a_x cfg) (a_dxdt cfg) ->
  vs_try (N := RNum eps) (@mat_norm (RNum eps) rows cols) rpow sys estep eo so cfg max_dt c x t dt = (c', x', t', dt', ok) ->
  let e := snd (estep (ck_st c) x (sys x t) t dt) in
  ok = true <-> (max_dt = 0 \/ dir dt * (dt - max_dt) <= eps)
    /\ rows_within rows cols (eps_abs cfg) (eps_rel cfg) (a_x cfg) (a_dxdt cfg) x (sys x t) e dt.
Proof.
  intros eps rows cols S sys estep eo so cfg max_dt c x t dt c' x' t' dt' ok Ht H.
  exact (try_exact eps rows cols sys estep eo so cfg max_dt Ht c x t dt c' x' t' dt' ok H).
Qed.
Print Assumptions C117_exact.

(** The full statement of the property is [ok = true <-> within the limit /\ within_tol (elements rows cols) ...]
    as proved for one-dimensional containers (C23).  Missing: a step within the tolerance is accepted only if
    every element uses at most 1/cols of it. *)
Lemma partial eps rows cols S sys
    (estep : S -> (nat * nat -> R) -> (nat * nat -> R) -> R -> R -> S * (nat * nat -> R) * (nat * nat -> R)) eo so (cfg : err_cfg (RNum eps)) max_dt
    c x t dt c' x' t' dt' ok :
  good_tol (eps_abs cfg) (eps_rel cfg) (a_x cfg) (a_dxdt cfg) ->
  vs_try (N := RNum eps) (@mat_norm (RNum eps) rows cols) rpow sys estep eo so cfg max_dt c x t dt = (c', x', t', dt', ok) ->
  let e := snd (estep (ck_st c) x (sys x t) t dt) in
  (ok = true -> within_tol (elements rows cols) (eps_abs cfg) (eps_rel cfg) (a_x cfg) (a_dxdt cfg) x (sys x t) e dt)
  /\ (max_dt = 0 \/ dir dt * (dt - max_dt) <= eps ->
      within_tol (elements rows cols) (eps_abs cfg) (eps_rel cfg) (a_x cfg) (a_dxdt cfg) x (sys x t) (fun i => INR cols * e i) dt ->
      ok = true).
Proof.
  intros Ht H. cbv zeta. pose proof (try_exact eps rows cols sys estep eo so cfg max_dt Ht c x t dt c' x' t' dt' ok H) as E. cbv zeta in E. split.
  - intro K. apply E in K. exact (rows_safe eps rows cols cfg Ht _ _ _ _ (proj2 K)).
  - intros L W. apply E. split; [exact L|]. exact (rows_enough eps rows cols cfg Ht _ _ _ _ W).
Qed.
Theorem C117_partial : forall eps rows cols S sys
    (estep : S -> (nat * nat -> R) -> (nat * nat -> R) -> R -> R -> S * (nat * nat -> R) * (nat * nat -> R)) eo so (cfg : err_cfg (RNum eps)) max_dt
    c x t dt c' x' t' dt' ok,
  good_tol (eps_abs cfg) (eps_rel cfg) (a_x cfg) (a_dxdt cfg) ->
  vs_try (N := RNum eps) (@mat_norm (RNum eps) rows cols) rpow sys estep eo so cfg max_dt c x t dt = (c', x', t', dt', ok) ->
  let e := snd (estep (ck_st c) x (sys x t) t dt) in
  (ok = true -> within_tol (elements rows cols) (eps_abs cfg) (eps_rel cfg) (a_x cfg) (a_dxdt cfg) x (sys x t) e dt)
  /\ (max_dt = 0 \/ dir dt * (dt - max_dt) <= eps ->
      within_tol (elements rows cols) (eps_abs cfg) (eps_rel cfg) (a_x cfg) (a_dxdt cfg) x (sys x t) (fun i => INR cols * e i) dt ->
      ok = true).
Proof. exact partial. Qed.
Print Assumptions C117_partial.

(** Matrices with one column are treated as vectors are. *)
Lemma column eps rows S sys
    (estep : S -> (nat * nat -> R) -> (nat * nat -> R) -> R -> R -> S * (nat * nat -> R) * (nat * nat -> R)) eo so (cfg : err_cfg (RNum eps)) max_dt
    c x t dt c' x' t' dt' ok :
  good_tol (eps_abs cfg) (eps_rel cfg) (a_x cfg) (a_dxdt cfg) ->
  vs_try (N := RNum eps) (@mat_norm (RNum eps) rows 1) rpow sys estep eo so cfg max_dt c x t dt = (c', x', t', dt', ok) ->
  let e := snd (estep (ck_st c) x (sys x t) t dt) in
  ok = true <-> (max_dt = 0 \/ dir dt * (dt - max_dt) <= eps)
    /\ within_tol (elements rows 1) (eps_abs cfg) (eps_rel cfg) (a_x cfg) (a_dxdt cfg) x (sys x t) e dt.
Proof.
  intros Ht H. cbv zeta. pose proof (try_exact eps rows 1 sys estep eo so cfg max_dt Ht c x t dt c' x' t' dt' ok H) as E. cbv zeta in E.
  destruct (partial eps rows 1 S sys estep eo so cfg max_dt c x t dt c' x' t' dt' ok Ht H) as [P1 P2]. cbv zeta in P2. split.
  - intro K. split; [exact (proj1 (proj1 E K))|exact (P1 K)].
  - intros [L W]. apply (P2 L). intros i Hi. change (INR 1) with 1. rewrite Rmult_1_l. exact (W i Hi).
Qed.
Theorem C117_one_column : forall eps rows S sys
    (estep : S -> (nat * nat -> R) -> (nat * nat -> R) -> R -> R -> S * (nat * nat -> R) * (nat * nat -> R)) eo so (cfg : err_cfg (RNum eps)) max_dt
    c x t dt c' x' t' dt' ok,
  good_tol (eps_abs cfg) (eps_rel cfg) (a_x cfg) (a_dxdt cfg) ->
  vs_try (N := RNum eps) (@mat_norm (RNum eps) rows 1) rpow sys estep eo so cfg max_dt c x t dt = (c', x', t', dt', ok) ->
  let e := snd (estep (ck_st c) x (sys x t) t dt) in
  ok = true <-> (max_dt = 0 \/ dir dt * (dt - max_dt) <= eps)
    /\ within_tol (elements rows 1) (eps_abs cfg) (eps_rel cfg) (a_x cfg) (a_dxdt cfg) x (sys x t) e dt.
Proof. exact column. Qed.
Print Assumptions C117_one_column.

(** A stepper whose error estimate is dt in every element, tolerance 2. *)
Definition r_estep (_ : unit) (x dx : nat * nat -> R) (t dt : R) : unit * (nat * nat -> R) * (nat * nat -> R) := (tt, x, fun _ => dt).
Definition r_cfg eps : err_cfg (RNum eps) := mkErrCfg (N := RNum eps) 2 0 1 1.
Lemma r_cfg_ok eps : good_tol (eps_abs (r_cfg eps)) (eps_rel (r_cfg eps)) (a_x (r_cfg eps)) (a_dxdt (r_cfg eps)).
Proof. unfold good_tol, r_cfg. cbn [eps_abs eps_rel a_x a_dxdt]. repeat split; lra. Qed.
Lemma rejected eps : exists c' x' t' dt', vs_try (N := RNum eps) (@mat_norm (RNum eps) 1 2) rpow (fun _ _ _ => 0) r_estep 4 5 (r_cfg eps) 0
    (mkCk (N := RNum eps) tt (fun _ => 0) (fun _ => 0) (fun _ => 0)) (fun _ => 0) 0 (3/2)%R = (c', x', t', dt', false).
Proof.
  destruct (vs_try (N := RNum eps) (@mat_norm (RNum eps) 1 2) rpow (fun _ _ _ => 0) r_estep 4 5 (r_cfg eps) 0
    (mkCk (N := RNum eps) tt (fun _ => 0) (fun _ => 0) (fun _ => 0)) (fun _ => 0) 0 (3/2)%R) as [[[[c' x'] t'] dt'] [|]] eqn:E; [|eauto].
  exfalso. destruct (proj1 (C117_exact eps 1 2 unit _ _ _ _ _ _ _ _ _ _ _ _ _ _ _ (r_cfg_ok eps) E) eq_refl) as [_ Q].
  specialize (Q 0%nat ltac:(lia)). revert Q. unfold sumn, allowed, r_cfg, r_estep. cbn [eps_abs eps_rel a_x a_dxdt snd seq map rsum fold_right].
  rewrite (Rabs_right (3/2)) by lra. rewrite Rabs_R0. change (carrier (RNum eps)) with R in *. lra.
Qed.
Theorem C117_refuted : forall eps, exists rows cols S sys
    (estep : S -> (nat * nat -> R) -> (nat * nat -> R) -> R -> R -> S * (nat * nat -> R) * (nat * nat -> R)) eo so (cfg : err_cfg (RNum eps))
    c x t dt c' x' t' dt',
  good_tol (eps_abs cfg) (eps_rel cfg) (a_x cfg) (a_dxdt cfg)
  /\ vs_try (N := RNum eps) (@mat_norm (RNum eps) rows cols) rpow sys estep eo so cfg 0 c x t dt = (c', x', t', dt', false)
  /\ within_tol (elements rows cols) (eps_abs cfg) (eps_rel cfg) (a_x cfg) (a_dxdt cfg) x (sys x t) (snd (estep (ck_st c) x (sys x t) t dt)) dt.
Proof.
  intro eps. destruct (rejected eps) as (c' & x' & t' & dt' & E). exists 1%nat, 2%nat, unit, (fun _ _ _ => 0), r_estep, 4%Z, 5%Z, (r_cfg eps).
  eexists _, _, _, _, c', x', t', dt'. split; [apply r_cfg_ok|]. split; [exact E|].
  intros i _. unfold r_estep, r_cfg. cbn [snd eps_abs eps_rel a_x a_dxdt]. rewrite (Rabs_right (3/2)) by lra. lra.
Qed.
Print Assumptions C117_refuted.

(** Cash-Karp on a 1 x 2 matrix with x' = 5 t^4 in both elements, dt = 1/2, no rel_error: the error estimate is the
    same in both; the tolerance 4/3 of it is met in each element, yet the step is rejected; with twice the estimate
    it is accepted.  With the norm of range_algebra both are accepted. *)
Local Open Scope Q_scope.
Definition q_mat (x : nat * nat -> Q) (t : Q) : nat * nat -> Q := fun _ => Qred (5 * t * t * t * t).
Definition q_est : Q := Qred (Qabs (snd (rk_estep (N := Q0) q_mat rk_ck54 (fun _ _ => 0) (fun _ => 0) (q_mat (fun _ => 0) 0) 0 (1 # 2)) (0, 0)%nat)).
Definition q_mat_try norm (tol : Q) : bool :=
  snd (vs_try (N := Q0) norm (fun _ _ => 1 # 2) q_mat (rk_estep (N := Q0) q_mat rk_ck54) 4 5 (mkErrCfg (N := Q0) tol 0 1 1) 0
    (mkCk (N := Q0) (fun _ _ => 0) (fun _ => 0) (fun _ => 0) (fun _ => 0)) (fun _ => 0) 0 (1 # 2)).
Example C117_ex :
  Qle_bool q_est 0 = false
  /\ q_mat_try (@mat_norm Q0 1 2) (Qred ((4 # 3) * q_est)) = false /\ q_mat_try (@mat_norm Q0 1 2) (Qred (2 * q_est)) = true
  /\ q_mat_try (@mat_norm Q0 2 1) (Qred ((4 # 3) * q_est)) = true
  /\ q_mat_try (norm_inf (N := Q0) (elements 1 2)) (Qred ((4 # 3) * q_est)) = true.
Proof. vm_compute. auto. Qed.

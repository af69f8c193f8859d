(** * make_controlled: C118, C119 *)
From Coq Require Import QArith ZArith List Bool Arith Lia Reals Lra.
From Verif Require Import M_Num M_Run M_RK M_CtrlRK M_Midpoint M_Adams M_AABM M_Pid M_Integrate M_Factory S_RK S_Real S_Adams S_AABM S_Pid S_Ctrl S_CtrlRK
  P_R P_BS P_Adams P_AABM P_AABM2 P_CABM P_CtrlRKR P_CtrlRKT P_Integrate P_Pid P_Factory T_AABM X_Inst.
Import ListNotations.
Local Open Scope R_scope.

(** ** C118: no limit of the step unless one is asked for *)

(** Runge-Kutta steppers: without max_dt, or with max_dt = 0, a step of any length is accepted if and only if its
    error estimate is within the tolerance. *)
Lemma no_limit_explicit eps I (idx : list I) (sys : (I -> R) -> R -> (I -> R)) n abs rel c x (t dt : R) c' x' t' dt' ok :
  0 < abs -> 0 <= rel ->
  made_explicit (N := RNum eps) idx rpow sys n abs rel 0 c x t dt = (c', x', t', dt', ok) ->
  ok = true <-> within_tol idx abs rel 1 1 x (sys x t) (snd (rk_estep (N := RNum eps) sys n (ck_st c) x (sys x t) t dt)) dt.
Proof.
  intros H1 H2 H. unfold made_explicit in H.
  pose proof (made_tol eps abs rel H1 H2) as Ht.
  destruct (outcome_tol eps idx _ _ (made_cfg (N := RNum eps) abs rel) 0 _ _ _ _ _ _ Ht
          (proj1 (ck_outcome eps idx sys _ _ (made_cfg (N := RNum eps) abs rel) 0 (rk_estep (N := RNum eps) sys n) c x t dt c' x' t' dt' ok H))) as [T1 T2].
  split; [exact T1|]. intro W. destruct ok; [reflexivity|exfalso].
  destruct (T2 eq_refl (or_introl eq_refl)) as (i & Hi & Q). exact (Rlt_not_le _ _ Q (W i Hi)).
Qed.
Theorem C118_explicit : forall eps I (idx : list I) (sys : (I -> R) -> R -> (I -> R)) n abs rel c x (t dt : R) c' x' t' dt' ok,
  0 < abs -> 0 <= rel ->
  made_explicit (N := RNum eps) idx rpow sys n abs rel 0 c x t dt = (c', x', t', dt', ok) ->
  ok = true <-> within_tol idx abs rel 1 1 x (sys x t) (snd (rk_estep (N := RNum eps) sys n (ck_st c) x (sys x t) t dt)) dt.
Proof. exact no_limit_explicit. Qed.
Print Assumptions C118_explicit.

Lemma no_limit_dopri5 eps I (idx : list I) (sys : (I -> R) -> R -> (I -> R)) abs rel rs (c : ckf (RNum eps) I (rkmem (RNum eps) I)) x (t dt : R) c' x' t' dt' ok :
  0 < abs -> 0 <= rel -> cf_first c = true \/ cf_dxdt c = sys x t ->
  made_dopri5 (N := RNum eps) idx rpow sys abs rel 0 rs c x t dt = (c', x', t', dt', ok) ->
  ok = true <-> within_tol idx abs rel 1 1 x (sys x t)
    (snd (dopri5_fstep (N := RNum eps) sys (mkAlias false false) (cf_st c) x (sys x t) t dt)) dt.
Proof.
  intros H1 H2 Hc H. unfold made_dopri5 in H.
  pose proof (made_tol eps abs rel H1 H2) as Ht.
  destruct (ckf_outcome eps idx sys _ _ (made_cfg (N := RNum eps) abs rel) 0 (dopri5_fstep (N := RNum eps) sys (mkAlias false false)) rs c x t dt c' x' t' dt' ok H) as (dx & Hdx & Oc & _).
  rewrite (Hdx Hc) in Oc.
  destruct (outcome_tol eps idx _ _ (made_cfg (N := RNum eps) abs rel) 0 _ _ _ _ _ _ Ht Oc) as [T1 T2].
  split; [exact T1|]. intro W. destruct ok; [reflexivity|exfalso].
  destruct (T2 eq_refl (or_introl eq_refl)) as (i & Hi & Q). exact (Rlt_not_le _ _ Q (W i Hi)).
Qed.
Theorem C118_dopri5 : forall eps I (idx : list I) (sys : (I -> R) -> R -> (I -> R)) abs rel rs (c : ckf (RNum eps) I (rkmem (RNum eps) I)) x (t dt : R) c' x' t' dt' ok,
  0 < abs -> 0 <= rel -> cf_first c = true \/ cf_dxdt c = sys x t ->
  made_dopri5 (N := RNum eps) idx rpow sys abs rel 0 rs c x t dt = (c', x', t', dt', ok) ->
  ok = true <-> within_tol idx abs rel 1 1 x (sys x t)
    (snd (dopri5_fstep (N := RNum eps) sys (mkAlias false false) (cf_st c) x (sys x t) t dt)) dt.
Proof. exact no_limit_dopri5. Qed.
Print Assumptions C118_dopri5.

(** A step of length 100 for x' = 0 meets any tolerance and is accepted. *)
Example C118_ex : forall eps (c : ck (RNum eps) unit (rkmem (RNum eps) unit)), exists c' x' t' dt',
  made_explicit (N := RNum eps) [tt] rpow (fun _ _ _ => 0) rk_ck54 (1/1000)%R 0 0 c (fun _ => 1) 0 100 = (c', x', t', dt', true).
Proof.
  intros eps c. destruct (made_explicit (N := RNum eps) [tt] rpow (fun _ _ _ => 0) rk_ck54 (1/1000)%R 0 0 c (fun _ => 1) 0 100) as [[[[c' x'] t'] dt'] ok] eqn:E.
  exists c', x', t', dt'. assert (Ok : ok = true); [|now rewrite Ok].
  refine (proj2 (no_limit_explicit eps unit [tt] (fun _ _ _ => 0) rk_ck54 (1/1000)%R 0 c (fun _ => 1) 0 100 c' x' t' dt' ok ltac:(lra) ltac:(lra) E) _).
  intros i _. match goal with |- Rabs ?v <= _ => assert (Z : v = 0) end; [|rewrite Z, Rabs_R0; lra].
  cbn. ring.
Qed.

(** adaptive_adams_bashforth_moulton: every attempt longer than 10/9 is rejected, whatever its error; with
    max_dt = 0 every forward attempt is, and the next step is not positive. *)
Definition sound {eps I} (ov : nat) (s : cabm (RNum eps) I (pid (RNum eps) I)) : Prop :=
  aabm_obj ov (cm_coeff s) /\ length (cm_xerr s) = 4%nat /\ rb_wf 3 (p_err (cm_adj s)) /\ rb_wf 3 (p_dt (cm_adj s)).
Lemma adams_limit eps I ov (pw : R -> R -> R) (at_ : R -> R) (idx : list I) abs rel max_dt sys (s : cabm (RNum eps) I (pid (RNum eps) I)) x (t dt : R) :
  (1 <= ov)%nat -> sound ov s -> 0 < dt -> match max_dt with Some m => m | None => 1 end < 9/10 * dt ->
  exists s' (dt' : R), made_abm_try (N := RNum eps) ov pw at_ idx abs rel max_dt sys s x t dt = Ok (s', false, x, t, dt')
    /\ dt' <= match max_dt with Some m => m | None => 1 end.
Proof.
  intros Hov (H1 & H2 & H3 & H4) Hd Hm.
  exact (made_rejects eps pw at_ idx ov Hov abs rel max_dt sys s x t dt (obj_shape ov Hov _ H1) H2 H3 H4 Hd Hm).
Qed.
Theorem C118_adams_limit : forall eps I ov pw at_ (idx : list I) abs rel sys (s : cabm (RNum eps) I (pid (RNum eps) I)) x (t dt : R),
  (1 <= ov)%nat -> sound ov s -> 10/9 < dt ->
  exists s' (dt' : R), made_abm_try (N := RNum eps) ov pw at_ idx abs rel None sys s x t dt = Ok (s', false, x, t, dt') /\ dt' <= 1.
Proof.
  intros eps I ov pw at_ idx abs rel sys s x t dt Hov Hs Hd.
  exact (adams_limit eps I ov pw at_ idx abs rel None sys s x t dt Hov Hs ltac:(lra) ltac:(lra)).
Qed.
Print Assumptions C118_adams_limit.
Theorem C118_adams_zero : forall eps I ov pw at_ (idx : list I) abs rel sys (s : cabm (RNum eps) I (pid (RNum eps) I)) x (t dt : R),
  (1 <= ov)%nat -> sound ov s -> 0 < dt ->
  exists s' (dt' : R), made_abm_try (N := RNum eps) ov pw at_ idx abs rel (Some 0) sys s x t dt = Ok (s', false, x, t, dt') /\ dt' <= 0.
Proof.
  intros eps I ov pw at_ idx abs rel sys s x t dt Hov Hs Hd.
  exact (adams_limit eps I ov pw at_ idx abs rel (Some 0) sys s x t dt Hov Hs Hd ltac:(cbv beta iota; lra)).
Qed.
Print Assumptions C118_adams_zero.

(** make_controlled( 1/1000 , 0 , adaptive_adams_bashforth_moulton< 3 >() ) on x' = 0, exact for every step: the step
    of length 100 is rejected. *)
Lemma made_sound eps I ov (st : aac (RNum eps) I) fresh : (1 <= ov)%nat ->
  aac_ctor (N := RNum eps) (I := I) ov (mem_beta (RNum eps) ov) (mem_phi (RNum eps) I ov) (mem_g (RNum eps) ov) (mem_time (RNum eps) ov) (mem_c (RNum eps) ov) = Ok fresh ->
  sound ov (made_abm (N := RNum eps) fresh st (repeat (fun _ => 0) 4) (new_pid (N := RNum eps) (repeat (fun _ => 0) 3) (repeat (0 : RNum eps) 3))).
Proof.
  intros Hov E. repeat split; try (cbn; lia). cbn [made_abm cm_coeff]. exact (ob_ctor ov _ _ _ _ _ _ (mem_ok (RNum eps) I ov) E).
Qed.
Theorem C118_adams_refuted : forall eps, exists (s s' : cabm (RNum eps) unit (pid (RNum eps) unit)) (dt' : R),
  sound 3 s
  /\ made_abm_try (N := RNum eps) 3 rpow atan [tt] (1/1000)%R 0 None (fun _ _ _ => 0) s (fun _ => 1) 0 100 = Ok (s', false, (fun _ => 1), 0, dt').
Proof.
  intro eps.
  destruct (ctor_ok (N := RNum eps) 3 ltac:(lia) (mem_beta (RNum eps) 3) (mem_phi (RNum eps) unit 3) (mem_g (RNum eps) 3) (mem_time (RNum eps) 3) (mem_c (RNum eps) 3) (mem_ok (RNum eps) unit 3)) as (c & E & _).
  pose proof (made_sound eps unit 3 c c ltac:(lia) E) as S.
  destruct (C118_adams_limit eps unit 3 rpow atan [tt] (1/1000)%R 0 (fun _ _ _ => 0) _ (fun _ => 1) 0 100 ltac:(lia) S ltac:(lra)) as (s' & dt' & H & _).
  eexists _, s', dt'. split; [exact S|exact H].
Qed.
Print Assumptions C118_adams_refuted.

(** ** C119: the controller continues with the given stepper *)

(** The controller does not depend on the stepper it was made from. *)
Local Open Scope Q_scope.
Local Open Scope res_scope.
Definition q_new : res (aac Q0 unit) :=
  aac_ctor (N := Q0) (I := unit) 3 (mem_beta Q0 3) (mem_phi Q0 unit 3) (mem_g Q0 3) (mem_time Q0 3) (mem_c Q0 3).
Definition q_cubic (_ : vec Q0 unit) (t : Q) : vec Q0 unit := fun _ => t * t * t.
(** Two steps of length 1/2 with the stepper, from x(0) = 0. *)
Definition q_used : res (aac Q0 unit * vec Q0 unit) :=
  (let! s := q_new in
   let! (s1, x1, _, _) := aabm_do_step (N := Q0) 3 q_cubic s (fun _ => 0%Q) 0 (1 # 2) in
   let! (s2, x2, _, _) := aabm_do_step (N := Q0) 3 q_cubic s1 x1 (1 # 2) (1 # 2) in
   Ok (s2, x2)).
(** The third step, of length 1/2: by the stepper itself, and by the controller made from it (with a [pow] and an
    [atan] that accept every step; they have no other influence on the result). *)
Definition q_third : res (Q * Q * bool) :=
  (let! f := q_new in
   let! (s, x) := q_used in
   let! (_, x1, _, _) := aabm_do_step (N := Q0) 3 q_cubic s x 1 (1 # 2) in
   let! (_, ok, x2, _, _) := made_abm_try (N := Q0) 3 (fun _ _ => 1%Q) (fun _ => 0%Q) [tt] 1 0 None q_cubic
      (made_abm (N := Q0) f s (repeat (fun _ => 0%Q) 4) (new_pid (N := Q0) (repeat (fun _ => 0%Q) 3) (repeat 0%Q 3))) x 1 (1 # 2) in
   Ok (Qred (x1 tt), Qred (x2 tt), ok)).
Lemma rb_inv {A B} (m : res A) (k : A -> res B) b : rbind m k = Ok b -> exists a, m = Ok a /\ k a = Ok b.
Proof. destruct m; cbn [rbind]; intro H; try discriminate H. eauto. Qed.
Lemma third : q_third = Ok (83 # 64, 11 # 8, true).
Proof. vm_compute. reflexivity. Qed.
Theorem C119_refuted : exists fresh s x t dt s1 x1 e l s2 x2 t2 dt2,
  q_new = Ok fresh /\ aabm_obj (N := Q0) 3 s
  /\ aabm_do_step (N := Q0) 3 q_cubic s x t dt = Ok (s1, x1, e, l)
  /\ made_abm_try (N := Q0) 3 (fun _ _ => 1%Q) (fun _ => 0%Q) [tt] 1 0 None q_cubic
      (made_abm (N := Q0) fresh s (repeat (fun _ => 0%Q) 4) (new_pid (N := Q0) (repeat (fun _ => 0%Q) 3) (repeat 0%Q 3))) x t dt
     = Ok (s2, true, x2, t2, dt2)
  /\ ~ x1 tt == x2 tt.
Proof.
  destruct (rb_inv _ _ _ third) as (f & Ef & T). cbv beta in T. clear -Ef T.
  destruct (rb_inv _ _ _ T) as ([s x] & Eu & T1). clear T. cbv beta iota in T1.
  destruct (rb_inv _ _ _ T1) as ([[[s1 x1] e] l] & E1 & T2). clear T1. cbv beta iota in T2.
  destruct (rb_inv _ _ _ T2) as ([[[[s2 ok] x2] t2] dt2] & E2 & T3). clear T2. cbv beta iota in T3.
  injection T3 as T1 T2 T3. subst ok.
  exists f, s, x, 1, (1 # 2), s1, x1, e, l, s2, x2, t2, dt2.
  refine (conj Ef (conj _ (conj E1 (conj E2 _)))).
  - destruct (rb_inv _ _ _ Eu) as (f' & Ef' & U). cbv beta in U.
    destruct (rb_inv _ _ _ U) as ([[[a1 y1] e1] l1] & D1 & U1). cbv beta iota in U1.
    destruct (rb_inv _ _ _ U1) as ([[[a2 y2] e2] l2] & D2 & U2). cbv beta iota in U2.
    injection U2 as <- <-.
    exact (ob_step (N := Q0) 3 _ _ _ _ _ _ _ _ _ (ob_step (N := Q0) 3 _ _ _ _ _ _ _ _ _ (ob_ctor (N := Q0) 3 _ _ _ _ _ _ (mem_ok Q0 unit 3) Ef') D1) D2).
  - intro Q. apply Qred_complete in Q. rewrite T1, T2 in Q. discriminate Q.
Qed.
Print Assumptions C119_refuted.

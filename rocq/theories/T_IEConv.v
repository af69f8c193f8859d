(** Convergence of implicit_euler. *)
From Coq Require Import List Arith ZArith Reals Lia Lra.
From Verif Require Import M_Num M_RK M_LU M_Implicit S_LU S_Implicit S_RosConv S_IEConv P_LU P_Implicit P_IEConv T_RosConv.
Import ListNotations.
Local Open Scope R_scope.
Local Notation S := Datatypes.S.

(** ** C137 *)
Theorem C137_implicit_euler : forall (eps : R) n f jac (epsilon : R) (T : R -> Prop) M L H B K y,
  0 <= M -> 0 <= L -> 0 <= H -> M * H <= 1 / 2 -> 0 <= B -> 0 <= K -> ie_system n T M L f jac -> ie_solution n T B K f y ->
  forall t0 h D x0 m, Rabs h <= H -> 0 <= D -> near_n n D x0 (y t0) -> (forall k, (k <= m)%nat -> T (t0 + INR k * h)) ->
  sqrt (INR n) * (2 * (Rabs h * (B + L * (ie_error M L H B K D (Rabs h) (INR m * Rabs h) + B * Rabs h)))) <= epsilon ->
  exists xs : nat -> nat -> R, xs O = x0 /\
  (forall k, (k < m)%nat -> exists e, forall fuel,
     ie_do_step (N := RNum eps) n sqrt f jac epsilon fuel (xs k) (t0 + INR k * h)%R h = ([e], IDone (N := RNum eps) (xs (S k)))) /\
  forall k, (k <= m)%nat -> near_n n (ie_error M L H B K D (Rabs h) (INR k * Rabs h)) (xs k) (y (t0 + INR k * h)).
Proof.
  intros eps n f jac epsilon T M L H B K y HM HL HH Hs HB HK Hsys Hsol t0 h D x0 m Hh HD Hx.
  exact (ie_run eps n f jac epsilon T M L H HM HL HH Hs Hsys B K HB HK y Hsol t0 h D x0 Hh HD Hx m).
Qed.
Print Assumptions C137_implicit_euler.

(** ** Example: x' = cos t - (sin x - sin (sin t)), with the solution sin t, from 0 to 1. *)
Definition ie_f (x : nat -> R) (t : R) : nat -> R := fun k => cos t - (sin (x k) - sin (sin t)).
Definition ie_jac (x : nat -> R) (_ : R) : nat -> nat -> R := fun _ _ => - cos (x O).
Definition ie_y (t : R) : nat -> R := fun _ => sin t.
Lemma ie_sys : ie_system 1 (fun _ => True) 1 1 ie_f ie_jac.
Proof.
  split.
  - intros x z t D _ Hx k Hk. specialize (Hx k Hk). unfold ie_f.
    replace (cos t - (sin (x k) - sin (sin t)) - (cos t - (sin (z k) - sin (sin t)))) with (- (sin (x k) - sin (z k))) by ring.
    rewrite Rabs_Ropp. pose proof (sin_lip (x k) (z k)). lra.
  - intros x t u r _ Hu k Hk. unfold mvec, ie_jac. cbn [sigma]. specialize (Hu O ltac:(lia)).
    rewrite Rplus_0_l, Rabs_mult, Rabs_Ropp. apply Rmult_le_compat; auto using Rabs_pos. pose proof (COS_bound (x O)). apply Rabs_le. lra.
Qed.
Lemma ie_fy t k : ie_f (ie_y t) t k = cos t.
Proof. unfold ie_f, ie_y. ring. Qed.
Lemma ie_sol : ie_solution 1 (fun _ => True) 1 1 ie_f ie_y.
Proof.
  split; [auto| | |].
  - intros t k _ _. rewrite ie_fy. apply derivable_pt_lim_sin.
  - intros t k _ _. rewrite ie_fy. pose proof (COS_bound t). apply Rabs_le. lra.
  - intros s t k _ _ _. rewrite !ie_fy. rewrite <- (sin_shift s), <- (sin_shift t). eapply Rle_trans; [apply sin_lip|].
    replace (PI / 2 - s - (PI / 2 - t)) with (- (s - t)) by ring. rewrite Rabs_Ropp. lra.
Qed.

(** With the default accuracy 10^-6 of the Newton iteration. *)
Example C137_example : exists h0 C, 0 < h0 /\ forall h m, 0 < h <= h0 -> INR m * h <= 1 ->
  exists xs : nat -> nat -> R, xs O = ie_y 0 /\
  (forall k, (k < m)%nat -> exists e, forall fuel,
     ie_do_step (N := RNum 0) 1 sqrt ie_f ie_jac (/ 10 ^ 6) fuel (xs k) (0 + INR k * h)%R h = ([e], IDone (N := RNum 0) (xs (S k)))) /\
  forall k, (k <= m)%nat -> Rabs (xs k O - sin (INR k * h)) <= C * h.
Proof.
  pose proof (exp_pos 2) as Pe. exists (/ 10 ^ 6 / (3 + 5 * exp 2)), (5 * exp 2).
  assert (P6 : 0 < / 10 ^ 6) by (apply Rinv_0_lt_compat, pow_lt; lra).
  split; [apply Rdiv_lt_0_compat; lra|]. intros h m Hh Hm.
  assert (Hh2 : h * (3 + 5 * exp 2) <= / 10 ^ 6).
  { apply Rle_trans with (/ 10 ^ 6 / (3 + 5 * exp 2) * (3 + 5 * exp 2)); [apply Rmult_le_compat_r; lra|]. right. field. lra. }
  assert (Q6 : / 10 ^ 6 <= 1) by (rewrite <- Rinv_1; apply Rinv_le_contravar; [lra|]; cbn [pow]; lra).
  assert (Hh3 : h <= 1 / 2) by nra.
  assert (Ea : Rabs h = h) by (apply Rabs_pos_eq; lra).
  assert (Er : forall a, 0 <= a <= 1 -> ie_error 1 1 (1 / 2) 1 1 0 h a <= 5 * exp 2 * h).
  { intros a Ha. unfold ie_error. replace (ie_growth 1 1 (1 / 2)) with 2 by (unfold ie_growth; field).
    replace (ie_const 1 1 (1 / 2) 1 1) with 5 by (unfold ie_const; field).
    assert (X1 : exp (2 * a) <= exp 2). { destruct (Req_dec a 1) as [->|Q]; [rewrite Rmult_1_r; lra|]. left. apply exp_increasing. lra. }
    assert (X2 : 0 <= 5 * h * a <= 5 * h) by (split; [apply Rmult_le_pos; lra|nra]).
    replace (5 * exp 2 * h) with (exp 2 * (5 * h)) by ring. apply Rmult_le_compat; [left; apply exp_pos|lra|exact X1|lra]. }
  destruct (C137_implicit_euler 0 1 ie_f ie_jac (/ 10 ^ 6) (fun _ => True) 1 1 (1 / 2) 1 1 ie_y
    ltac:(lra) ltac:(lra) ltac:(lra) ltac:(lra) ltac:(lra) ltac:(lra) ie_sys ie_sol 0 h 0 (ie_y 0) m) as (xs & E0 & Es & En).
  - lra.
  - lra.
  - intros k _. rewrite Rminus_diag_eq, Rabs_R0 by reflexivity. lra.
  - auto.
  - rewrite Ea. cbn [INR]. rewrite sqrt_1, Rmult_1_l. specialize (Er (INR m * h)).
    assert (0 <= INR m * h) by (apply Rmult_le_pos; [apply pos_INR|lra]). specialize (Er ltac:(lra)).
    assert (5 * exp 2 * h <= 5 * exp 2 * (1 / 2)) by (apply Rmult_le_compat_l; lra).
    set (er := ie_error 1 1 (1 / 2) 1 1 0 h (INR m * h)) in *.
    assert (Z : h * (1 + 1 * (er + 1 * h)) <= h * (3 / 2 + 5 / 2 * exp 2)) by (apply Rmult_le_compat_l; lra). lra.
  - exists xs. split; [exact E0|]. split; [exact Es|]. intros k Hk. specialize (En k Hk O ltac:(lia)). rewrite Ea, Rplus_0_l in En.
    eapply Rle_trans; [exact En|]. apply Er. split; [apply Rmult_le_pos; [apply pos_INR|lra]|].
    apply Rle_trans with (INR m * h); [apply Rmult_le_compat_r; [lra|now apply le_INR]|exact Hm].
Qed.

(** Order of convergence of rosenbrock4 on autonomous systems. *)
From Coq Require Import List Arith ZArith Reals Lia Lra FunctionalExtensionality.
From Verif Require Import M_Num M_Sign M_Run M_Plain M_RK M_Implicit S_Real S_LU S_RK S_BSeries S_Conv S_Integrate S_Grid S_Implicit S_RosConv
  P_R P_RKOrder P_Plain P_PlainR P_PlainA P_LU P_Implicit P_RosRun T_Butcher.
Import ListNotations.
Local Open Scope R_scope.
Local Notation S := Datatypes.S.

(** ** C136 *)
Theorem C136_rosenbrock4 : forall (eps : R) (n : nat) (M H : R), 0 <= M -> 0 <= H -> M * H <= 2 -> exists G E, 0 <= G /\ 0 <= E /\
  forall f jac dft F DF (y : R -> nat -> R) DD (T : R -> Prop), ros_system n f jac dft F DF ->
  (forall s u c, T s -> T u -> 0 <= c <= 1 -> T (s + c * (u - s))) ->
  taylor 4 M (fun v => exists t, T t /\ v = restrict (y t)) F DD -> ros_solves T F y ->
  (forall t u (k : fin n), T t -> DD (restrict (y t)) [u] k = DF (restrict (y t)) u k) ->
  (forall t h m, T t -> T (t + h) -> h <> 0 -> Rabs h <= H ->
     near_n n (E * Rabs h ^ 5 + Rabs h * ros_excess M (Rabs h)) (snd (ros_stp eps n f jac dft m (y t) t h)) (y (t + h)))
  /\ (ros_lipschitz M F DF ->
      forall (W : Type) (t0 tend dt D : R) x m (w : W) fuel tr,
      0 <= eps -> dt <> 0 -> 0 <= dir dt * (tend - t0) -> Rabs dt <= H -> 0 <= D -> near_n n D x (y t0) ->
      (forall t, span eps t0 tend (dir dt) t -> T t) ->
      (exists r, integrate_const (N := RNum eps) rec_obs (plain_step (ros_stp eps n f jac dft)) fuel m w x t0 tend dt = (tr, Ok r)) \/
      (exists r, integrate_adaptive_plain (N := RNum eps) rec_obs (plain_step (ros_stp eps n f jac dft)) fuel m w x t0 tend dt = (tr, Ok r)) \/
      (exists r N, integrate_n_steps (N := RNum eps) rec_obs (plain_step (ros_stp eps n f jac dft)) m w x t0 dt N = (tr, Ok r)
                /\ dir dt * (t0 + INR N * dt - tend) <= eps) ->
      forall x' t', In (x', t') (obs_of tr) ->
      near_n n (exp (G * Rabs (t' - t0)) * (D + (E * Rabs dt ^ 4 + ros_excess M (Rabs dt)) * Rabs (t' - t0))) x' (y t')).
Proof. exact ros_conv. Qed.
Print Assumptions C136_rosenbrock4.

(** ** Example: x_k' = sin x_k. *)
Section Sine.
Variable n : nat.
Definition sn_f (x : nat -> R) (_ : R) : nat -> R := fun k => sin (x k).
Definition sn_jac (x : nat -> R) (_ : R) : nat -> nat -> R := fun i j => if Nat.eqb i j then cos (x i) else 0.
Definition sn_F (v : fin n -> R) : fin n -> R := fun k => sin (v k).
Definition sn_DF (v u : fin n -> R) : fin n -> R := fun k => cos (v k) * u k.
Definition sn_D (v : fin n -> R) (l : list (fin n -> R)) : fin n -> R :=
  fun k => sin (v k + INR (length l) * (PI / 2)) * fold_right (fun u z => u k * z) 1 l.
Definition sn_y (t : R) : nat -> R := fun _ => sin_y t tt.

Lemma sn_system : ros_system n sn_f sn_jac (fun _ _ _ => 0) sn_F sn_DF.
Proof.
  split; [reflexivity| |reflexivity]. intros x t u k. unfold sn_DF. 
  pose proof (mvec_ident n u (proj1_sig k) (proj2_sig k)) as E. unfold mvec in *.
  rewrite (sigma_ext n _ (fun c => cos (x (proj1_sig k)) * (ident (proj1_sig k) c * u c))).
  - rewrite sigma_scal. now rewrite E.
  - intros c _. unfold sn_jac, ident. destruct (Nat.eqb (proj1_sig k) c); ring.
Qed.
Lemma sn_taylor p B : taylor p 1 B sn_F sn_D.
Proof.
  split.
  - intros y l l' a b u v i _. unfold sn_D. rewrite !app_length. cbn [length].
    assert (E : forall w, fold_right (fun u z => u i * z) 1 (l ++ w :: l')
        = w i * (fold_right (fun (u : fin n -> R) z => u i * z) 1 l * fold_right (fun u z => u i * z) 1 l')).
    { intro w. clear. induction l as [|x l IH]; cbn [app fold_right]; [ring|]. rewrite IH. ring. }
    rewrite !E. ring.
  - intros y l rs i _ _ F. unfold sn_D. rewrite Rabs_mult.
    assert (Z : 0 <= fold_right Rmult 1 rs /\ Rabs (fold_right (fun u z => u i * z) 1 l) <= fold_right Rmult 1 rs).
    { clear - F. induction F as [|r u rs l Hu F [IH1 IH2]]; cbn [fold_right]; [rewrite Rabs_R1; lra|].
      specialize (Hu i). pose proof (Rabs_pos (u i)). rewrite Rabs_mult. split; [apply Rmult_le_pos; lra|].
      apply Rmult_le_compat; auto using Rabs_pos. }
    destruct Z as [Z1 Z2]. apply Rmult_le_compat; auto using Rabs_pos.
    pose proof (SIN_bound (y i + INR (length l) * (PI / 2))). apply Rabs_le. lra.
  - intros y w r m i _ Hm Hw. unfold sn_F, sn_D. rewrite (sumn_ext m _ (fun k => sin (y i + INR k * (PI / 2)) * w i ^ k / INR (fact k))).
    + eapply Rle_trans; [apply sin_rem|]. apply Rmult_le_compat_l; [lra|]. apply pow_incr. split; [apply Rabs_pos|apply Hw].
    + intros k _. rewrite repeat_length. f_equal. f_equal. clear. induction k; [reflexivity|]. cbn [repeat fold_right pow]. now rewrite IHk.
Qed.
Lemma sn_solves T : ros_solves T sn_F sn_y.
Proof. intros t k Ht. exact (sin_solution T t tt Ht). Qed.
Lemma sin_lip a b : Rabs (sin a - sin b) <= Rabs (a - b).
Proof.
  pose proof (sin_lipschitz (fun _ => True) (fun _ => a) (fun _ => b) 0 (Rabs (a - b)) Logic.I (fun _ => Rle_refl _) tt) as Q. unfold sin_f in Q. lra.
Qed.
Lemma sn_lipschitz : ros_lipschitz 1 sn_F sn_DF.
Proof.
  split.
  - intros u v d Hd k. unfold sn_F. pose proof (sin_lip (u k) (v k)). specialize (Hd k). lra.
  - intros x u v k. unfold sn_DF. ring.
  - intros x u r Hr k. unfold sn_DF. rewrite Rabs_mult. apply Rmult_le_compat; auto using Rabs_pos.
    pose proof (COS_bound (x k)). apply Rabs_le. lra.
  - intros x z d u r Hd Hr k. unfold sn_DF. replace (cos (x k) * u k - cos (z k) * u k) with ((cos (x k) - cos (z k)) * u k) by ring.
    rewrite Rabs_mult. rewrite Rmult_1_l. apply Rmult_le_compat; auto using Rabs_pos.
    rewrite <- (sin_shift (x k)), <- (sin_shift (z k)). eapply Rle_trans; [apply sin_lip|].
    replace (PI / 2 - x k - (PI / 2 - z k)) with (- (x k - z k)) by ring. rewrite Rabs_Ropp. exact (Hd k).
Qed.
End Sine.

(** Runs of N steps over the times from 0 to 1: the error is of fourth order down to a multiple of 10^-15. *)
Example C136_example : forall n, exists C, 0 <= C /\ forall (dt : R) N m tr r, 0 < dt <= 1 -> INR N * dt <= 1 ->
  integrate_n_steps (N := RNum 0) rec_obs (plain_step (ros_stp 0 n sn_f sn_jac (fun _ _ _ => 0))) m tt (sn_y 0) 0%R dt N = (tr, Ok r) ->
  forall x' t', In (x', t') (obs_of tr) -> Rabs (t' - 0) <= 1 -> near_n n (C * (dt ^ 4 + 9 / 10 ^ 15)) x' (fun _ => 2 * atan (exp t')).
Proof.
  intro n. destruct (C136_rosenbrock4 0 n 1 1 ltac:(lra) ltac:(lra) ltac:(lra)) as (G & E & PG & PE & B).
  exists (exp G * (E + 1)). split; [apply Rmult_le_pos; [left; apply exp_pos|lra]|].
  intros dt N m tr r Hdt Hn R1 x' t' Hin Ht.
  destruct (B sn_f sn_jac (fun _ _ _ => 0) (sn_F n) (sn_DF n) sn_y (sn_D n) (fun _ => True) (sn_system n) (fun _ _ _ _ _ _ => Logic.I) (sn_taylor n 4 _) (sn_solves n _)) as [_ B2].
  { intros t u k _. unfold sn_D, sn_DF. cbn [length INR fold_right]. rewrite Rmult_1_l, Rmult_1_r. f_equal.
    rewrite Rplus_comm. rewrite cos_sin. reflexivity. }
  assert (Ed : dir dt = 1) by (destruct (dir_cases dt) as [[_ E0]|[E0 _]]; [exact E0|lra]).
  assert (Ea : Rabs dt = dt) by (apply Rabs_pos_eq; lra).
  specialize (B2 (sn_lipschitz n) unit 0 1 dt 0 (sn_y 0) m tt O tr (Rle_refl 0) ltac:(lra) ltac:(rewrite Ed; lra) ltac:(lra) (Rle_refl 0)
    ltac:(intros i _; rewrite !Rminus_diag_eq, Rabs_R0 by reflexivity; lra) (fun _ _ => Logic.I)
    ltac:(right; right; exists r, N; split; [exact R1|rewrite Ed; lra]) x' t' Hin).
  rewrite Ea in B2. intros k Hk. eapply Rle_trans; [exact (B2 k Hk)|]. set (a := Rabs (t' - 0)) in *. assert (Pa : 0 <= a) by apply Rabs_pos.
  assert (Z1 : exp (G * a) <= exp G).
  { destruct (Req_dec (G * a) G) as [->|Q]; [lra|]. left. apply exp_increasing. nra. }
  assert (P4 : 0 <= dt ^ 4) by (apply pow_le; lra).
  assert (Pd : 0 <= E * dt ^ 4) by (apply Rmult_le_pos; [exact PE|exact P4]).
  assert (D0 : 0 <= / 10 ^ 15) by (left; apply Rinv_0_lt_compat; apply pow_lt; lra).
  assert (X : 0 <= ros_excess 1 dt <= 9 / 10 ^ 15).
  { unfold ros_excess. rewrite !pow1. unfold Rdiv. rewrite (Rmult_comm 9).
    assert (0 <= dt ^ 2 <= 1) by (split; [apply pow_le; lra|rewrite <- (pow1 2); apply pow_incr; lra]).
    assert (0 <= dt ^ 3 <= 1) by (split; [apply pow_le; lra|rewrite <- (pow1 3); apply pow_incr; lra]).
    set (dd := / 10 ^ 15) in *. split; [apply Rmult_le_pos; lra|apply Rmult_le_compat_l; lra]. }
  set (e := 9 / 10 ^ 15) in *. rewrite Rplus_0_l, (Rmult_assoc (exp G)).
  apply Rmult_le_compat; [left; apply exp_pos|apply Rmult_le_pos; lra|exact Z1|].
  apply Rle_trans with ((E * dt ^ 4 + ros_excess 1 dt) * 1); [apply Rmult_le_compat_l; lra|].
  assert (0 <= E * e) by (apply Rmult_le_pos; lra). lra.
Qed.

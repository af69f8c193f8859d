(** Theorems about implicit_euler, rosenbrock4 and rosenbrock4_dense_output
    (C39, C42, C51, C52, C85-C87). *)
From Coq Require Import ZArith Reals Arith Bool Lia Lra List FunctionalExtensionality.
From Verif Require Import M_Num M_Sign M_Run M_Checker M_RK M_CtrlRK M_LU M_Implicit S_LU S_CtrlRK S_Implicit
  P_R P_LU P_Implicit P_Ros P_RosInv P_RosR P_RosDense.
Import ListNotations.
Local Open Scope R_scope.

(** ** C51: implicit_euler on affine systems.  Full statement: if I - dt A is invertible, do_step
    returns the solution of the implicit Euler equation.  It is false from dimension 2 on
    ([C51_refuted]); what holds: a returned state is the solution, two Newton iterations are
    enough, and exit(0) is reached only when the factors of the first LU decomposition, taken as a
    matrix, are singular. *)
Theorem C51_linear_partial : forall (eps : R) n A g f jac epsilon,
  affine n A g f -> (forall x t, jac x t = A) -> 0 <= epsilon ->
  forall fuel x t dt, nonsingular n (euler_matrix dt A) ->
  match snd (ie_do_step (N := RNum eps) n sqrt f jac epsilon (S fuel) x t dt) with
  | IDone x1 => implicit_euler_eq n f x t dt x1
  | IExit => lu_res (lu_factorize (N := RNum eps) n (lu_m (first_lu eps n jac x t dt)) (lu_pm (first_lu eps n jac x t dt))) <> 0%nat
  | IFuel => False
  end.
Proof. exact ie_linear. Qed.
Print Assumptions C51_linear_partial.

(** In dimension 1 the full statement holds. *)
Theorem C51_dim1_partial : forall (eps : R) A g f jac epsilon,
  affine 1 A g f -> (forall x t, jac x t = A) -> 0 <= epsilon ->
  forall fuel x t dt, nonsingular 1 (euler_matrix dt A) ->
  exists x1, snd (ie_do_step (N := RNum eps) 1 sqrt f jac epsilon (S fuel) x t dt) = IDone x1 /\
             implicit_euler_eq 1 f x t dt x1.
Proof.
  intros eps A g f jac epsilon Hf Hj He fuel x t dt HA.
  assert (H : jac x (t + dt) 0%nat 0%nat * dt - 1 <> 0).
  { rewrite Hj. intros Z. pose proof (HA (fun _ => 1)) as K. cbv beta in K. enough (1 = 0) by lra. apply (K) with (c := 0%nat); [|lia]. intros r Hr. replace r with 0%nat by lia. unfold mvec, euler_matrix, ident. cbn. lra. }
  pose proof (ie_linear eps 1 A g f jac epsilon Hf Hj He fuel x t dt HA) as P.
  destruct (ie_one eps f jac epsilon (S fuel) x t dt H) as [Q _]. cbv zeta in Q.
  destruct (snd (ie_do_step (N := RNum eps) 1 sqrt f jac epsilon (S fuel) x t dt)) as [x1| |]; [|congruence|contradiction].
  exists x1. split; [reflexivity|exact P].
Qed.
Print Assumptions C51_dim1_partial.

(** The matrix given by its four entries. *)
Definition m22 (a b c d : R) : nat -> nat -> R :=
  fun r k => match r, k with 0%nat, 0%nat => a | 0%nat, 1%nat => b | 1%nat, 0%nat => c | 1%nat, 1%nat => d | _, _ => 0 end.
Definition v2 (a b : R) : nat -> R := fun r => match r with 0%nat => a | 1%nat => b | _ => 0 end.

Lemma m22_nonsingular : forall a b c d, a * d - b * c <> 0 -> nonsingular 2 (m22 a b c d).
Proof.
  intros a b c d H x Hx. pose proof (Hx 0%nat ltac:(lia)) as P0. pose proof (Hx 1%nat ltac:(lia)) as P1.
  unfold mvec in P0, P1. cbn in P0, P1.
  assert (Z0 : (a * d - b * c) * x 0%nat = 0) by (replace ((a * d - b * c) * x 0%nat) with (d * (0 + a * x 0%nat + b * x 1%nat) - b * (0 + c * x 0%nat + d * x 1%nat)) by ring; rewrite P0, P1; ring).
  assert (Z1 : (a * d - b * c) * x 1%nat = 0) by (replace ((a * d - b * c) * x 1%nat) with (a * (0 + c * x 0%nat + d * x 1%nat) - c * (0 + a * x 0%nat + b * x 1%nat)) by ring; rewrite P0, P1; ring).
  apply Rmult_integral in Z0. apply Rmult_integral in Z1.
  intros k Hk. destruct k as [|[|k]]; [tauto|tauto|lia].
Qed.

Section Two.
Variable eps : R.
Notation N := (RNum eps).
(** The first solve of do_step on a 2 x 2 matrix whose pivot is in place. *)
Lemma first_solve : forall (m : nat -> nat -> R) (b : nat -> R), m 0%nat 0%nat <> 0 -> Rabs (m 1%nat 0%nat) <= Rabs (m 0%nat 0%nat) ->
  m 1%nat 1%nat - m 1%nat 0%nat * (1 / m 0%nat 0%nat) * m 0%nat 1%nat <> 0 ->
  exists y m1 pm1, ie_solve (N := N) 2 b m (fun k => k) = Some (y, m1, pm1) /\ solves 2 m y b /\
    m1 0%nat 0%nat = m 0%nat 0%nat /\ m1 0%nat 1%nat = m 0%nat 1%nat /\
    m1 1%nat 0%nat = m 1%nat 0%nat * (1 / m 0%nat 0%nat) /\
    m1 1%nat 1%nat = m 1%nat 1%nat - m 1%nat 0%nat * (1 / m 0%nat 0%nat) * m 0%nat 1%nat /\
    pm1 0%nat = 0%nat /\ pm1 1%nat = 1%nat.
Proof.
  intros m b H0 H1 H2. destruct (lu_two eps m (fun k => k) H0 H1 eq_refl eq_refl) as (A & B & C & D & E & F & G).
  cbv zeta in *. apply G in H2. unfold ie_solve. cbv zeta. rewrite H2. cbn [Nat.eqb].
  eexists _, _, _. split; [reflexivity|]. split; [|repeat split; assumption].
  apply (lu_solves eps 2 m (fun k => k) b); [intros k _; reflexivity|exact H2].
Qed.
End Two.

Definition sing_A : nat -> nat -> R := m22 3 2 2 4.
Definition sing_f (x : nat -> R) (t : R) : nat -> R := fun r => mvec 2 sing_A x r + 2.

Theorem C51_refuted : forall (eps epsilon : R), 0 <= epsilon < 1 ->
  exists A g f jac x t dt, affine 2 A g f /\ (forall x t, jac x t = A) /\ nonsingular 2 (euler_matrix dt A) /\
  forall fuel, snd (ie_do_step (N := RNum eps) 2 sqrt f jac epsilon (S fuel) x t dt) = IExit.
Proof.
  intros eps epsilon He.
  exists sing_A, (fun _ _ => 2), sing_f, (fun _ _ => sing_A), (fun _ => 0), 0, 1.
  split; [|split; [|split]].
  - intros x t r _. reflexivity.
  - reflexivity.
  - intros x Hx. apply (m22_nonsingular (-2) (-2) (-2) (-3)); [lra|].
    intros r Hr. rewrite <- (Hx r Hr). unfold mvec, euler_matrix, sing_A, ident.
    destruct r as [|[|r]]; [| |lia]; cbn; ring.
  - intros fuel. unfold ie_do_step.
    set (M := ie_matrix (N := RNum eps) (fun _ _ => sing_A) (fun _ => 0) (nadd (n := RNum eps) 0 1) 1).
    assert (EM : M = (fun r c => sing_A r c * 1 - ident r c)) by (unfold M; rewrite ie_matrix_R; reflexivity).
    assert (M00 : M 0%nat 0%nat = 2) by (rewrite EM; unfold sing_A, ident; cbn; lra).
    assert (M01 : M 0%nat 1%nat = 2) by (rewrite EM; unfold sing_A, ident; cbn; lra).
    assert (M10 : M 1%nat 0%nat = 2) by (rewrite EM; unfold sing_A, ident; cbn; lra).
    assert (M11 : M 1%nat 1%nat = 3) by (rewrite EM; unfold sing_A, ident; cbn; lra).
    match goal with |- context [ie_solve 2 ?bb M _] => set (b := bb) end.
    destruct (first_solve eps M b) as (y & m1 & pm1 & E & Sy & A & B & C & D & P0 & P1).
    { rewrite M00; lra. } { rewrite M10, M00; lra. } { rewrite M00, M01, M10, M11; lra. }
    rewrite E. rewrite M00, M01, M10, M11 in *.
    pose proof (Sy 0%nat ltac:(lia)) as S0. pose proof (Sy 1%nat ltac:(lia)) as S1.
    unfold mvec in S0, S1. cbn [sigma] in S0, S1. rewrite M00, M01 in S0. rewrite M10, M11 in S1.
    assert (b0 : b 0%nat = 2) by (unfold b, sing_f, mvec; cbn; lra).
    assert (b1 : b 1%nat = 2) by (unfold b, sing_f, mvec; cbn; lra).
    rewrite b0 in S0. rewrite b1 in S1.
    assert (y0 : y 0%nat = 1) by lra. assert (y1 : y 1%nat = 0) by lra.
    cbn [ie_loop].
    assert (Nm : norm_2 (N := RNum eps) 2 sqrt y = 1).
    { rewrite norm_2_sum. cbn [sigma]. rewrite y0, y1. replace (0 + 1 * 1 + 0 * 0) with 1 by ring. apply sqrt_1. }
    rewrite Nm. replace (nlt (n := RNum eps) epsilon 1) with true by (symmetry; apply Rltb_true; lra).
    unfold ie_solve at 1.
    destruct (lu_two eps m1 pm1) as (_ & _ & _ & _ & _ & _ & G); try assumption.
    { rewrite A; lra. } { rewrite A, C. rewrite !Rabs_pos_eq; lra. }
    cbv zeta in G. destruct (Nat.eqb_spec (lu_res (lu_factorize (N := RNum eps) 2 m1 pm1)) 0) as [Z|Z]; [|reflexivity].
    exfalso. apply G in Z. apply Z. rewrite A, B, C, D. lra.
Qed.
Print Assumptions C51_refuted.

(** ** C52.  Full statement: in every Newton iteration the solved system has the matrix dt J - I.
    The list returned by the model holds right-hand side and solution of every solve. *)
Definition newton_matrix (jac : (nat -> R) -> R -> nat -> nat -> R) (x : nat -> R) (t dt : R) : nat -> nat -> R :=
  fun r c => dt * jac x (t + dt) r c - ident r c.

(** Holds for the first iteration in every dimension ... *)
Theorem C52_first_partial : forall (eps : R) n f jac epsilon fuel x t dt b y rest,
  fst (ie_do_step (N := RNum eps) n sqrt f jac epsilon fuel x t dt) = (b, y) :: rest ->
  solves n (newton_matrix jac x t dt) y b /\ (forall i, b i = dt * f x (t + dt) i).
Proof.
  intros eps n f jac epsilon fuel x t dt b y rest. unfold ie_do_step, ie_solve.
  set (M := ie_matrix (N := RNum eps) jac x (nadd (n := RNum eps) t dt) dt).
  destruct (Nat.eqb_spec (lu_res (lu_factorize (N := RNum eps) n M (fun k => k))) 0) as [Z|Z]; [|intros H; discriminate H].
  match goal with |- context [match ?q with pair _ _ => _ end] => destruct q as [tr o] end.
  cbn [fst]. intros H. injection H as <- <- _. split; [|reflexivity].
  intros r Hr. refine (eq_trans _ (lu_solves eps n M (fun k => k) (fun i => dt * f x (t + dt) i)%R (fun k _ => eq_refl) Z r Hr)).
  unfold mvec. apply sigma_ext. intros c _. unfold M. rewrite ie_matrix_R. unfold newton_matrix.
  change (nadd (n := RNum eps) t dt) with (t + dt). ring.
Qed.
Print Assumptions C52_first_partial.

(** ... and for all iterations in dimension 1. *)
Theorem C52_dim1_partial : forall (eps : R) f jac epsilon fuel x t dt,
  newton_matrix jac x t dt 0%nat 0%nat <> 0 ->
  let r := ie_do_step (N := RNum eps) 1 sqrt f jac epsilon fuel x t dt in
  snd r <> IExit /\ Forall (fun p => solves 1 (newton_matrix jac x t dt) (snd p) (fst p)) (fst r).
Proof.
  intros eps f jac epsilon fuel x t dt H r. unfold newton_matrix, ident in H. cbn in H.
  destruct (ie_one eps f jac epsilon fuel x t dt) as [P Q]; [lra|]. split; [exact P|].
  apply Forall_forall. intros p Hp. rewrite Forall_forall in Q. specialize (Q p Hp).
  intros k Hk. replace k with 0%nat by lia. rewrite <- Q. unfold mvec, newton_matrix, ident. cbn [sigma Nat.eqb]. ring.
Qed.
Print Assumptions C52_dim1_partial.

Definition stale_f (x : nat -> R) (t : R) : nat -> R :=
  v2 (3 * x 0%nat + x 1%nat + x 0%nat * x 0%nat - 2) (x 0%nat + 3 * x 1%nat - 1).
Definition stale_J (x : nat -> R) (t : R) : nat -> nat -> R := m22 (3 + 2 * x 0%nat) 1 1 3.

(** Already the second iteration solves with another matrix: the LU factors of the first solve are
    factorised again as if they were the matrix. *)
Theorem C52_refuted : forall (eps epsilon : R), 0 <= epsilon < 1 ->
  exists f jac x t dt,
    nonsingular 2 (newton_matrix jac x t dt) /\
    forall fuel, exists b y, In (b, y) (fst (ie_do_step (N := RNum eps) 2 sqrt f jac epsilon (S fuel) x t dt)) /\
      forall z, ~ solves 2 (newton_matrix jac z t dt) y b.
Proof.
  intros eps epsilon He. exists stale_f, stale_J, (fun _ => 0), 0, 1. split.
  - intros x Hx. apply (m22_nonsingular 2 1 1 2); [lra|].
    intros r Hr. rewrite <- (Hx r Hr). unfold mvec, newton_matrix, stale_J, ident.
    destruct r as [|[|r]]; [| |lia]; cbn; ring.
  - intros fuel. unfold ie_do_step.
    set (M := ie_matrix (N := RNum eps) stale_J (fun _ => 0) (nadd (n := RNum eps) 0 1) 1).
    assert (EM : M = (fun r c => stale_J (fun _ => 0) (0 + 1) r c * 1 - ident r c)) by (unfold M; rewrite ie_matrix_R; reflexivity).
    assert (M00 : M 0%nat 0%nat = 2) by (rewrite EM; unfold stale_J, ident; cbn; lra).
    assert (M01 : M 0%nat 1%nat = 1) by (rewrite EM; unfold stale_J, ident; cbn; lra).
    assert (M10 : M 1%nat 0%nat = 1) by (rewrite EM; unfold stale_J, ident; cbn; lra).
    assert (M11 : M 1%nat 1%nat = 2) by (rewrite EM; unfold stale_J, ident; cbn; lra).
    match goal with |- context [ie_solve 2 ?bb M _] => set (b := bb) end.
    destruct (first_solve eps M b) as (y & m1 & pm1 & E & Sy & A & B & C & D & P0 & P1).
    { rewrite M00; lra. } { rewrite M10, M00. rewrite !Rabs_pos_eq; lra. } { rewrite M00, M01, M10, M11; lra. }
    rewrite E. rewrite M00, M01, M10, M11 in *.
    pose proof (Sy 0%nat ltac:(lia)) as S0. pose proof (Sy 1%nat ltac:(lia)) as S1.
    unfold mvec in S0, S1. cbn [sigma] in S0, S1. rewrite M00, M01 in S0. rewrite M10, M11 in S1.
    assert (b0 : b 0%nat = -2) by (unfold b, stale_f; cbn; lra).
    assert (b1 : b 1%nat = -1) by (unfold b, stale_f; cbn; lra).
    rewrite b0 in S0. rewrite b1 in S1.
    assert (y0 : y 0%nat = -1) by lra. assert (y1 : y 1%nat = 0) by lra.
    cbn [ie_loop].
    assert (Nm : norm_2 (N := RNum eps) 2 sqrt y = 1).
    { rewrite norm_2_sum. cbn [sigma]. rewrite y0, y1. replace (0 + -1 * -1 + 0 * 0) with 1 by ring. apply sqrt_1. }
    rewrite Nm. replace (nlt (n := RNum eps) epsilon 1) with true by (symmetry; apply Rltb_true; lra).
    unfold ie_solve at 1.
    destruct (lu_two eps m1 pm1) as (_ & _ & _ & _ & _ & _ & G); try assumption.
    { rewrite A; lra. } { rewrite A, C. rewrite !Rabs_pos_eq; lra. }
    cbv zeta in G.
    assert (Z : lu_res (lu_factorize (N := RNum eps) 2 m1 pm1) = 0%nat) by (apply G; rewrite A, B, C, D; lra).
    rewrite Z. cbn [Nat.eqb].
    match goal with |- context [lu_substitute 2 (lu_m ?s) (lu_pm ?s) ?bb] => set (c := bb); set (w := lu_substitute 2 (lu_m s) (lu_pm s) c) end.
    assert (Sw : solves 2 m1 w c).
    { apply (lu_solves eps 2 m1 pm1 c); [|exact Z]. intros k Hk. destruct k as [|[|k]]; [exact P0|exact P1|lia]. }
    assert (c0 : c 0%nat = 1).
    { unfold c, stale_f. cbn. rewrite y0, y1. ring. }
    assert (c1 : c 1%nat = 0).
    { unfold c, stale_f. cbn. rewrite y0, y1. ring. }
    pose proof (Sw 0%nat ltac:(lia)) as W0. pose proof (Sw 1%nat ltac:(lia)) as W1.
    unfold mvec in W0, W1. cbn [sigma] in W0, W1. rewrite A, B, c0 in W0. rewrite C, D, c1 in W1.
    exists c, w. split.
    + destruct (ie_loop _ _ _ _ _ _ _ _ _ _ _ _) as [tr o].
      cbn [fst]. right. left. reflexivity.
    + intros z Sz. pose proof (Sz 1%nat ltac:(lia)) as V. unfold mvec in V. cbn [sigma] in V.
      unfold newton_matrix, stale_J, ident in V. cbn [m22 Nat.eqb] in V. rewrite c1 in V. clear - W0 W1 V. lra.
Qed.
Print Assumptions C52_refuted.

(** The hypotheses of the theorems above on a concrete case: x' = -x, dt = 1, one Newton step. *)
Example C51_example : forall (eps : R),
  affine 1 (fun _ _ => -1) (fun _ _ => 0) (fun x _ i => - x i) /\ nonsingular 1 (euler_matrix 1 (fun _ _ => -1)) /\
  newton_matrix (fun _ _ _ _ => -1) (fun _ => 4) 0 1 0%nat 0%nat = -2 /\
  exists x1 : nat -> R, snd (ie_do_step (N := RNum eps) 1 sqrt (fun (x : nat -> R) _ i => - x i)%R (fun _ _ _ _ => -1)%R (1 / 1000)%R 1 (fun _ => 4%R) 0%R 1%R) = IDone (N := RNum eps) x1 /\
             x1 0%nat = 2.
Proof.
  intros eps.
  assert (Ha : affine 1 (fun _ _ => -1) (fun _ _ => 0) (fun x _ i => - x i)).
  { intros x t r Hr. replace r with 0%nat by lia. unfold mvec. cbn. lra. }
  assert (Hn : nonsingular 1 (euler_matrix 1 (fun _ _ => -1))).
  { intros x Hx c Hc. replace c with 0%nat by lia. pose proof (Hx 0%nat ltac:(lia)) as P.
    unfold mvec, euler_matrix, ident in P. cbn in P. lra. }
  split; [exact Ha|]. split; [exact Hn|]. split; [unfold newton_matrix, ident; cbn; lra|].
  destruct (C51_dim1_partial eps _ _ _ (fun _ _ _ _ => -1) (1 / 1000) Ha (fun _ _ => eq_refl) ltac:(lra) 0 (fun _ => 4) 0 1 Hn) as (x1 & A & B).
  exists x1. split; [exact A|]. pose proof (B 0%nat ltac:(lia)) as P. cbv beta in P. lra.
Qed.

(** ** C39 for rosenbrock4: in-place and out-of-place calls leave the same new state, error
    estimate and members, in any arithmetic. *)
Theorem C39_rosenbrock : forall (N : Num) n (f : vec N nat -> N -> vec N nat) jac dft (co : roscoef N)
  (m : rbuf N) (x xout xerr : vec N nat) t dt l, l <> RX ->
  ros_in_place n f jac dft co m x xerr t dt l = ros_out_of_place n f jac dft co m x xout xerr t dt l.
Proof. exact (fun N n f jac dft co => ros_in_out (N := N) n f jac dft co). Qed.
Print Assumptions C39_rosenbrock.
Example C39_rosenbrock_example :
  ROut <> RX /\ RErr <> RX /\ RG 3 <> RX.
Proof. repeat split; discriminate. Qed.

(** ** C87: the stages of rosenbrock4 solve the stage equations of a Rosenbrock method with the
    coefficients written down in the source, whatever the buffers contained. *)
Theorem C87_stages : forall (eps : R) n f jac dft (m : rbuf (RNum eps)) (x : nat -> R) t dt,
  nonsingular n (ros_W n (ro_gamma (default_rosenbrock (N := RNum eps))) dt (jac x t)) ->
  let co := default_rosenbrock (N := RNum eps) in
  let '(m', xout, xerr) := ros_step (N := RNum eps) n f jac dft co m x t dt in
  ros_result n f (dft x t) (jac x t) (ro_gamma co) (rows eps co) (weights eps co) x t dt xout xerr /\
  ros_stages n f (dft x t) (ros_W n (ro_gamma co) dt (jac x t)) x t dt [] (rows eps co)
     [m' (RG 1); m' (RG 2); m' (RG 3); m' (RG 4); m' (RG 5); xerr].
Proof.
  intros eps n f jac dft m x t dt Hn co. unfold ros_step. cbv zeta.
  set (m0 := rwrite (N := RNum eps) false m RX x).
  destruct (ros_run_spec eps n f jac dft co) with (m0 := m0) (t := t) (dt := dt) as [P (gs & G & Q)].
  - repeat split.
  - apply lu_nonsingular; [intros k _; reflexivity|].
    intros z Hz. apply Hn. intros r Hr. rewrite <- (Hz r Hr). unfold mvec. apply sigma_ext. intros c _.
    f_equal. unfold ros_W, ros_matrix, ident. cbn [nadd nsub nmul ndiv nofZ RNum].
    destruct (Nat.eqb r c); match goal with |- @eq _ ?l ?r => change (@eq R l r) end; unfold Rdiv; cbn; ring.
  - rewrite G in Q. split; [exact P|exact Q].
Qed.
Print Assumptions C87_stages.

(** ** C85: rosenbrock4 keeps linear invariants of the system when the Jacobian and the time
    derivative handed over have them too; the error estimate has no component along them. *)
Theorem C85_invariant : forall (eps : R) n w f jac dft (m : rbuf (RNum eps)) (x : nat -> R) t dt,
  ros_invariant n w f jac dft -> dt <> 0 ->
  nonsingular n (ros_W n (ro_gamma (default_rosenbrock (N := RNum eps))) dt (jac x t)) ->
  let '(_, xout, xerr) := ros_step (N := RNum eps) n f jac dft (default_rosenbrock (N := RNum eps)) m x t dt in
  functional n w xout = functional n w x /\ functional n w xerr = 0.
Proof.
  intros eps n w f jac dft m x t dt Hi Hdt Hn.
  pose proof (C87_stages eps n f jac dft m x t dt Hn) as P. cbv zeta in P.
  destruct (ros_step (N := RNum eps) n f jac dft default_rosenbrock m x t dt) as [[m' xout] xerr].
  destruct P as [P _].
  eapply (ros_result_invariant n w f jac dft); [exact Hi| |exact Hdt|exact P].
  cbn. unfold nfrac. cbn. lra.
Qed.
Print Assumptions C85_invariant.

(** ** C86 is false: with the coefficients of the source the local error of rosenbrock4 for
    x' = t is a multiple of dt^2 (between 0.03 dt^2 and 0.04 dt^2), although Jacobian and time
    derivative are right and the documented order is 4. *)
Theorem C86_refuted : exists (f : (nat -> R) -> R -> nat -> R) jac dft (sol : R -> R),
  (forall t, derivable_pt_lim sol t (f (fun _ => sol t) t 0%nat)) /\
  (forall x t, derivable_pt_lim (fun s => f (fun _ => s) t 0%nat) (x 0%nat) (jac x t 0%nat 0%nat)) /\
  (forall x t, derivable_pt_lim (fun s => f x s 0%nat) t (dft x t 0%nat)) /\
  forall (eps : R) (m : rbuf (RNum eps)),
    let err := fun dt => snd (fst (ros_step (N := RNum eps) 1 f jac dft (default_rosenbrock (N := RNum eps)) m (fun _ => sol 0) 0 dt)) 0%nat - sol dt in
    (forall dt, dt <> 0 -> 3 / 100 * (dt * dt) <= err dt <= 4 / 100 * (dt * dt)) /\
    ~ local_order err 4 /\ ~ local_order err 2.
Proof.
  exists ramp, no_jac, one, (fun t => t * t / 2).
  split; [|split; [|split]].
  - intros t. unfold ramp. assert (D : derivable_pt_lim (fun s => s * s / 2) t ((1 * t + t * 1) / 2)).
    { unfold Rdiv. apply derivable_pt_lim_scal_right. apply derivable_pt_lim_mult; apply derivable_pt_lim_id. }
    replace ((1 * t + t * 1) / 2) with t in D by lra. exact D.
  - intros x t. unfold ramp, no_jac. apply derivable_pt_lim_const.
  - intros x t. unfold ramp, one. apply derivable_pt_lim_id.
  - intros eps m err.
    assert (E : forall dt, dt <> 0 -> err dt = (kappa eps d4_code - 1 / 2) * (dt * dt)).
    { intros dt Hdt. unfold err, ros_step. cbv zeta. cbn [fst snd].
      rewrite <- (with_d4_default eps). rewrite ramp_result; [|exact Hdt|].
      - lra.
      - unfold rwrite. cbn. lra. }
    destruct (kappa_bounds eps d4_code) as [K _]. specialize (K eq_refl).
    assert (L2 : ~ local_order err 2).
    { intros (C & d & Hd & H). apply (not_order (kappa eps d4_code - 1 / 2)); [lra|].
      exists C, d. split; [exact Hd|]. intros dt Hdt. rewrite <- E by lra. apply H. exact Hdt. }
    split; [|split; [|exact L2]].
    + intros dt Hdt. rewrite (E dt Hdt). assert (0 < dt * dt) by nra. nra.
    + intros (C & d & Hd & H). apply L2. exists (Rabs C), (Rmin d 1).
      split; [apply Rmin_glb_lt; lra|]. intros dt [H0 H1].
      pose proof (Rmin_l d 1). pose proof (Rmin_r d 1).
      eapply Rle_trans; [apply H; lra|].
      apply Rle_trans with (Rabs C * dt ^ (4 + 1)).
      * apply Rmult_le_compat_r; [apply pow_le; lra|apply RRle_abs].
      * apply Rmult_le_compat_l; [apply Rabs_pos|]. cbn [Nat.add pow].
        assert (0 <= dt * (dt * (dt * 1))) by (apply Rmult_le_pos; [lra|]; apply Rmult_le_pos; lra).
        assert (dt * (dt * 1) <= 1) by nra. nra.
Qed.
Print Assumptions C86_refuted.

(** With the sign of d4 reversed (the value of the published method) the error of the same step is
    below dt^2 / 10^14. *)
Theorem C86_reversed_sign : forall (eps : R) (m : rbuf (RNum eps)) dt, dt <> 0 ->
  Rabs (snd (fst (ros_step (N := RNum eps) 1 ramp no_jac one (with_d4 eps (- d4_code)) m (fun _ => 0) 0 dt)) 0%nat - dt * dt / 2)
  <= / 10 ^ 14 * (dt * dt).
Proof.
  intros eps m dt Hdt. unfold ros_step. cbv zeta. cbn [fst snd].
  rewrite ramp_result; [|exact Hdt|reflexivity].
  destruct (kappa_bounds eps (- d4_code)) as [_ K]. specialize (K eq_refl).
  replace (kappa eps (- d4_code) * (dt * dt) - dt * dt / 2) with ((kappa eps (- d4_code) - 1 / 2) * (dt * dt)) by lra.
  assert (0 < dt * dt) by nra.
  rewrite Rabs_mult, (Rabs_pos_eq (dt * dt)) by lra. apply Rmult_le_compat_r; [lra|]. apply Rabs_le. lra.
Qed.
Print Assumptions C86_reversed_sign.

(** A system meeting the hypotheses of C85 and C87: x1' = -x1 + x2, x2' = x1 - x2 with the sum as
    invariant, dt = 1. *)
Definition swap_J : nat -> nat -> R := m22 (-1) 1 1 (-1).
Example C85_example :
  ros_invariant 2 (fun _ => 1) (fun x _ r => mvec 2 swap_J x r) (fun _ _ => swap_J) (fun _ _ _ => 0) /\
  functional 2 (fun _ => 1) (v2 3 4) = 7 /\ mvec 2 swap_J (v2 3 4) 0%nat = 1 /\
  forall eps, nonsingular 2 (ros_W 2 (ro_gamma (default_rosenbrock (N := RNum eps))) 1 swap_J).
Proof.
  split; [|split; [|split]].
  - repeat split; intros; unfold functional, mvec, swap_J; cbn [sigma m22]; [ring| |ring].
    destruct c as [|[|c]]; [| |lia]; cbn; ring.
  - unfold functional. cbn. ring.
  - unfold mvec, swap_J. cbn. ring.
  - intros eps x Hx. apply (m22_nonsingular 5 (-1) (-1) 5); [lra|].
    intros r Hr. rewrite <- (Hx r Hr). unfold mvec, ros_W, swap_J, ident.
    assert (Hg : ro_gamma (default_rosenbrock (N := RNum eps)) = 1 / 4) by (cbn; unfold nfrac; cbn; lra).
    rewrite Hg. destruct r as [|[|r]]; [| |lia]; cbn; lra.
Qed.

(** ** C42 for rosenbrock4: after a step of the dense output stepper, calc_state at the ends of the
    step gives the previous and the current state, and the current state is the result of a
    rosenbrock4 step over that interval. *)
Theorem C42_rosenbrock : forall (eps : R) n pw sq f jac dft (co : roscoef (RNum eps)) (atol rtol max_dt : R) s s',
  rd_step (N := RNum eps) (ros_try eps n pw sq f jac dft co atol rtol max_dt) (ros_prep eps co) s = Ok s' -> rd_dt s <> 0 ->
  rd_told s' = rd_t s /\ rd_t s' <> rd_t s /\
  (exists m, rd_x s' = snd (fst (ros_step (N := RNum eps) n f jac dft co m (rd_x s) (rd_t s) (rd_t s' - rd_t s)%R))) /\
  (forall j, rd_calc (N := RNum eps) (ros_dcalc eps) s' (rd_t s) j = rd_x s j) /\
  (forall j, rd_calc (N := RNum eps) (ros_dcalc eps) s' (rd_t s') j = rd_x s' j).
Proof. exact dense_ends. Qed.
Print Assumptions C42_rosenbrock.

(** The hypotheses are met by x' = t, dt = 1, with a tolerance that accepts the first attempt. *)
Lemma rd_step_first : forall (N : Num) C (tr : C -> vec N nat -> N -> vec N nat -> N -> C * vec N nat * N * N * bool) prep s c xo t dt,
  tr (rd_c s) (rd_x s) (rd_t s) (rd_xold s) (rd_dt s) = (c, xo, t, dt, true) ->
  exists s', rd_step tr prep s = Ok s' /\ rd_x s' = xo.
Proof.
  intros N C tr prep s c xo t dt H. unfold rd_step. generalize default_max_steps at 1 as fuel. intros fuel.
  cbn [rd_loop]. unfold rd_x, rd_xold in *. cbn [rd_c rd_cur rd_t rd_dt rd_told rd_x1 rd_x2] in *.
  rewrite H. change (fail_check 0) with (Ok 1%nat). eexists. split; [reflexivity|].
  cbn [rd_c rd_cur rd_t rd_dt rd_told rd_x1 rd_x2]. destruct (rd_cur s); reflexivity.
Qed.
Lemma accept_first : forall (eps : R) (pw : R -> R -> R) (rstep : rbuf (RNum eps) -> (nat -> R) -> R -> R -> rbuf (RNum eps) * (nat -> R) * (nat -> R))
  prep (m m' : rbuf (RNum eps)) (x xo xe : nat -> R) (t dt : R),
  rstep m x t dt = (m', xo, xe) ->
  exists (atol : R) c s', 0 < atol /\
   rd_step (N := RNum eps) (rosc_core (N := RNum eps) (seq 0 1) pw sqrt rstep atol 0%R 0%R) prep
     (mkRosd (N := RNum eps) c x x true t t dt) = Ok s' /\ rd_x s' = xo.
Proof.
  intros eps pw rstep prep m m' x xo xe t dt E.
  set (e := xe 0%nat). exists (Rabs e + 1).
  assert (Ha : 0 < Rabs e + 1) by (pose proof (Rabs_pos e); lra).
  exists (mkRosc (N := RNum eps) (I := nat) m (fun _ => 0) (fun _ => 0) true 1 1 false).
  assert (L : ros_error (N := RNum eps) (seq 0 1) sqrt (Rabs e + 1)%R 0%R xo x xe <= 1).
  { apply (ros_error_le1 eps (seq 0 1) (Rabs e + 1) 0); [discriminate|].
    unfold rms_within. cbn [seq fold_right length INR]. fold e. rewrite Rmult_0_l, !Rplus_0_r.
    assert (B : Rabs (e / (Rabs e + 1)) <= 1).
    { unfold Rdiv. rewrite Rabs_mult, (Rabs_pos_eq (/ (Rabs e + 1))) by (left; apply Rinv_0_lt_compat; exact Ha).
      apply Rmult_le_reg_r with (Rabs e + 1); [exact Ha|]. field_simplify; lra. }
    rewrite <- Rsqr_pow2. rewrite Rsqr_abs. pose proof (Rabs_pos (e / (Rabs e + 1))). unfold Rsqr. nra. }
  match goal with |- exists s', _ /\ rd_step ?tr _ ?s = _ /\ _ =>
    assert (P : exists c1 dt1, tr (rd_c s) (rd_x s) (rd_t s) (rd_xold s) (rd_dt s) = (c1, xo, t + dt, dt1, true)) end.
  { cbn [rd_c rd_x rd_t rd_xold rd_dt rd_cur rd_x1 rd_x2]. unfold rosc_core.
    replace (nneq (N := RNum eps) 0 (nofZ (n := RNum eps) 0%Z)) with false by (symmetry; apply nneq_R_false; reflexivity).
    cbn [andb]. cbn [rc_st rc_first rc_err_old rc_dt_old rc_rejected rc_xnew rc_xerr]. rewrite E.
    match goal with |- context [nle (n := RNum eps) ?a ?b] => replace (nle (n := RNum eps) a b) with true by (symmetry; apply Rleb_true; exact L) end.
    eexists _, _. reflexivity. }
  destruct P as (c1 & dt1 & P). destruct (rd_step_first _ _ _ prep _ _ _ _ _ P) as (s' & Q1 & Q2).
  exists s'. split; [exact Ha|]. split; [exact Q1|exact Q2].
Qed.

Example C42_rosenbrock_example : forall (eps : R) pw (m : rbuf (RNum eps)),
  exists (atol : R) s s', 0 < atol /\
    rd_step (N := RNum eps) (ros_try eps 1 pw sqrt ramp no_jac one default_rosenbrock atol 0 0) (ros_prep eps default_rosenbrock) s = Ok s' /\
    rd_dt s = 1 /\ rd_x s 0%nat = 0 /\ 53 / 100 <= rd_x s' 0%nat <= 54 / 100.
Proof.
  intros eps pw m.
  pose proof (ramp_result eps d4_code (rwrite (N := RNum eps) false m RX (fun _ => 0)) 1 ltac:(lra) eq_refl) as HR.
  rewrite (with_d4_default eps) in HR.
  destruct (kappa_bounds eps d4_code) as [K _]. specialize (K eq_refl).
  remember (ros_run (N := RNum eps) 1 ramp no_jac one default_rosenbrock false 0 1 (rwrite (N := RNum eps) false m RX (fun _ => 0))) as m' eqn:E.
  destruct (accept_first eps pw (ros_step (N := RNum eps) 1 ramp no_jac one default_rosenbrock) (ros_prep eps default_rosenbrock)
     m m' (fun _ => 0) (m' ROut) (m' RErr) 0 1) as (atol & c & s' & Ha & P & Q).
  { unfold ros_step. rewrite <- E. reflexivity. }
  exists atol, (mkRosd (N := RNum eps) c (fun _ => 0) (fun _ => 0) true 0 0 1), s'.
  split; [exact Ha|]. split; [exact P|]. split; [reflexivity|]. split; [reflexivity|]. rewrite Q. lra.
Qed.

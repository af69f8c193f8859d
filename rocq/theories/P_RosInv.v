(** Linear invariants, the order for a time-dependent right-hand side, and dense output of rosenbrock4. *)
From Coq Require Import ZArith Reals Arith Bool Lia Lra List FunctionalExtensionality.
From Verif Require Import M_Num M_Sign M_Run M_Checker M_RK M_CtrlRK M_LU M_Implicit S_LU S_Implicit P_R P_LU P_Implicit P_Ros.
Import ListNotations.
Local Open Scope R_scope.

(** ** Linear invariants. *)
Lemma sigma_swap : forall n k (g : nat -> nat -> R),
  sigma n (fun r => sigma k (fun c => g r c)) = sigma k (fun c => sigma n (fun r => g r c)).
Proof.
  induction n; intros k g; cbn [sigma].
  - symmetry. apply sigma_0. reflexivity.
  - rewrite IHn, <- sigma_plus. reflexivity.
Qed.

Lemma functional_ext : forall n w x y, veq n x y -> functional n w x = functional n w y.
Proof. intros n w x y H. apply sigma_ext. intros c Hc. rewrite H by exact Hc. reflexivity. Qed.
Lemma functional_plus : forall n w x y, functional n w (fun i => x i + y i) = functional n w x + functional n w y.
Proof. intros. unfold functional. rewrite <- sigma_plus. apply sigma_ext. intros; ring. Qed.
Lemma functional_scal : forall n w a x, functional n w (fun i => a * x i) = a * functional n w x.
Proof. intros. unfold functional. rewrite <- sigma_scal. apply sigma_ext. intros; ring. Qed.
Lemma functional_lc : forall n w m gs, Forall (fun g => functional n w g = 0) gs -> functional n w (lc m gs) = 0.
Proof.
  intros n w m gs H. revert m. induction H as [|g gs Hg _ IH]; intros m.
  - destruct m; apply sigma_0; intros; cbn; ring.
  - destruct m as [|a m]; [apply sigma_0; intros; cbn; ring|].
    change (functional n w (fun i => a * g i + lc m gs i) = 0).
    rewrite (functional_plus n w (fun i => a * g i) (lc m gs)), functional_scal, Hg, IH. ring.
Qed.

Lemma functional_W : forall n w gamma dt (J : nat -> nat -> R) g,
  (forall c, (c < n)%nat -> functional n w (fun r => J r c) = 0) ->
  functional n w (mvec n (ros_W n gamma dt J) g) = functional n w g / gamma / dt.
Proof.
  intros n w gamma dt J g H.
  rewrite (functional_ext n w _ (fun r => / gamma * / dt * g r + (-1) * mvec n J g r)).
  - rewrite functional_plus, !functional_scal.
    assert (Z : functional n w (mvec n J g) = 0).
    { unfold functional, mvec. rewrite (sigma_ext n _ (fun r => sigma n (fun c => w r * (J r c * g c))))
        by (intros; rewrite sigma_scal; reflexivity).
      rewrite sigma_swap. apply sigma_0. intros c Hc.
      rewrite (sigma_ext n _ (fun r => g c * (w r * J r c))) by (intros; ring).
      rewrite sigma_scal. fold (functional n w (fun r => J r c)). rewrite H by exact Hc. ring. }
    rewrite Z. unfold Rdiv. ring.
  - intros r Hr. unfold mvec. rewrite <- (mvec_ident n g r Hr). unfold mvec. rewrite <- !sigma_scal, <- sigma_plus.
    apply sigma_ext. intros c _. unfold ros_W, Rdiv. ring.
Qed.

Lemma stages_invariant : forall n w f ft J gamma x t dt,
  (forall x t, functional n w (f x t) = 0) -> functional n w ft = 0 ->
  (forall c, (c < n)%nat -> functional n w (fun r => J r c) = 0) -> gamma <> 0 -> dt <> 0 ->
  forall st done gs, Forall (fun g => functional n w g = 0) done ->
  ros_stages n f ft (ros_W n gamma dt J) x t dt done st gs -> Forall (fun g => functional n w g = 0) gs.
Proof.
  intros n w f ft J gamma x t dt Hf Hft HJ Hg Hdt. induction st as [|s st IH]; intros done gs Hd H.
  - destruct gs; [constructor|contradiction H].
  - destruct gs as [|g gs]; [contradiction H|]. cbn [ros_stages] in H. destruct H as [(xk & _ & Hs) H].
    assert (Z : functional n w g = 0).
    { pose proof (functional_W n w gamma dt J g HJ) as Q.
      assert (Q' : functional n w (mvec n (ros_W n gamma dt J) g) = 0).
      { rewrite (functional_ext n w _ (fun i => (f xk (t + rs_alpha s * dt) i + dt * rs_d s * ft i) + / dt * lc (rs_c s) done i)).
        - rewrite (functional_plus n w (fun i => f xk (t + rs_alpha s * dt) i + dt * rs_d s * ft i)),
                  (functional_plus n w (f xk (t + rs_alpha s * dt))), !functional_scal, Hf, Hft, functional_lc by exact Hd. ring.
        - intros r Hr. rewrite Hs by exact Hr. unfold Rdiv. ring. }
      rewrite Q' in Q. replace (functional n w g) with (functional n w g / gamma / dt * gamma * dt) by (field; auto).
      rewrite <- Q. ring. }
    constructor; [exact Z|]. apply (IH (done ++ [g])); [|exact H]. apply Forall_app. split; [exact Hd|]. constructor; [exact Z|constructor].
Qed.

Lemma ros_result_invariant : forall n w f J ft gamma st m x t dt x1 e,
  ros_invariant n w f J ft -> gamma <> 0 -> dt <> 0 ->
  ros_result n f (ft x t) (J x t) gamma st m x t dt x1 e ->
  functional n w x1 = functional n w x /\ functional n w e = 0.
Proof.
  intros n w f J ft gamma st m x t dt x1 e (H1 & H2 & H3) Hg Hdt (gs & Hs & Hx).
  pose proof (stages_invariant n w f (ft x t) (J x t) gamma x t dt H1 (H3 x t) (H2 x t) Hg Hdt st [] (gs ++ [e]) (Forall_nil _) Hs) as F.
  rewrite (functional_ext n w x1 _ Hx), (functional_plus n w x), functional_lc by exact F. split; [ring|].
  apply Forall_app in F. destruct F as [_ F]. inversion F; assumption.
Qed.

(** ** x' = t. *)
Definition ramp (x : nat -> R) (t : R) (i : nat) : R := t.
Definition no_jac (x : nat -> R) (t : R) (r c : nat) : R := 0.
Definition one (x : nat -> R) (t : R) (i : nat) : R := 1.

Lemma ramp_stage : forall gamma dt g (b : nat -> R), gamma = 1 / 4 -> dt <> 0 ->
  solves 1 (ros_W 1 gamma dt (fun _ _ => 0)) g b -> g 0%nat = b 0%nat * dt / 4.
Proof.
  intros gamma dt g b -> Hdt H. pose proof (H 0%nat (Nat.lt_0_succ _)) as Q. unfold mvec, ros_W, ident in Q. cbn [sigma Nat.eqb] in Q.
  rewrite <- Q. field. exact Hdt.
Qed.

Fixpoint dotl (m l : list R) : R := match m, l with a :: m', b :: l' => a * b + dotl m' l' | _, _ => 0 end.
Fixpoint gam (st : list rstage) (done : list R) : list R :=
  match st with
  | [] => []
  | s :: st' => let g := (rs_alpha s + rs_d s + dotl (rs_c s) done) / 4 in g :: gam st' (done ++ [g])
  end.

Lemma lc_dotl : forall m gs rs q, Forall2 (fun (g : nat -> R) r => g 0%nat = r * q) gs rs -> lc m gs 0 = dotl m rs * q.
Proof.
  intros m gs rs q H. revert m. induction H as [|g r gs rs Hg _ IH]; intros [|a m]; cbn [lc dotl]; try ring.
  rewrite Hg, IH. ring.
Qed.

Lemma ramp_stages : forall gamma dt x, gamma = 1 / 4 -> dt <> 0 -> forall st done rs gs,
  Forall2 (fun (g : nat -> R) r => g 0%nat = r * (dt * dt)) done rs ->
  ros_stages 1 ramp (fun _ => 1) (ros_W 1 gamma dt (fun _ _ => 0)) x 0 dt done st gs ->
  Forall2 (fun (g : nat -> R) r => g 0%nat = r * (dt * dt)) gs (gam st rs).
Proof.
  intros gamma dt x Hg Hdt. induction st as [|s st IH]; intros done rs gs Hd H.
  - destruct gs; [constructor|contradiction H].
  - destruct gs as [|g gs]; [contradiction H|]. cbn [ros_stages] in H. destruct H as [(xk & _ & Hs) H].
    pose proof (ramp_stage gamma dt g _ Hg Hdt Hs) as Q. cbv beta in Q. unfold ramp in Q.
    rewrite (lc_dotl _ _ _ _ Hd) in Q. cbn [gam].
    assert (E : g 0%nat = (rs_alpha s + rs_d s + dotl (rs_c s) rs) / 4 * (dt * dt)) by (rewrite Q; field; exact Hdt).
    constructor; [exact E|]. apply (IH (done ++ [g])); [|exact H]. apply Forall2_app; [exact Hd|]. constructor; [exact E|constructor].
Qed.

Section Ramp.
Variable eps : R.
Notation N := (RNum eps).

(** The default coefficients with another value of d4. *)
Definition with_d4 (d4 : R) : roscoef N :=
  let c := default_rosenbrock (N := N) in
  {| ro_gamma := ro_gamma c; ro_d := [nth 0 (ro_d c) 0; nth 1 (ro_d c) 0; nth 2 (ro_d c) 0; d4];
     ro_c2 := ro_c2 c; ro_c3 := ro_c3 c; ro_c4 := ro_c4 c;
     ro_a2 := ro_a2 c; ro_a3 := ro_a3 c; ro_a4 := ro_a4 c; ro_a5 := ro_a5 c;
     ro_k2 := ro_k2 c; ro_k3 := ro_k3 c; ro_k4 := ro_k4 c; ro_k5 := ro_k5 c; ro_k6 := ro_k6 c;
     ro_e3 := ro_e3 c; ro_e4 := ro_e4 c |}.
Definition d4_code : R := 3620000000000023 / 100000000000000000.
Lemma with_d4_default : with_d4 d4_code = default_rosenbrock (N := N).
Proof. reflexivity. Qed.
Lemma with_d4_shape : forall d4, ros_shape eps (with_d4 d4).
Proof. intros d4. repeat split. Qed.

Definition kappa (d4 : R) : R := dotl (weights eps (with_d4 d4)) (gam (rows eps (with_d4 d4)) []).

Lemma ramp_lu : forall d4 (x : nat -> R) dt, dt <> 0 ->
  lu_res (lu_factorize (N := N) 1 (ros_matrix (N := N) no_jac (with_d4 d4) x 0 dt) (fun k => k)) = 0%nat.
Proof.
  intros d4 x dt Hdt.
  assert (H : ros_matrix (N := N) no_jac (with_d4 d4) x 0 dt 0%nat 0%nat <> 0).
  { unfold ros_matrix, no_jac. change (0 * -1 + 1 / (25 / 100) / dt * 1 <> 0).
    replace (0 * -1 + 1 / (25 / 100) / dt * 1) with (4 * / dt) by (field; exact Hdt).
    apply Rmult_integral_contrapositive_currified; [lra|]. apply Rinv_neq_0_compat. exact Hdt. }
  destruct (lu_one eps _ (fun k => k) H eq_refl) as (R0 & _). exact R0.
Qed.

Lemma ramp_result : forall d4 (m : rbuf N) dt, dt <> 0 -> m RX 0%nat = 0 ->
  ros_run (N := N) 1 ramp no_jac one (with_d4 d4) false 0 dt m ROut 0%nat = kappa d4 * (dt * dt).
Proof.
  intros d4 m dt Hdt Hx.
  destruct (ros_run_spec eps 1 ramp no_jac one (with_d4 d4) (with_d4_shape d4) m 0 dt (ramp_lu d4 (m RX) dt Hdt)) as [(gs & Hs & Hv) _].
  assert (Hg : ro_gamma (with_d4 d4) = 1 / 4) by (cbn; unfold nfrac; cbn; lra).
  pose proof (ramp_stages (ro_gamma (with_d4 d4)) dt (m RX) Hg Hdt _ [] [] _ (Forall2_nil _) Hs) as F.
  rewrite (Hv 0%nat (Nat.lt_0_succ _)), Hx, (lc_dotl _ _ _ _ F). apply Rplus_0_l.
Qed.

Lemma gam6 : forall s1 s2 s3 s4 s5 s6, exists g1 g2 g3 g4 g5 g6, gam [s1; s2; s3; s4; s5; s6] [] = [g1; g2; g3; g4; g5; g6] /\
  4 * g1 = rs_alpha s1 + rs_d s1 + dotl (rs_c s1) [] /\ 4 * g2 = rs_alpha s2 + rs_d s2 + dotl (rs_c s2) [g1] /\
  4 * g3 = rs_alpha s3 + rs_d s3 + dotl (rs_c s3) [g1; g2] /\ 4 * g4 = rs_alpha s4 + rs_d s4 + dotl (rs_c s4) [g1; g2; g3] /\
  4 * g5 = rs_alpha s5 + rs_d s5 + dotl (rs_c s5) [g1; g2; g3; g4] /\
  4 * g6 = rs_alpha s6 + rs_d s6 + dotl (rs_c s6) [g1; g2; g3; g4; g5].
Proof.
  intros. do 6 eexists. split; [reflexivity|].
  assert (D : forall a, 4 * (a / 4) = a) by (intros; field). rewrite !D. repeat split.
Qed.

Lemma kappa_bounds : forall d4,
  (d4 = d4_code -> 3 / 100 <= kappa d4 - 1 / 2 <= 4 / 100) /\
  (d4 = - d4_code -> - / 10 ^ 14 <= kappa d4 - 1 / 2 <= / 10 ^ 14).
Proof.
  intros d4. unfold kappa, rows.
  match goal with |- context [gam [?a; ?b; ?c; ?d; ?e; ?f] []] =>
    destruct (gam6 a b c d e f) as (g1 & g2 & g3 & g4 & g5 & g6 & -> & H1 & H2 & H3 & H4 & H5 & H6) end.
  unfold weights, with_d4, default_rosenbrock, d4_code in *.
  cbn [dotl app rs_alpha rs_d rs_c rs_a ro_gamma ro_d ro_c2 ro_c3 ro_c4 ro_a2 ro_a3 ro_a4 ro_a5 ro_k2 ro_k3 ro_k4 ro_k5 ro_k6 nth] in *.
  unfold nfrac in *. cbn [ndiv nofZ RNum] in *.
  split; intros ->; lra.
Qed.

Lemma not_order : forall k, k <> 0 -> ~ local_order (fun dt => k * (dt * dt)) 2.
Proof.
  intros k Hk (C & d & Hd & H).
  assert (HC : 0 < Rabs C + 1) by (pose proof (Rabs_pos C); lra).
  pose proof (Rabs_pos_lt k Hk) as Kp.
  set (dt := Rmin d (Rabs k / (Rabs C + 1) / 2)).
  assert (P1 : 0 < Rabs k / (Rabs C + 1) / 2) by (apply Rdiv_lt_0_compat; [apply Rdiv_lt_0_compat; lra|lra]).
  assert (Hdt : 0 < dt) by (unfold dt; apply Rmin_glb_lt; assumption).
  assert (Hd1 : dt <= d) by apply Rmin_l. assert (Hd2 : dt <= Rabs k / (Rabs C + 1) / 2) by apply Rmin_r.
  pose proof (H dt (conj Hdt Hd1)) as Q. cbv beta in Q.
  rewrite Rabs_mult, (Rabs_pos_eq (dt * dt)) in Q by nra. cbn [Nat.add pow] in Q.
  assert (B : Rabs k <= C * dt).
  { apply Rmult_le_reg_r with (dt * dt); [nra|]. nra. }
  assert (C1 : C <= Rabs C) by apply RRle_abs.
  assert (B2 : (Rabs C + 1) * dt <= Rabs k / 2).
  { replace (Rabs k / 2) with ((Rabs C + 1) * (Rabs k / (Rabs C + 1) / 2)) by (field; lra). apply Rmult_le_compat_l; lra. }
  nra.
Qed.
End Ramp.

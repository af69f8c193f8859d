(** Order of convergence of the symplectic steppers on separable systems. *)
From Coq Require Import List Arith ZArith Reals Lia Lra QArith Qreals FunctionalExtensionality.
From Verif Require Import M_Num M_Sign M_Run M_Plain M_RK M_Symp S_Real S_RK S_BSeries S_Conv S_Symp S_Integrate S_Grid S_SympConv
  P_RKOrder P_ConvOrd P_R P_Plain P_PlainR P_PlainA P_BSeries P_SympR P_SympConv P_SympOrd P_SympRun T_Butcher.
Import ListNotations.
Local Open Scope R_scope.
Local Notation S := Datatypes.S.

Lemma no_excess p M h : lsum (trees p) (fun t => Q2R 0 * (M * h) ^ tsize t) <= h * 0.
Proof. rewrite (lsum_ext _ _ (fun t => 0 * 0)) by (intros t _; rewrite Q2R_0'; ring). rewrite lsum_scale. lra. Qed.

(** ** C134 *)
Theorem C134_symplectic_euler : forall eps, symp_converges eps (symplectic_euler (N := RNum eps)) 1 (fun _ _ => 0).
Proof.
  intro eps. set (sq := sqrt (7 / 8)). assert (Hsq : sq * sq = 7 / 8) by (apply sqrt_sqrt; lra).
  destruct (check_ok sq Hsq euler_S 1 (fun _ => 0%Q) euler_check) as [A B].
  assert (E : rabs sq euler_S = symplectic_euler (N := RNum eps)).
  { unfold rabs, ev, euler_S, qn, symplectic_euler. cbn [map fst snd nofZ RNum]. rewrite Q2R_1', Q2R_0'.
    assert (Z : 1 + 0 * sq = 1) by ring. rewrite Z. reflexivity. }
  rewrite E in A, B.
  refine (symp_conv eps _ 1 (fun _ => Q2R 0) (fun _ _ => 0) (le_n _) _ A B _ _); [discriminate| |].
  - intros M h _ _. apply no_excess.
  - intros. lra.
Qed.
Print Assumptions C134_symplectic_euler.

Theorem C134_sb3a_m4_mclachlan : forall eps sq, sq * sq = 7 / 8 ->
  symp_converges eps (sb3a_m4_mclachlan (N := RNum eps) sq) 4 (fun _ _ => 0).
Proof.
  intros eps sq Hsq.
  destruct (check_ok sq Hsq m4_S 4 (fun _ => 0%Q) m4_check) as [A B].
  assert (E : rabs sq m4_S = sb3a_m4_mclachlan (N := RNum eps) sq).
  { unfold rabs, ev, m4_S, qn, sb3a_m4_mclachlan, Q2R. cbn. repeat (f_equal; try field). }
  rewrite E in A, B.
  refine (symp_conv eps _ 4 (fun _ => Q2R 0) (fun _ _ => 0) ltac:(lia) _ A B _ _); [discriminate| |].
  - intros M h _ _. apply no_excess.
  - intros. lra.
Qed.
Print Assumptions C134_sb3a_m4_mclachlan.

(** The decimal constants of sb3a_mclachlan meet the conditions of order 3 and 4 up to 10^-20. *)
Lemma sb3a_coefs eps sq : rabs sq sb3a_S = sb3a_mclachlan (N := RNum eps).
Proof. unfold rabs, ev, sb3a_S, qn, sb3a_mclachlan, Q2R, nfrac. cbn. repeat (f_equal; try field). Qed.
Theorem C134_sb3a_mclachlan : forall eps,
  symp_converges eps (sb3a_mclachlan (N := RNum eps)) 2 (fun _ _ => 0)
  /\ symp_converges eps (sb3a_mclachlan (N := RNum eps)) 4 (fun M h => / 10 ^ 20 * (2 * M ^ 3 * h ^ 2 + 5 * M ^ 4 * h ^ 3)).
Proof.
  intro eps. set (sq := sqrt (7 / 8)). assert (Hsq : sq * sq = 7 / 8) by (apply sqrt_sqrt; lra).
  split.
  - destruct (check_ok sq Hsq sb3a_S 2 (fun _ => 0%Q) sb3a_check2) as [A B]. rewrite (sb3a_coefs eps) in A, B.
    refine (symp_conv eps _ 2 (fun _ => Q2R 0) (fun _ _ => 0) ltac:(lia) _ A B _ _); [discriminate| |].
    + intros M h _ _. apply no_excess.
    + intros. lra.
  - destruct (check_ok sq Hsq sb3a_S 4 sb3a_dl sb3a_check) as [A B]. rewrite (sb3a_coefs eps) in A, B.
    refine (symp_conv eps _ 4 (fun t => Q2R (sb3a_dl t)) _ ltac:(lia) _ A B _ _); [discriminate| |].
    + intros M h PM Ph. 
      assert (E : Q2R (1 # 100000000000000000000) = / 10 ^ 20) by (unfold Q2R; cbn; field).
      set (d := / 10 ^ 20) in *.
      assert (X : lsum (trees 4) (fun t => Q2R (sb3a_dl t) * (M * h) ^ tsize t)
        = lsum (map tsize (trees 4)) (fun n => (if (n <=? 2)%nat then 0 else d) * (M * h) ^ n)).
      { rewrite lsum_map. apply lsum_ext. intros t _. f_equal. unfold sb3a_dl. destruct (tsize t <=? 2)%nat; [apply Q2R_0'|exact E]. }
      rewrite X. replace (map tsize (trees 4)) with [1; 2; 3; 4; 4; 3; 4; 4; 4]%nat by (vm_compute; reflexivity).
      unfold lsum. cbn [map rsum fold_right Nat.leb]. right. ring.
    + intros M h h' PM Ph. assert (D0 : 0 <= / 10 ^ 20) by (left; apply Rinv_0_lt_compat; apply pow_lt; lra).
      assert (X2 : 0 <= h ^ 2 <= h' ^ 2) by (split; [apply pow_le; lra|apply pow_incr; lra]).
      assert (X3 : 0 <= h ^ 3 <= h' ^ 3) by (split; [apply pow_le; lra|apply pow_incr; lra]).
      pose proof (pow_le M 3 PM) as P3. pose proof (pow_le M 4 PM) as P4.
      assert (Y2 : 0 <= 2 * M ^ 3 * h ^ 2 <= 2 * M ^ 3 * h' ^ 2) by (split; [apply Rmult_le_pos; lra|apply Rmult_le_compat_l; lra]).
      assert (Y3 : 0 <= 5 * M ^ 4 * h ^ 3 <= 5 * M ^ 4 * h' ^ 3) by (split; [apply Rmult_le_pos; lra|apply Rmult_le_compat_l; lra]).
      split; [apply Rmult_le_pos; lra|apply Rmult_le_compat_l; lra].
Qed.
Print Assumptions C134_sb3a_mclachlan.

(** ** Example: the pendulum on its separatrix, q'' = sin q with q = 4 atan( exp t ). *)
Definition pend (q : unit -> R) : unit -> R := fun i => sin (q i).
Definition pend_y (t : R) : (unit -> R) * (unit -> R) := (fun i => 2 * sin_y t i, fun i => 2 * sin (sin_y t i)).
Definition pend_D (v : unit + unit -> R) (l : list (unit + unit -> R)) : unit + unit -> R :=
  fun k => match k with
  | inl i => match l with [] => v (inr i) | [u] => u (inr i) | _ => 0 end
  | inr i => sin (v (inl i) + INR (length l) * (PI / 2)) * fold_right (fun u z => u (inl i) * z) 1 l
  end.
Lemma pend_solves T : solves T (fun p => p) pend pend_y.
Proof.
  intros t i Ht. unfold pend_y. cbn [fst snd]. split.
  - apply (derivable_pt_lim_scal (fun s => sin_y s i)). exact (sin_solution T t i Ht).
  - unfold pend. rewrite sin_2a. replace (2 * sin (sin_y t i) * cos (sin_y t i)) with (2 * (cos (sin_y t i) * sin (sin_y t i))) by ring.
    apply (derivable_pt_lim_scal (fun s => sin (sin_y s i))).
    apply (derivable_pt_lim_comp (fun s => sin_y s i) sin); [exact (sin_solution T t i Ht)|apply derivable_pt_lim_sin].
Qed.
Lemma prods_pos {J} (j : J) rs l : Forall2 (bnd (J := J)) rs l -> 0 <= fold_right Rmult 1 rs.
Proof.
  intro F. induction F as [|r u rs l Hu F IH]; cbn; [lra|]. apply Rmult_le_pos; [|exact IH]. specialize (Hu j). pose proof (Rabs_pos (u j)). lra.
Qed.
Lemma pend_taylor p T : taylor p 2 (fun v => exists t, T t /\ v = phase (pend_y t)) (separable (fun p => p) pend) pend_D.
Proof.
  split.
  - intros y l l' a b u v [i|i] _.
    + cbn [pend_D]. destruct l as [|x1 [|x2 l]]; cbn [app]; [destruct l'; ring|ring|destruct l; cbn [app]; ring].
    + cbn [pend_D]. rewrite !app_length. cbn [length].
      set (s := sin (y (inl i) + INR (length l + S (length l')) * (PI / 2))).
      assert (E : forall w, fold_right (fun u z => u (inl i) * z) 1 (l ++ w :: l')
        = w (inl i) * (fold_right (fun (u : unit + unit -> R) z => u (inl i) * z) 1 l * fold_right (fun u z => u (inl i) * z) 1 l')).
      { intro w. clear. induction l as [|x l IH]; cbn [app fold_right]; [ring|]. rewrite IH. ring. }
      rewrite !E. ring.
  - intros y l rs [i|i] (t & _ & ->) _ F.
    + cbn [pend_D]. pose proof (prods_pos (inl tt) rs l F) as Z.
      destruct F as [|r u rs l Hu F]; [|destruct F as [|r2 u2 rs l Hu2 F]].
      * cbn [phase pend_y snd fold_right]. rewrite Rabs_mult, (Rabs_pos_eq 2) by lra. pose proof (SIN_bound (sin_y t i)).
        assert (Rabs (sin (sin_y t i)) <= 1) by (apply Rabs_le; lra). lra.
      * cbn [fold_right] in *. specialize (Hu (inr i)). pose proof (Rabs_pos (u (inr i))). lra.
      * rewrite Rabs_R0. lra.
    + cbn [pend_D]. rewrite Rabs_mult.
      assert (Z : 0 <= fold_right Rmult 1 rs /\ Rabs (fold_right (fun u z => u (inl i) * z) 1 l) <= fold_right Rmult 1 rs).
      { clear - F. induction F as [|r u rs l Hu F [IH1 IH2]]; cbn [fold_right]; [rewrite Rabs_R1; lra|].
        specialize (Hu (inl i)). pose proof (Rabs_pos (u (inl i))). rewrite Rabs_mult. split; [apply Rmult_le_pos; lra|].
        apply Rmult_le_compat; auto using Rabs_pos. }
      destruct Z as [Z1 Z2]. apply Rmult_le_compat; auto using Rabs_pos.
      pose proof (SIN_bound (phase (pend_y t) (inl i) + INR (length l) * (PI / 2))). apply Rabs_le. lra.
  - intros y w r m [i|i] _ Hm Hw.
    + cbn [separable pend_D]. pose proof (Hw (inr i)) as Hi. pose proof (Rabs_pos (w (inr i))) as Pi.
      assert (Pr : 0 <= r ^ m) by (apply pow_le; lra).
      destruct m as [|[|m]]; [lia| |].
      * unfold sumn. cbn. replace (y (inr i) + w (inr i) - (y (inr i) / 1 + 0)) with (w (inr i)) by field. lra.
      * rewrite !sumn_shift. cbn [repeat fact INR]. rewrite sumn_zero by (intros k _; cbn [repeat]; unfold Rdiv; ring).
        cbn. replace (y (inr i) + w (inr i) - (y (inr i) / 1 + (w (inr i) / 1 + 0))) with 0 by field. rewrite Rabs_R0. cbn in Pr. lra.
    + cbn [separable pend_D]. unfold pend. rewrite (sumn_ext m _ (fun k => sin (y (inl i) + INR k * (PI / 2)) * w (inl i) ^ k / INR (fact k))).
      * eapply Rle_trans; [apply sin_rem|]. apply Rmult_le_compat; [lra|apply pow_le, Rabs_pos|lra|]. apply pow_incr. split; [apply Rabs_pos|apply Hw].
      * intros k _. rewrite repeat_length. f_equal. f_equal. clear. induction k; [reflexivity|]. cbn [repeat fold_right pow]. now rewrite IHk.
Qed.
Lemma pend_lip : lip 1 (fun p : unit -> R => p) /\ lip 1 pend.
Proof.
  split; intros u v D Huv i; [specialize (Huv i); lra|].
  exact (sin_lipschitz (fun _ => True) u v 0 D Logic.I Huv i).
Qed.

(** The steppers reach their orders on it: runs of n steps over the times from 0 to 1. *)
Example C134_example : exists C, 0 <= C /\ forall (dt : R) n s tr r, 0 < dt <= 1 -> INR n * dt <= 1 ->
  integrate_n_steps (N := RNum 0) rec_obs (plain_step (symp_stp (SMom (N := RNum 0) pend) (sb3a_m4_mclachlan (N := RNum 0) (sqrt (7 / 8))))) s tt (pend_y 0) 0%R dt n = (tr, Ok r) ->
  forall x' t', In (x', t') (obs_of tr) -> Rabs (t' - 0) <= 1 -> within (C * dt ^ 4) x' (pend_y t').
Proof.
  destruct (C134_sb3a_m4_mclachlan 0 (sqrt (7 / 8)) ltac:(apply sqrt_sqrt; lra) unit 2 1 1 ltac:(lra) ltac:(lra) ltac:(lra)) as (G & E & PG & PE & B).
  exists (exp G * E). split; [apply Rmult_le_pos; [left; apply exp_pos|exact PE]|].
  intros dt n s tr r Hdt Hn R1 x' t' Hin Ht.
  destruct (B (SMom (N := RNum 0) pend) pend_y pend_D (fun _ => True) (fun _ _ _ _ _ _ => Logic.I) (pend_taylor 4 _) (pend_solves _)) as [_ B2].
  assert (Ed : dir dt = 1) by (destruct (dir_cases dt) as [[_ E0]|[E0 _]]; [exact E0|lra]).
  assert (Ea : Rabs dt = dt) by (apply Rabs_pos_eq; lra).
  specialize (B2 (proj1 pend_lip) (proj2 pend_lip) unit 0 1 dt 0 (pend_y 0) s tt O tr (Rle_refl 0) ltac:(lra) ltac:(rewrite Ed; lra) ltac:(lra) (Rle_refl 0)
    ltac:(intro i; rewrite !Rminus_diag_eq, Rabs_R0 by reflexivity; lra) (fun _ _ => Logic.I)
    ltac:(right; right; exists r, n; split; [exact R1|rewrite Ed; lra]) x' t' Hin).
  rewrite Ea in B2. intro i. destruct (B2 i) as [B3 B4]. set (a := Rabs (t' - 0)) in *. assert (Pa : 0 <= a) by apply Rabs_pos.
  assert (Z : exp (G * a) * (0 + (E * dt ^ 4 + 0) * a) <= exp G * E * dt ^ 4).
  { assert (Z1 : exp (G * a) <= exp G).
    { destruct (Req_dec (G * a) G) as [->|Q]; [lra|]. left. apply exp_increasing. nra. }
    assert (Pd : 0 <= E * dt ^ 4) by (apply Rmult_le_pos; [exact PE|apply pow_le; lra]).
    replace (0 + (E * dt ^ 4 + 0) * a) with (E * dt ^ 4 * a) by ring. rewrite (Rmult_assoc (exp G)).
    apply Rmult_le_compat; [left; apply exp_pos|apply Rmult_le_pos; assumption|exact Z1|].
    rewrite <- (Rmult_1_r (E * dt ^ 4)) at 2. apply Rmult_le_compat_l; assumption. }
  split; lra.
Qed.

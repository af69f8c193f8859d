(** Convergence of the symplectic steppers: from the order conditions to runs of the integrate functions. *)
From Coq Require Import List Arith ZArith Reals Lia Lra QArith Qreals.
From Verif Require Import M_Num M_Sign M_Run M_Plain M_RK M_Symp S_Real S_RK S_BSeries S_Conv S_Symp S_Integrate S_Grid S_SympConv
  P_R P_Plain P_PlainR P_PlainA P_BSeries P_OneStepX P_Symp P_SympR P_SympConv.
Import ListNotations.
Local Open Scope R_scope.
Local Notation S := Datatypes.S.

Lemma symp_step eps I (sys : sysys (RNum eps) I) (abs : list (R * R)) dq dp x t h : abs <> [] ->
  fst (sy_do_step (N := RNum eps) sys abs dq dp x t h) = applies (drift_of sys) (kick_of sys) h (flat abs) x.
Proof.
  intro Ha. pose proof (do_step_spec (N := RNum eps) sys abs dq dp x t h Ha) as E. apply (f_equal fst) in E. cbn [fst] in E.
  eapply eq_trans; [exact E|]. eapply eq_trans; [apply (shears_R eps)|]. destruct sys; reflexivity.
Qed.

Theorem symp_conv eps abs p dl (excess : R -> R -> R) : (1 <= p)%nat -> abs <> [] ->
  (forall t, In t (trees p) -> Rabs (sumn (2 * length abs) (fun m => wq abs m * ph (aa abs) t m) - / IZR (gamma t)) <= dl t) ->
  (forall t, In t (trees p) -> Rabs (sumn (2 * length abs) (fun m => wp abs m * ph (aa abs) t m) - / IZR (gamma t)) <= dl t) ->
  (forall M h, 0 <= M -> 0 <= h -> lsum (trees p) (fun t => dl t * (M * h) ^ tsize t) <= h * excess M h) ->
  (forall M h h', 0 <= M -> 0 <= h <= h' -> 0 <= excess M h <= excess M h') ->
  symp_converges eps abs p excess.
Proof.
  intros Hp Ha Hq Hpp Hex Hmono I M H L HM HH HL.
  destruct (symp_local (I := I) p M H HM HH Hp abs dl Hq Hpp) as (E & PE & B).
  exists (lam L H (flat abs)), E. split; [now apply lam_pos|]. split; [exact PE|].
  intros sys y DD T f g Tc Tay Sol.
  assert (Loc : forall t h dq dp, T t -> T (t + h) -> Rabs h <= H ->
     within (E * Rabs h ^ S p + Rabs h * excess M (Rabs h)) (fst (sy_do_step (N := RNum eps) sys abs dq dp (y t) t h)) (y (t + h))).
  { intros t h dq dp Ht Hth Hh i. rewrite (symp_step eps I sys abs dq dp (y t) t h Ha).
    destruct (B f g y DD T Tc Tay Sol t h Ht Hth Hh i) as [B1 B2]. pose proof (Hex M (Rabs h) HM (Rabs_pos h)) as X1.
    change (carrier (RNum eps)) with R in *. fold f. fold g. split; lra. }
  split; [exact Loc|]. intros Lf Lg W t0 tend dt D x s w fuel tr He Hd Hdir Hdt HD Hx Hsp Hrun x' t' Hin.
  set (Step := fun (x : (I -> R) * (I -> R)) (t h : R) x' => x' = applies f g h (flat abs) x).
  set (Tn := span eps t0 tend (dir dt)) in *.
  assert (Hstp : forall s x t dt, Step x t dt (snd (symp_stp sys abs s x t dt))).
  { intros s0 x0 t1 d1. unfold Step, symp_stp. cbn [snd]. exact (symp_step eps I sys abs _ _ x0 t1 d1 Ha). }
  assert (Hl : exists l, obs_of tr = (x, t0) :: l /\ linked (stepT Step (dir dt) Tn (Rabs dt)) ((x, t0) :: l)).
  { destruct Hrun as [[r E1]|[[r E1]|(r & n & E1 & Hn)]].
    - exact (const_linked Step eps He (symp_stp sys abs) Hstp t0 tend dt Hd Hdir x fuel s w tr r E1).
    - exact (adaptive_linked Step eps He (symp_stp sys abs) Hstp t0 tend dt Hd Hdir x fuel s w tr r E1).
    - destruct (n_steps_pure (N := RNum eps) (symp_stp sys abs) s w x t0 dt n) as (tr2 & E2 & Ho & _).
      pose proof (eq_trans (eq_sym E1) E2) as E3. apply (f_equal fst) in E3. cbn [fst] in E3. subst tr2.
      destruct (grid_list eps (symp_stp sys abs) t0 dt x s n) as [l El]. exists l. split; [exact (eq_trans Ho El)|].
      refine (eq_ind _ (fun q => linked (stepT Step (dir dt) Tn (Rabs dt)) q) _ _ El).
      apply (grid_linked Step eps (symp_stp sys abs) Hstp); [exact Hd|].
      apply (grid_span eps He t0 tend dt Hdir n). now right. }
  destruct Hl as (l & Ho & Hl). rewrite Ho in Hin.
  set (C := E * Rabs dt ^ p + excess M (Rabs dt)).
  pose proof (Rabs_pos dt) as Pdt.
  assert (PC : 0 <= C).
  { unfold C. pose proof (Hmono M (Rabs dt) (Rabs dt) HM ltac:(lra)) as [X1 _]. pose proof (pow_le (Rabs dt) p Pdt). nra. }
  assert (Hloc : forall x t h D x', 0 <= D -> Tn t -> Tn (t + h) -> Rabs h <= Rabs dt -> within D x (y t) -> Step x t h x' ->
    within ((1 + Rabs h * lam L H (flat abs)) * D + C * Rabs h ^ 1) x' (y (t + h))).
  { intros z t h D0 z' HD0 Ht Hth Hh Hz HS i. unfold Step in HS. subst z'.
    pose proof (ops_grow f g L H h HL ltac:(lra) Lf Lg (flat abs) D0 z (y t) HD0 Hz i) as [G1 G2].
    pose proof (Loc t h (fun _ => 0) (fun _ => 0) (Hsp t Ht) (Hsp (t + h) Hth) ltac:(lra) i) as LL.
    rewrite (symp_step eps I sys abs _ _ (y t) t h Ha) in LL. destruct LL as [L1 L2].
    change (carrier (RNum eps)) with R in *. fold f in L1, L2. fold g in L1, L2. pose proof (Rabs_pos h) as Ph.
    assert (X1 : E * Rabs h ^ S p + Rabs h * excess M (Rabs h) <= C * Rabs h ^ 1).
    { unfold C. cbn [pow]. destruct (Hmono M (Rabs h) (Rabs dt) HM ltac:(lra)) as [X1 X2].
      assert (X3 : Rabs h ^ p <= Rabs dt ^ p) by (apply pow_incr; lra).
      assert (X4 : E * Rabs h ^ p <= E * Rabs dt ^ p) by (apply Rmult_le_compat_l; assumption).
      replace (E * (Rabs h * Rabs h ^ p) + Rabs h * excess M (Rabs h)) with ((E * Rabs h ^ p + excess M (Rabs h)) * (Rabs h * 1)) by ring.
      apply Rmult_le_compat_r; lra. }
    split.
    - replace (fst (applies f g h (flat abs) z) i - fst (y (t + h)) i) with ((fst (applies f g h (flat abs) z) i - fst (applies f g h (flat abs) (y t)) i)
        + (fst (applies f g h (flat abs) (y t)) i - fst (y (t + h)) i)) by ring.
      eapply Rle_trans; [apply Rabs_triang|]. lra.
    - replace (snd (applies f g h (flat abs) z) i - snd (y (t + h)) i) with ((snd (applies f g h (flat abs) z) i - snd (applies f g h (flat abs) (y t)) i)
        + (snd (applies f g h (flat abs) (y t)) i - snd (y (t + h)) i)) by ring.
      eapply Rle_trans; [apply Rabs_triang|]. lra. }
  pose proof (onestep_error Step (dir dt) (dir_pm' dt) Tn (lam L H (flat abs)) C (Rabs dt) 0 ltac:(now apply lam_pos) PC
    (fun x t D => within D x (y t)) ltac:(intros z t D1 D2 HD12 Hz i; destruct (Hz i); split; lra) Hloc (Rabs dt) ltac:(lra)
    l x t0 D HD (T_start eps He t0 tend dt Hdir) Hx Hl x' t' Hin) as [_ R1].
  cbn [pow] in R1. rewrite Rmult_1_r in R1. exact R1.
Qed.

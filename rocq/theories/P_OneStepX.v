(** Global error of any one-step method whose states are of any type: runs of the integrate functions. *)
From Coq Require Import List Arith ZArith Reals Lia Lra.
From Verif Require Import M_Num M_Sign M_Run M_Plain M_Controlled S_Grid M_RK S_RK S_Real S_Integrate S_Conv
  P_Run P_R P_Plain P_PlainR P_PlainA P_Integrate P_Conv P_ConvRun.
Import ListNotations.
Local Open Scope R_scope.

Section One.
Context {X : Type}.
Variable Step : X -> R -> R -> X -> Prop.

(** One step of width at most [hm]. *)
Definition stepT (sg : R) (T : R -> Prop) (hm : R) (p q : X * R) : Prop :=
  Step (fst p) (snd p) (snd q - snd p) (fst q) /\ 0 < sg * (snd q - snd p) <= hm /\ T (snd q).

Section G.
Variable sg : R.
Hypothesis Hsg : sg = 1 \/ sg = -1.
Variable T : R -> Prop.
Variables Lam E H : R.
Variable p : nat.
Hypothesis PG : 0 <= Lam.
Hypothesis HE0 : 0 <= E.
(** The state is within [D] of the solution. *)
Variable near : X -> R -> R -> Prop.
Hypothesis near_mono : forall x t D D', D <= D' -> near x t D -> near x t D'.
Hypothesis Hloc : forall x t h D x', 0 <= D -> T t -> T (t + h) -> Rabs h <= H -> near x t D -> Step x t h x' ->
  near x' (t + h) ((1 + Rabs h * Lam) * D + E * Rabs h ^ Datatypes.S p).

Theorem onestep_error hm : 0 <= hm <= H -> forall l x t D, 0 <= D -> T t -> near x t D ->
  linked (stepT sg T hm) ((x, t) :: l) ->
  forall x' t', In (x', t') ((x, t) :: l) ->
  0 <= sg * (t' - t) /\
  near x' t' (exp (Lam * Rabs (t' - t)) * (D + E * hm ^ p * Rabs (t' - t))).
Proof.
  intros Hm. set (C := E * hm ^ p) in *.
  assert (PC : 0 <= C) by (apply Rmult_le_pos; [exact HE0|apply pow_le; lra]).
  induction l as [|[x1 t1] l IH]; intros x t D HD Ht Hx Hl x' t' Hin.
  - destruct Hin as [Eq|[]]. injection Eq as -> ->. rewrite Rminus_diag_eq, Rabs_R0, !Rmult_0_r, exp_0 by reflexivity.
    split; [lra|]. eapply near_mono; [|exact Hx]. lra.
  - destruct Hin as [Eq|Hin].
    { injection Eq as -> ->. rewrite Rminus_diag_eq, Rabs_R0, !Rmult_0_r, exp_0 by reflexivity.
      split; [lra|]. eapply near_mono; [|exact Hx]. lra. }
    destruct Hl as [(HS & [P1 P2] & HT) Hl]. cbn [fst snd] in HS, P1, P2, HT.
    set (h := t1 - t) in *. assert (E1 : t1 = t + h) by (unfold h; ring).
    assert (Ah : Rabs h = sg * h) by (apply sg_abs; auto; lra).
    assert (HT2 : T (t + h)) by now rewrite <- E1.
    pose proof (Hloc x t h D x1 HD Ht HT2 ltac:(lra) Hx HS) as B.  rewrite <- E1 in B.
    assert (Pb : 0 <= Rabs h) by apply Rabs_pos.
    assert (Z1 : E * Rabs h ^ Datatypes.S p <= C * Rabs h).
    { unfold C. cbn [pow]. replace (E * (Rabs h * Rabs h ^ p)) with (E * Rabs h ^ p * Rabs h) by ring.
      apply Rmult_le_compat_r; [exact Pb|]. apply Rmult_le_compat_l; [exact HE0|]. apply pow_incr. lra. }
    set (D1 := (1 + Rabs h * Lam) * D + C * Rabs h).
    assert (PLb : 0 <= Rabs h * Lam) by now apply Rmult_le_pos.
    assert (PCb : 0 <= C * Rabs h) by now apply Rmult_le_pos.
    assert (PD1 : 0 <= D1) by (unfold D1; nra).
    assert (B1 : near x1 t1 D1) by (eapply near_mono; [|exact B]; unfold D1; lra).
    destruct (IH x1 t1 D1 PD1 HT B1 Hl x' t' Hin) as [P3 Q].
    assert (A1 : Rabs (t' - t1) = sg * (t' - t1)) by now apply sg_abs.
    assert (P4 : sg * (t' - t) = sg * (t' - t1) + sg * h) by (unfold h; ring).
    assert (A2 : Rabs (t' - t) = Rabs (t' - t1) + Rabs h) by (rewrite (sg_abs sg Hsg (t' - t)); lra).
    split; [lra|]. eapply near_mono; [|exact Q]. rewrite A2.
    set (a := Rabs (t' - t1)) in *. set (b := Rabs h) in *.
    assert (Pa : 0 <= a) by apply Rabs_pos.
    replace (Lam * (a + b)) with (Lam * a + Lam * b) by ring. rewrite exp_plus, (Rmult_assoc (exp (Lam * a)) (exp (Lam * b))).
    apply Rmult_le_compat_l; [apply Rlt_le, exp_pos|].
    assert (E2 : 1 + Lam * b <= exp (Lam * b)) by apply exp_ineq1_le.
    assert (Z2 : 0 <= C * (a + b)) by (apply Rmult_le_pos; lra).
    assert (Z4 : (1 + Lam * b) * D <= exp (Lam * b) * D) by (apply Rmult_le_compat_r; assumption).
    assert (Z5 : 1 * (C * (a + b)) <= exp (Lam * b) * (C * (a + b))) by (apply Rmult_le_compat_r; lra).
    unfold D1. replace (C * (a + b)) with (C * a + C * b) in * by ring. lra.
Qed.
End G.

Section Run.
Variable eps : R.
Hypothesis Heps : 0 <= eps.
Notation NN := (RNum eps).
Context {S W : Type}.
Variable stp : S -> X -> NN -> NN -> S * X.
Hypothesis Hstp : forall s x t dt, Step x t dt (snd (stp s x t dt)).

Lemma grid_linked (T : R -> Prop) t0 dt s x N0 : dt <> 0 -> (forall k, (k <= N0)%nat -> T (t0 + INR k * dt)) ->
  linked (stepT (dir dt) T (Rabs dt))
    (map (fun k => (snd (after (N := NN) stp t0 dt s x k), @grid NN t0 dt k)) (seq 0 (Datatypes.S N0))).
Proof.
  intros Hd HT. apply linked_map_seq. intros j Hj. unfold stepT. cbn [fst snd]. rewrite !grid_R, S_INR.
  replace (t0 + (INR j + 1) * dt - (t0 + INR j * dt)) with dt by ring.
  split; [|split].
  - cbn [after]. destruct (after (N := NN) stp t0 dt s x j) as [s' x'] eqn:E. cbn [snd].
    rewrite grid_R. apply Hstp.
  - rewrite dir_abs. split; [now apply Rabs_pos_lt|lra].
  - rewrite <- S_INR. apply HT. lia.
Qed.

Variables t0 tend dt : R.
Hypothesis Hdt : dt <> 0.
Hypothesis Hdir : 0 <= dir dt * (tend - t0).
Notation T := (span eps t0 tend (dir dt)).
Variable x : X.

Lemma dir_pm' : dir dt = 1 \/ dir dt = -1.
Proof. destruct (dir_cases dt) as [[_ ->]|[_ ->]]; auto. Qed.

Lemma T_start : T t0.
Proof. unfold span. rewrite Rminus_diag_eq, Rmult_0_r by reflexivity. split; lra. Qed.

Lemma linked_T hm : forall l x0 t1, T t1 -> linked (stepT (dir dt) T hm) ((x0, t1) :: l) ->
  forall x' t', In (x', t') ((x0, t1) :: l) -> T t'.
Proof.
  induction l as [|[x1 t2] l IH]; intros x0 t1 HT Hl x' t' [E|Hin].
  - apply (f_equal snd) in E. cbn in E. now subst t'.
  - destruct Hin.
  - apply (f_equal snd) in E. cbn in E. now subst t'.
  - destruct Hl as [(_ & _ & H2) Hl]. exact (IH x1 t2 H2 Hl x' t' Hin).
Qed.

Lemma grid_span N0 : (N0 = O \/ dir dt * (t0 + INR N0 * dt - tend) <= eps) ->
  forall k, (k <= N0)%nat -> T (t0 + INR k * dt).
Proof.
  intros HN k Hk. unfold span. assert (P : 0 <= INR k) by apply pos_INR.
  replace (t0 + INR k * dt - t0) with (INR k * dt) by ring.
  replace (dir dt * (INR k * dt)) with (INR k * (dir dt * dt)) by ring. rewrite dir_abs.
  pose proof (Rabs_pos dt) as Pd. split; [now apply Rmult_le_pos|].
  replace (dir dt * (t0 + INR k * dt - tend)) with (INR k * (dir dt * dt) - dir dt * (tend - t0)) by ring.
  rewrite dir_abs. destruct HN as [->|HN].
  - assert (k = 0)%nat by lia. subst k. cbn. lra.
  - replace (dir dt * (t0 + INR N0 * dt - tend)) with (INR N0 * (dir dt * dt) - dir dt * (tend - t0)) in HN by ring.
    rewrite dir_abs in HN. apply le_INR in Hk. nra.
Qed.

Lemma grid_list s N0 : exists l,
  map (fun k => (snd (after (N := NN) stp t0 dt s x k), @grid NN t0 dt k)) (seq 0 (Datatypes.S N0)) = (x, t0) :: l.
Proof. eexists. reflexivity. Qed.

Lemma const_linked fuel s (w : W) tr r :
  integrate_const (N := NN) rec_obs (plain_step stp) fuel s w x t0 tend dt = (tr, Ok r) ->
  exists l, obs_of tr = (x, t0) :: l /\ linked (stepT (dir dt) T (Rabs dt)) ((x, t0) :: l).
Proof.
  intro E. destruct r as [r0 m]. pose proof (integrate_const_ok_inv (N := NN) _ _ _ _ _ _ _ _ _ _ _ _ E) as [Hf Hm].
  destruct (const_pure (N := NN) stp fuel s w x t0 tend dt m Hf Hm) as (tr2 & E2 & Ho & _).
  rewrite E in E2. apply (f_equal fst) in E2. cbn [fst] in E2. subst tr2.
  assert (HN : m = O \/ dir dt * (t0 + INR m * dt - tend) <= eps).
  { destruct m as [|m]; [now left|right]. apply (const_count_before eps t0 tend dt (Datatypes.S m) (Datatypes.S m) Hf). lia. }
  pose proof (grid_linked T t0 dt s x m Hdt (grid_span m HN)) as Hl.
  destruct (grid_list s m) as [l El]. rewrite El in Hl. exists l. split; [exact (eq_trans Ho El)|exact Hl].
Qed.

Lemma adaptive_linked fuel s (w : W) tr r :
  integrate_adaptive_plain (N := NN) rec_obs (plain_step stp) fuel s w x t0 tend dt = (tr, Ok r) ->
  exists l, obs_of tr = (x, t0) :: l /\ linked (stepT (dir dt) T (Rabs dt)) ((x, t0) :: l).
Proof.
  intro E.
  destruct (const_count eps t0 tend dt Hdt) as [m Hm].
  assert (HN : m = O \/ dir dt * (t0 + INR m * dt - tend) <= eps).
  { destruct m as [|m]; [now left|right]. apply (const_count_before eps t0 tend dt (Datatypes.S m) (Datatypes.S m) Hm). lia. }
  pose proof (const_count_last eps t0 tend dt m Hm) as Hlast.
  assert (Hfu : (m < fuel)%nat).
  { unfold integrate_adaptive_plain in E. apply bind_ok_inv in E as (tr1 & [[[s1 w1] x1] k] & tr2 & E1 & _).
    pose proof (integrate_const_ok_inv (N := NN) _ _ _ _ _ _ _ _ _ _ _ _ E1) as [Hf Hk].
    destruct (Nat.lt_trichotomy k m) as [C|[C|C]]; [|lia|].
    - destruct Hm as [A _]. destruct Hf as [_ B]. rewrite (A k C) in B. discriminate.
    - lia. }
  pose proof (integrate_adaptive_plain_exec (N := NN) (@rec_obs R X W) (plain_step stp) fuel s w x t0 tend dt m Hm Hfu) as Hrun.
  rewrite (exec_schedule_pure (N := NN)) in Hrun. unfold bind at 1 in Hrun.
  pose proof (grid_linked T t0 dt s x m Hdt (grid_span m HN)) as Hl.
  destruct (grid_list s m) as [l El].
  destruct (@less_with_sign NN _ tend dt) eqn:Els.
  - apply less_R in Els. rnum. rewrite nofnat_R in *.
    replace (dt * INR m) with (INR m * dt) in * by ring.
    set (e := t0 + INR m * dt) in *.
    assert (Eg : @grid NN t0 dt m = e) by apply grid_R.
    apply (eq_trans (eq_sym Hrun)) in E. clear Hrun. cbn [S_Grid.exec] in E. unfold plain_step in E.
    match type of E with context [stp s ?a ?b ?c] => pose proof (Hstp s a b c) as HS; destruct (stp s a b c) as [s2 x2] end. cbn [snd] in HS.
    unfold bind, rec_obs, ret in E. cbn [app] in E. apply (f_equal fst) in E. cbn [fst] in E. 
    assert (Eo : obs_of tr = ((x, t0) :: l) ++ [(x2, tend)]).
    { rewrite <- E. etransitivity; [apply obs_of_app|]. apply (f_equal2 (@app _)); [|reflexivity].
      etransitivity; [apply (schedule_obs (N := NN))|exact El]. }
    rewrite El in Hl. exists (l ++ [(x2, tend)]). split; [exact Eo|].
    assert (Elast : last ((x, t0) :: l) (x, t0) = (snd (after (N := NN) stp t0 dt s x m), e)).
    { rewrite <- El, seq_S, map_app. cbn [map plus]. rewrite last_last. now rewrite Eg. }
    apply (linked_snoc _ (x2, tend) l (x, t0) Hl).
    refine (eq_ind_r (fun q => stepT (dir dt) T (Rabs dt) q (x2, tend)) _ Elast). unfold stepT.
    cbn [fst snd]. split; [exact HS|].
    split; [split; [lra|unfold e in *; lra]|]. unfold span. rewrite (Rminus_diag_eq tend tend), Rmult_0_r by reflexivity. split; lra.
  - unfold ret in Hrun. apply (eq_trans (eq_sym Hrun)) in E. apply (f_equal fst) in E. cbn [fst] in E. rewrite app_nil_r in E.
    assert (Eo := eq_trans (f_equal obs_of (eq_sym E)) (schedule_obs (N := NN) stp t0 dt s x m)).
    exists l. rewrite El in Hl. split; [exact (eq_trans Eo El)|exact Hl].
Qed.

End Run.
End One.

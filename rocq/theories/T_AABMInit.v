(** C130: adaptive_adams_bashforth_moulton::initialize( system , inOut , t , dt ). *)
From Coq Require Import ZArith List Bool Arith Lia Reals Lra QArith FinFun.
From Verif Require Import M_Num M_Run M_RK M_CtrlRK M_Midpoint M_Adams M_AABM S_RK S_Adams S_AABM
  P_R P_Poly P_BS P_Adams P_AABM P_AABM2 P_Newton P_AABMR P_CABM T_AABM X_Inst.
Import ListNotations.
Local Open Scope res_scope.
Local Open Scope nat_scope.

(** [m] points with distance [d], the latest at [t], latest first. *)
Definition spaced (m : nat) (t d : R) : list R := map (fun j => (t - INR j * d)%R) (seq 0 m).

Lemma spaced_cons m t d : spaced (S m) (t + d)%R d = (t + d)%R :: spaced m t d.
Proof.
  unfold spaced. cbn [seq map]. f_equal; [cbn [INR]; ring|]. rewrite <- seq_shift, map_map. apply map_ext. intro j. rewrite S_INR. ring.
Qed.
Lemma spaced_nodup m t d : d <> 0%R -> NoDup (spaced m t d).
Proof.
  intro Hd. unfold spaced. apply Injective_map_NoDup; [|apply seq_NoDup].
  intros i j E. apply INR_eq. apply (Rmult_eq_reg_r d); [|exact Hd]. lra.
Qed.

Lemma Forall_first {A} (P : A -> Prop) : forall l k, Forall P l -> Forall P (firstn k l).
Proof. induction l as [|p l IHl]; intros [|k] F; cbn [firstn]; constructor; inversion F; subst; auto. Qed.

Section I.
Variable eps : R.
Context {I : Type}.
Notation NN := (RNum eps).
Variable ov : nat.
Hypothesis Hov : 1 <= ov.
Variable sys : (I -> R) -> R -> (I -> R).
Variable s0 : aac NN I.
Hypothesis H0 : aabm_obj ov s0.

Lemma own_steps (d : R) (Hd : d <> 0%R) : forall n (s : aac NN I) (h : list (R * (I -> R))) (x : I -> R) (t : R) m,
  aabm_obj ov s -> aabm_trace (N := NN) ov s0 h s -> starts (N := NN) h t ->
  map fst (with_start (N := NN) h t (sys x t)) = spaced m t d -> 1 <= m ->
  (exists tl, with_start (N := NN) h t (sys x t) = (t, sys x t) :: tl) ->
  exists s' (x' : I -> R) (h' : list (R * (I -> R))),
    aabm_steps (N := NN) ov sys n s x t d = Ok (s', x', (t + INR n * d)%R) /\ aabm_obj ov s'
    /\ aabm_trace (N := NN) ov s0 h' s' /\ starts (N := NN) h' (t + INR n * d)%R
    /\ map fst (with_start (N := NN) h' (t + INR n * d)%R (sys x' (t + INR n * d)%R)) = spaced (m + n) (t + INR n * d) d
    /\ (n <> 0 \/ h <> [] -> exists tl, h' = ((t + INR n * d)%R, sys x' (t + INR n * d)%R) :: tl)
    /\ (forall i q X, (forall y u, sys y u i = peval q u) -> interpolates q i (with_start (N := NN) h t (sys x t)) ->
          antiderivative X q ->
          interpolates q i (with_start (N := NN) h' (t + INR n * d)%R (sys x' (t + INR n * d)%R))
          /\ (length q <= 2 -> x' i = (x i + (X (t + INR n * d) - X t))%R)).
Proof.
  induction n as [|n IH]; intros s h x t m Ho T St Hm M1 Hh.
  - exists s, x, h. cbn [aabm_steps INR]. assert (E : (t + 0 * d)%R = t) by ring. rewrite E, Nat.add_0_r.
    split; [reflexivity|]. split; [exact Ho|]. split; [exact T|]. split; [exact St|]. split; [exact Hm|]. split. { intros [K|K]; [now elim K|]. destruct h as [|p h]; [now elim K|]. exact Hh. }
    intros i q X Hs Hi HX. split; [exact Hi|]. intros _. ring.
  - set (h0 := with_start (N := NN) h t (sys x t)) in *.
    assert (Hnd : NoDup ((t + d)%R :: map fst h0)) by (rewrite Hm; rewrite <- spaced_cons; now apply spaced_nodup).
    destruct (step_thm eps I ov s0 s h sys x t d Hov H0 T St Hnd) as (s1 & pred & out & xerr & E & Hp & Hc & He).
    assert (T1 := tr_step ov s0 h s sys x t d s1 out xerr _ T St E).
    assert (Ho1 := ob_step (N := NN) ov sys s x t d s1 out xerr _ Ho E).
    assert (Hm1 : map fst (with_start (N := NN) (((t + d)%R, sys out (t + d)%R) :: h0) (t + d)%R (sys out (t + d)%R)) = spaced (S m) (t + d) d).
    { cbn [with_start map fst]. rewrite Hm, spaced_cons. reflexivity. }
    destruct (IH s1 _ out (t + d)%R (S m) Ho1 T1 eq_refl Hm1 ltac:(lia) (ex_intro _ h0 eq_refl)) as (s' & x' & h' & E' & Ho' & T' & St' & Hm' & Hl' & Hx').
    assert (Ht : (t + d + INR n * d)%R = (t + INR (S n) * d)%R) by (rewrite S_INR; ring).
    rewrite Ht in *. exists s', x', h'.
    split. { cbn [aabm_steps]. rewrite E. exact E'. }
    split; [exact Ho'|]. split; [exact T'|]. split; [exact St'|]. split; [rewrite <- plus_n_Sm; exact Hm'|]. split.
    + intros _. apply Hl'. right. discriminate.
    + intros i q X Hs Hi HX.
      assert (Q1 : interpolates q i (((t + d)%R, sys out (t + d)%R) :: h0)) by (constructor; [symmetry; apply Hs|exact Hi]).
      destruct (Hx' i q X Hs Q1 HX) as (A & B). split; [exact A|]. intro L. rewrite (B L).
      assert (K : 1 <= Nat.min (length h0) ov).
      { assert (length h0 = m) by (rewrite <- (map_length fst), Hm; unfold spaced; now rewrite map_length, seq_length). lia. }
      change (with_start (N := NN) h t (sys x t)) with h0 in Hc. rewrite (Hc i q X); [ring|exact (Nat.le_trans _ 2 _ L (le_n_S _ _ K))| | exact HX].
      constructor; [symmetry; apply Hs|]. apply Forall_first. exact Hi.
Qed.
End I.

(** From any object, with any system and any step width other than 0: it succeeds, has advanced the time by [dt], and the history the next
    steps work with is that of [ov] steps of equal width [dt / ov] and ends in the new state; right-hand sides of degree at most one in the
    time are integrated exactly. *)
Lemma own_init eps I ov (s : aac (RNum eps) I) sys (x : I -> R) (t dt : R) : 1 <= ov -> aabm_obj ov s -> dt <> 0%R ->
  exists s' (x' : I -> R) (h : list (R * (I -> R))),
    aabm_initialize_own (N := RNum eps) ov sys s x t dt = Ok (s', x', (t + dt)%R)
    /\ aabm_trace (N := RNum eps) ov s h s'
    /\ map fst h = spaced (ov + 1) (t + dt) (dt / INR ov)
    /\ (exists tl, h = ((t + dt)%R, sys x' (t + dt)%R) :: tl)
    /\ (forall i q X, (forall y u, sys y u i = peval q u) -> antiderivative X q ->
          interpolates q i h /\ (length q <= 2 -> x' i = (x i + (X (t + dt) - X t))%R)).
Proof.
  intros Hov Ho Hdt.
  assert (Hi : INR ov <> 0%R) by (apply not_0_INR; lia).
  assert (Hd : (dt / INR ov)%R <> 0%R) by (unfold Rdiv; apply Rmult_integral_contrapositive_currified; [exact Hdt|now apply Rinv_neq_0_compat]).
  destruct (own_steps eps ov Hov sys s Ho (dt / INR ov)%R Hd ov (aac_reset s) [] x t 1 (ob_reset ov s Ho) (tr_reset ov s) Logic.I
    ltac:(cbn [with_start map fst]; unfold spaced; cbn [seq map INR]; f_equal; ring) (le_n 1) (ex_intro _ [] eq_refl))
    as (s' & x' & h & E & Ho' & T & St & Hm & Hl & Hx).
  assert (Ht : (t + INR ov * (dt / INR ov))%R = (t + dt)%R) by (field; exact Hi).
  rewrite Ht in *. exists s', x', h. destruct (Hl ltac:(left; lia)) as [tl Etl].
  split. { unfold aabm_initialize_own. replace (nofnat (N := RNum eps) ov) with (INR ov) by (unfold nofnat; cbn; now rewrite <- INR_IZR_INZ). exact E. }
  split; [exact T|]. split; [rewrite Etl in Hm |- *; rewrite (Nat.add_comm ov 1); exact Hm|]. split; [exists tl; exact Etl|].
  intros i q X Hs HX. rewrite Etl in *. apply Hx; auto. constructor; [symmetry; apply Hs|constructor].
Qed.
Theorem C130_initialize : forall eps I ov (s : aac (RNum eps) I) sys (x : I -> R) (t dt : R), 1 <= ov -> aabm_obj ov s -> dt <> 0%R ->
  exists s' (x' : I -> R) (h : list (R * (I -> R))),
    aabm_initialize_own (N := RNum eps) ov sys s x t dt = Ok (s', x', (t + dt)%R)
    /\ aabm_trace (N := RNum eps) ov s h s'
    /\ map fst h = spaced (ov + 1) (t + dt) (dt / INR ov)
    /\ (exists tl, h = ((t + dt)%R, sys x' (t + dt)%R) :: tl)
    /\ (forall i q X, (forall y u, sys y u i = peval q u) -> antiderivative X q ->
          interpolates q i h /\ (length q <= 2 -> x' i = (x i + (X (t + dt) - X t))%R)).
Proof. exact own_init. Qed.
Print Assumptions C130_initialize.

(** The step after it has the full order. *)
Theorem C130_next_step : forall eps I ov (s s' : aac (RNum eps) I) sys (x x' : I -> R) (t dt t' dt' : R) i q X, 1 <= ov -> aabm_obj ov s ->
  (0 < dt)%R -> (0 < dt')%R -> aabm_initialize_own (N := RNum eps) ov sys s x t dt = Ok (s', x', t') ->
  (forall y u, sys y u i = peval q u) -> antiderivative X q -> length q <= S ov ->
  exists s'' (out xerr : I -> R) log, aabm_do_step (N := RNum eps) ov sys s' x' t' dt' = Ok (s'', out, xerr, log)
    /\ out i = (x' i + (X (t' + dt') - X t'))%R /\ (length q <= ov -> xerr i = 0%R).
Proof.
  intros eps I ov s s' sys x x' t dt t' dt' i q X Hov Ho Hdt Hdt' E Hs HX L.
  destruct (own_init eps I ov s sys x t dt Hov Ho ltac:(lra)) as (s1 & x1 & h & E1 & T & Hm & (tl & Etl) & Hx).
  assert (Q : Ok (s1, x1, (t + dt)%R) = Ok (s', x', t')) by (rewrite <- E1; exact E). injection Q as -> -> <-.
  destruct (Hx i q X Hs HX) as [Hi _].
  assert (St : starts (N := RNum eps) h (t + dt)%R) by (rewrite Etl; reflexivity).
  assert (Ew : with_start (N := RNum eps) h (t + dt)%R (sys x' (t + dt)%R) = h) by (rewrite Etl; reflexivity).
  assert (Lh : length h = ov + 1) by (rewrite <- (map_length fst), Hm; unfold spaced; now rewrite map_length, seq_length).
  assert (Hd : (0 < dt / INR ov)%R) by (apply Rdiv_lt_0_compat; [exact Hdt|apply lt_0_INR; lia]).
  destruct (quadrature eps I ov s s' h sys x' (t + dt)%R dt' i q X Hov Ho T St) as (s'' & out & xerr & log & A & B & C).
  - rewrite Ew, Hm. constructor; [|apply spaced_nodup; lra].
    intro K. unfold spaced in K. apply in_map_iff in K. destruct K as (j & K & _). pose proof (pos_INR j) as Pj.
    assert (0 <= INR j * (dt / INR ov))%R by (apply Rmult_le_pos; lra). lra.
  - exact Hs.
  - rewrite Ew. apply Forall_first. exact Hi.
  - exact HX.
  - rewrite Ew, Lh, Nat.min_r in B, C by lia. exists s'', out, xerr, log. auto.
Qed.
Print Assumptions C130_next_step.

(** The hypotheses for x' = 3 t^2, order 2, from 0 to 2; the step after it has the full order though the initialisation has not. *)
Example C130_example : exists s : aac (RNum 0) unit, aabm_obj 2 s /\ antiderivative (fun u => u * u * u)%R [0; 0; 3]%R
  /\ length [0; 0; 3]%R <= 3 /\ exists s' (x' : unit -> R),
       aabm_initialize_own (N := RNum 0) 2 (fun _ u _ => peval [0; 0; 3]%R u) s (fun _ => 0%R) 0%R 2%R = Ok (s', x', (0 + 2)%R).
Proof.
  destruct (C59_in_bounds_ex (RNum 0) unit 2 ltac:(lia)) as (s & H). exists s. split; [exact H|]. split; [|split; [cbn; lia|]].
  - intro u. replace (peval [0; 0; 3]%R u) with ((1 * u + u * 1) * u + u * u * 1)%R by (cbn; ring).
    apply (derivable_pt_lim_mult (fun v => v * v)%R (fun v => v)); [|apply derivable_pt_lim_id].
    apply (derivable_pt_lim_mult (fun v => v) (fun v => v)); apply derivable_pt_lim_id.
  - destruct (own_init 0 unit 2 s (fun _ u _ => peval [0; 0; 3]%R u) (fun _ => 0%R) 0%R 2%R ltac:(lia) H ltac:(lra)) as (s' & x' & _ & E & _).
    exists s', x'. exact E.
Qed.

(** Convergence of the extrapolation methods on smooth nonlinear systems: modified_midpoint and extrapolation_stepper (C127),
    bulirsch_stoer (C128). *)
From Coq Require Import List Arith Bool ZArith Reals Lia Lra FunctionalExtensionality.
From Verif Require Import M_Num M_Sign M_Run M_Plain M_Checker M_Controlled S_Grid M_RK S_RK M_CtrlRK M_Midpoint M_MMStep M_BS S_Real S_Ctrl S_CtrlRK
  M_Integrate S_Integrate S_Conv S_BSeries S_Midpoint S_BS P_Run P_R P_Plain P_PlainR P_PlainA P_RK P_RKOrder P_Integrate P_Midpoint P_BS P_BSInd P_BSR P_Neville P_Extrap
  P_Conv P_ConvRun P_ConvOrd P_Gragg P_GraggConv P_GraggStab P_OneStep T_Conv T_ConvOrd T_Butcher T_BS T_BSPoly.
Import ListNotations.
Local Open Scope R_scope.
Local Ltac toR := match goal with |- @eq _ ?l ?r => change (@eq R l r) end.

Lemma even_of n : (exists m, (1 <= m)%nat /\ n = (2 * m)%nat) -> (1 <= n)%nat /\ Nat.even n = true.
Proof. intros (m & Hm & ->). split; [lia|]. rewrite Nat.even_mul. reflexivity. Qed.

(** ** C127: modified_midpoint with any number of sub-steps has order two, with any aliasing of input and output. *)
Theorem C127_midpoint : forall eps n (I : Type) M H, (1 <= n)%nat -> 0 <= M -> 0 <= H -> exists E, 0 <= E /\
  forall (f : (I -> R) -> R -> (I -> R)) y D (T : R -> Prop),
  (forall s u c, T s -> T u -> 0 <= c <= 1 -> T (s + c * (u - s))) ->
  taylor 2 M (fun v => exists t, T t /\ v = point (y t) t) (autonomous f) D -> solution T f y ->
  forall al t dt (m : rkmem (RNum eps) I), T t -> T (t + dt) -> Rabs dt <= H -> m LIn = y t ->
  forall i, Rabs (fst (run_step (N := RNum eps) f al (mm_prog (N := RNum eps) n t dt) t m) (resolve al LOut) i - y (t + dt) i) <= E * Rabs dt ^ 3.
Proof.
  intros eps n I M H Hn HM HH. destruct (midpoint_two eps 2 ltac:(lia) (I := I) M H HM HH n Hn (le_n _)) as (E & PE & B).
  exists E. split; [exact PE|]. intros f y D T Tc Tay Sol al t dt m Ht Hth Hh Hm i.
  destruct (mm_do_step (N := RNum eps) f al n t dt m Hn) as (m' & Er & O). rewrite Er. cbn [fst]. rewrite O, Hm.
  exact (B f y D T Tc Tay Sol t dt Ht Hth Hh i).
Qed.
Print Assumptions C127_midpoint.

(** Runs of integrate_const and integrate_adaptive with modified_midpoint. *)
Theorem C127_midpoint_runs : forall eps, 0 <= eps -> forall n (I : Type) M H, (1 <= n)%nat -> 0 <= M -> 0 <= H -> exists E, 0 <= E /\
  forall W (f : (I -> R) -> R -> (I -> R)) y D t0 tend dt L d,
  dt <> 0 -> 0 <= dir dt * (tend - t0) -> Rabs dt <= H -> 0 <= L -> 0 <= d ->
  lipschitz (span eps t0 tend (dir dt)) L f -> solution (span eps t0 tend (dir dt)) f y ->
  taylor 2 M (fun v => exists t, span eps t0 tend (dir dt) t /\ v = point (y t) t) (autonomous f) D ->
  forall fuel s (w : W) x tr, (forall j, Rabs (x j - y t0 j) <= d) ->
  (exists r, integrate_const (N := RNum eps) rec_obs (plain_step (mm_do_step_inplace (N := RNum eps) f n)) fuel s w x t0 tend dt = (tr, Ok r))
  \/ (exists r, integrate_adaptive_plain (N := RNum eps) rec_obs (plain_step (mm_do_step_inplace (N := RNum eps) f n)) fuel s w x t0 tend dt = (tr, Ok r)) ->
  forall x' t', In (x', t') (obs_of tr) -> forall i,
  Rabs (x' i - y t' i) <= exp (L * (1 + 2 * H * L) ^ n * Rabs (t' - t0)) * (d + E * Rabs dt ^ 2 * Rabs (t' - t0)).
Proof.
  intros eps He n I M H Hn HM HH. destruct (midpoint_two eps 2 ltac:(lia) (I := I) M H HM HH n Hn (le_n _)) as (E & PE & B).
  exists E. split; [exact PE|]. intros W f y D t0 tend dt L d Hd Hdir Hh HL Hd0 Lip Sol Tay fuel s w x tr Hx Hrun x' t' Hin.
  set (T := span eps t0 tend (dir dt)) in *. pose proof (span_conv eps t0 tend (dir dt)) as Tc.
  set (Step := fun (x : I -> R) (t h : R) (x' : I -> R) => x' = mm_val (N := RNum eps) f n x (f x t) t h).
  assert (HS : forall (s : rkmem (RNum eps) I) x t dt, Step x t dt (snd (mm_do_step_inplace (N := RNum eps) f n s x t dt))).
  { intros s0 x0 t1 h. unfold Step, mm_do_step_inplace. cbn [snd].
    destruct (mm_do_step (N := RNum eps) f (mkAlias true false) n t1 h (upd (N := RNum eps) s0 LIn x0) Hn) as (m' & Er & O).
    rewrite Er. cbn [fst]. exact O. }
  assert (G : exists l, obs_of tr = (x, t0) :: l /\ linked (stepT Step (dir dt) T (Rabs dt)) ((x, t0) :: l)).
  { destruct Hrun as [[r E1]|[r E1]].
    - exact (const_linked Step eps He (mm_do_step_inplace (N := RNum eps) f n) HS t0 tend dt Hd Hdir x fuel s w tr r E1).
    - exact (adaptive_linked Step eps He (mm_do_step_inplace (N := RNum eps) f n) HS t0 tend dt Hd Hdir x fuel s w tr r E1). }
  destruct G as (l & Ho & Hl). rewrite Ho in Hin.
  assert (Hq : 0 <= L * (1 + 2 * H * L) ^ n).
  { apply Rmult_le_pos; [exact HL|]. apply pow_le. assert (0 <= H * L) by now apply Rmult_le_pos. lra. }
  refine (proj2 (onestep_error Step (dir dt) (dir_pm' dt) T (L * (1 + 2 * H * L) ^ n) E H 2 Hq PE y _ (Rabs dt) _ l x t0 d Hd0
    (T_start eps He t0 tend dt Hdir) Hx Hl x' t' Hin)); [|split; [apply Rabs_pos|exact Hh]].
  intros x0 t h D0 x1 HD Ht Hth Hhh Hx0 ->.
  exact (mm_local eps T Tc f L H HL Lip y E 2 n x0 t h D0 Hn HD Ht Hth Hhh Hx0 (B f y D T Tc Tay Sol t h Ht Hth Hhh)).
Qed.
Print Assumptions C127_midpoint_runs.

Lemma es_kmax_even o : es_kmax (2 * o) = (o - 1)%nat.
Proof. unfold es_kmax. replace (2 * o - 2)%nat with ((o - 1) * 2)%nat by lia. apply Nat.div_mul. discriminate. Qed.

(** extrapolation_stepper< Order >, into a second state and with the derivative given: order Order. *)
Theorem C127_extrapolation : forall eps order (I : Type) M H, Nat.Even order -> (2 <= order)%nat -> 0 <= M -> 0 <= H -> exists E, 0 <= E /\
  forall (f : (I -> R) -> R -> (I -> R)) y D (T : R -> Prop),
  (forall s u c, T s -> T u -> 0 <= c <= 1 -> T (s + c * (u - s))) ->
  taylor order M (fun v => exists t, T t /\ v = point (y t) t) (autonomous f) D -> solution T f y ->
  forall (s : es (RNum eps) I) t dt, T t -> T (t + dt) -> Rabs dt <= H -> (es_kmax order <= length (es_table s))%nat ->
  exists s1 s2 x', es_do_step_out (N := RNum eps) f order s (y t) t dt = Ok (s1, x')
    /\ es_do_step_dxdt (N := RNum eps) f order s (y t) (f (y t) t) t dt = Ok (s2, x')
    /\ forall i, Rabs (x' i - y (t + dt) i) <= E * Rabs dt ^ S order.
Proof.
  intros eps order I M H [o ->] Ho HM HH. pose proof (es_kmax_even o) as Ek.
  destruct (extrapolated eps (2 * o) ltac:(lia) (I := I) M H HM HH es_seq (o - 1) (o - 1) (o - 1) (es_seq_inc (o - 1))
    (fun i _ => even_of _ (es_even i)) ltac:(lia) ltac:(lia)) as (E & PE & B).
  exists E. split; [exact PE|]. intros f y D T Tc Tay Sol s t dt Ht Hth Hh Hl.
  unfold es_do_step_out, es_do_step_dxdt.
  destruct (es_impl_nev (N := RNum eps) f (2 * o) s (y t) (f (y t) t) t dt Hl) as (s' & E1 & _).
  eexists s', _, _. split; [exact E1|]. split; [rewrite E1; cbn [rbind]; reflexivity|].
  intro i. rewrite Ek. exact (B f y D T Tc Tay Sol t dt Ht Hth Hh i).
Qed.
Print Assumptions C127_extrapolation.

(** The error estimate of extrapolation_stepper is of order Order - 2, the order of the column before the last. *)
Theorem C127_estimate : forall eps order (I : Type) M H, Nat.Even order -> (4 <= order)%nat -> 0 <= M -> 0 <= H -> exists E, 0 <= E /\
  forall (f : (I -> R) -> R -> (I -> R)) y D (T : R -> Prop),
  (forall s u c, T s -> T u -> 0 <= c <= 1 -> T (s + c * (u - s))) ->
  taylor (order - 2) M (fun v => exists t, T t /\ v = point (y t) t) (autonomous f) D -> solution T f y ->
  forall (s : es (RNum eps) I) t dt, T t -> T (t + dt) -> Rabs dt <= H -> (es_kmax order <= length (es_table s))%nat ->
  exists s' x' xerr, es_impl_err (N := RNum eps) f order false s (y t) (f (y t) t) t dt = Ok (s', x', xerr)
    /\ forall i, Rabs (xerr i) <= E * Rabs dt ^ (order - 1).
Proof.
  intros eps order I M H [o ->] Ho HM HH. pose proof (es_kmax_even o) as Ek.
  destruct (extrapolated eps (2 * o - 2) ltac:(lia) (I := I) M H HM HH es_seq (o - 1) (o - 1) (o - 1) (es_seq_inc (o - 1))
    (fun i _ => even_of _ (es_even i)) ltac:(lia) ltac:(lia)) as (E1 & P1 & B1).
  destruct (extrapolated eps (2 * o - 2) ltac:(lia) (I := I) M H HM HH es_seq (o - 1) (o - 1) (o - 1 - 1) (es_seq_inc (o - 1))
    (fun i _ => even_of _ (es_even i)) ltac:(lia) ltac:(lia)) as (E2 & P2 & B2).
  exists (E1 + E2). split; [lra|]. intros f y D T Tc Tay Sol s t dt Ht Hth Hh Hl.
  unfold es_impl_err.
  destruct (es_impl_nev (N := RNum eps) f (2 * o) s (y t) (f (y t) t) t dt Hl) as (s' & Er & _ & Hz).
  rewrite Er. cbn [rbind]. rewrite (vget_nth _ _ _ (Hz ltac:(lia))). cbn [rbind].
  eexists _, _, _. split; [reflexivity|]. intro i. rewrite Ek.
  specialize (B1 f y D T Tc Tay Sol t dt Ht Hth Hh i). specialize (B2 f y D T Tc Tay Sol t dt Ht Hth Hh i).
  replace (S (2 * o - 2)) with (2 * o - 1)%nat in B1, B2 by lia.
  cbn [scale_sum fold_left fst snd]. cbn [nadd nmul nopp nofZ RNum].
  change (nev (N := RNum eps) es_seq (fun l => mm_val (N := RNum eps) f (es_seq l) (y t) (f (y t) t) t dt)) with (nev (N := RNum eps) es_seq (es_y (N := RNum eps) f (y t) (f (y t) t) t dt)) in B1, B2.
  set (a := nev (N := RNum eps) es_seq (es_y (N := RNum eps) f (y t) (f (y t) t) t dt) (o - 1) (o - 1) i) in *.
  set (b := nev (N := RNum eps) es_seq (es_y (N := RNum eps) f (y t) (f (y t) t) t dt) (o - 1) (o - 1 - 1) i) in *.
  clearbody a b. change (carrier (RNum eps)) with R in a, b.
  assert (Q : 1 * a + - (1) * b = (a - y (t + dt) i) - (b - y (t + dt) i)) by ring.
  change (Rabs (1 * a + - (1) * b) <= (E1 + E2) * Rabs dt ^ (2 * o - 1)). rewrite Q.
  eapply Rle_trans; [apply Rabs_triang|]. rewrite Rabs_Ropp. lra.
Qed.
Print Assumptions C127_estimate.

(** ** C128: bulirsch_stoer.  The order of a step is chosen by the controller; at least four is reached. *)
Lemma bs_inc K : forall i j, (i < j <= K)%nat -> (0 < bs_seq i < bs_seq j)%nat.
Proof. intros i j Hij. unfold bs_seq. lia. Qed.

Lemma bs_columns eps (I : Type) M H : 0 <= M -> 0 <= H -> forall m, exists E, 0 <= E /\ forall k, (1 <= k <= m)%nat -> (k <= 8)%nat ->
  forall (f : (I -> R) -> R -> (I -> R)) y DD (T : R -> Prop),
  (forall s u c, T s -> T u -> 0 <= c <= 1 -> T (s + c * (u - s))) ->
  taylor 4 M (fun v => exists t, T t /\ v = point (y t) t) (autonomous f) DD -> solution T f y ->
  forall t h, T t -> T (t + h) -> Rabs h <= H ->
  forall i, Rabs (nev (N := RNum eps) bs_seq (fun l => mm_val (N := RNum eps) f (bs_seq l) (y t) (f (y t) t) t h) k k i - y (t + h) i) <= E * Rabs h ^ 5.
Proof.
  intros HM HH. induction m as [|m (E1 & P1 & B1)].
  - exists 0. split; [lra|]. intros k Hk. lia.
  - destruct (le_lt_dec (S m) 8) as [Hm|Hm].
    + destruct (extrapolated eps 4 ltac:(lia) (I := I) M H HM HH bs_seq 8 (S m) (S m) (bs_inc 8) (fun i _ => even_of _ (bs_even i)) ltac:(lia) ltac:(lia)) as (E2 & P2 & B2).
      exists (E1 + E2). split; [lra|]. intros k Hk Hk8 f y DD T Tc Tay Sol t h Ht Hth Hh i.
      pose proof (pow_le _ 5 (Rabs_pos h)) as P.
      assert (Q1 : 0 <= E1 * Rabs h ^ 5) by now apply Rmult_le_pos. assert (Q2 : 0 <= E2 * Rabs h ^ 5) by now apply Rmult_le_pos.
      rewrite Rmult_plus_distr_r. destruct (Nat.eq_dec k (S m)) as [->|Hne].
      * specialize (B2 f y DD T Tc Tay Sol t h Ht Hth Hh i). eapply Rle_trans; [exact B2|]. lra.
      * specialize (B1 k ltac:(lia) Hk8 f y DD T Tc Tay Sol t h Ht Hth Hh i). eapply Rle_trans; [exact B1|]. lra.
    + exists E1. split; [exact P1|]. intros k Hk Hk8. apply B1; lia.
Qed.

Definition bs_growth (L H : R) : R := sumn 9 (fun k => ext_growth bs_seq 8 k k L H).
Lemma sumn_term n g k : (forall j, 0 <= g j) -> (k < n)%nat -> g k <= sumn n g.
Proof.
  intros Hg. induction n as [|n IH]; intro Hk; [lia|]. rewrite sumn_S.
  destruct (Nat.eq_dec k n) as [->|Hne].
  - assert (0 <= sumn n g). { assert (E : sumn n (fun _ => 0 * 0) = 0) by (rewrite sumn_scale; ring). rewrite <- E. apply sumn_le. intros. rewrite Rmult_0_l. apply Hg. } lra.
  - specialize (IH ltac:(lia)). pose proof (Hg n). lra.
Qed.

(** An accepted step of any object in use. *)
Theorem C128_step : forall eps (I : Type) M H, 0 <= M -> 0 <= H -> exists E, 0 <= E /\
  forall (f : (I -> R) -> R -> (I -> R)) y D (T : R -> Prop),
  (forall s u c, T s -> T u -> 0 <= c <= 1 -> T (s + c * (u - s))) ->
  taylor 4 M (fun v => exists t, T t /\ v = point (y t) t) (autonomous f) D -> solution T f y ->
  forall (idx : list I) pw (cfg : err_cfg (RNum eps)) max_dt (s : bs (RNum eps) I), bs_reach idx pw cfg max_dt s ->
  forall rs t dt s' x' t' dt', T t -> T (t + dt) -> Rabs dt <= H ->
  bs_try (N := RNum eps) idx pw f cfg max_dt s rs (y t) t dt = Ok (s', x', t', dt', true) ->
  t' = t + dt /\ forall i, Rabs (x' i - y t' i) <= E * Rabs dt ^ 5.
Proof.
  intros eps I M H HM HH. destruct (bs_columns eps I M H HM HH 8) as (E & PE & B). exists E. split; [exact PE|].
  intros f y D T Tc Tay Sol idx pw cfg max_dt s Hr rs t dt s' x' t' dt' Ht Hth Hh Ht0.
  destruct (bs_try_ok (N := RNum eps) idx pw f cfg max_dt s rs (y t) t dt (bs_reach_inv _ _ _ _ _ Hr)) as (s1 & x1 & t1 & d1 & ok & E1 & _ & out & Hp & Hx).
  pose proof (eq_trans (eq_sym Ht0) E1) as Q. injection Q as <- <- <- <- <-. subst out.
  destruct Hp as [(_ & _ & _ & _ & _ & _ & _ & Q)|(_ & _ & Et & _ & nh & lr & _ & _ & (k & Hk & _ & Hx) & _)]; [discriminate|].
  cbn [nadd RNum] in Et. split; [exact Et|]. intro i. rewrite Et, Hx.
  exact (B k Hk ltac:(lia) f y D T Tc Tay Sol t dt Ht Hth Hh i).
Qed.
Print Assumptions C128_step.

Lemma links_stepT {I : Type} (Step : (I -> R) -> R -> R -> (I -> R) -> Prop) eps t0 tend sg hm : sg = 1 \/ sg = -1 -> forall l x t,
  span eps t0 tend sg t -> linked (link eps Step sg tend) ((x, t) :: l) ->
  linked (fun p q : (I -> R) * R => Rabs (snd q - snd p) <= hm) ((x, t) :: l) -> linked (stepT Step sg (span eps t0 tend sg) hm) ((x, t) :: l).
Proof.
  intro Hsg. induction l as [|[x1 t1] l IH]; intros x t Ht Hl Hs; [split; exact Logic.I|].
  destruct Hl as [(A & B & C) Hl]. destruct Hs as [D Hs]. cbn [fst snd] in A, B, C, D.
  assert (T1 : span eps t0 tend sg t1).
  { destruct Ht as [T1 T2]. split; [|exact C]. replace (sg * (t1 - t0)) with (sg * (t1 - t) + sg * (t - t0)) by ring. lra. }
  split; [|exact (IH x1 t1 T1 Hl Hs)]. split; [exact A|]. cbn [fst snd]. split; [|exact T1]. split; [exact B|].
  rewrite <- (sg_abs sg Hsg (t1 - t)) by lra. exact D.
Qed.

Definition bs_Step eps {I : Type} (f : (I -> R) -> R -> (I -> R)) (x : I -> R) (t h : R) (x' : I -> R) : Prop := exists k, (1 <= k <= 8)%nat /\
    x' = nev (N := RNum eps) bs_seq (fun l => mm_val (N := RNum eps) f (bs_seq l) x (f x t) t h) k k.
Lemma bs_linked eps (He : 0 <= eps) (I W : Type) (idx : list I) (cfg : err_cfg (RNum eps)) (rs : nat -> bool) (f : (I -> R) -> R -> (I -> R)) t0 tend dt
  (g : W -> (I -> R) -> R -> res W) fuel (c : bs_live eps) w x tr r : dt <> 0 ->
  integrate_adaptive_ctrl (N := RNum eps) (ctrl_step (bs_live_try eps idx f cfg rs)) (user_obs g) (S fuel) c w x t0 tend dt = (tr, r) ->
  exists l, obs_of tr = (x, t0) :: l /\ linked (link eps (bs_Step eps f) (dir dt) tend) ((x, t0) :: l).
Proof.
  intros Hd Hrun.
  assert (Pd : 0 < dir dt * dt) by (rewrite dir_abs; now apply Rabs_pos_lt).
  assert (Hf : forall (s : bs_live eps) x t h, True -> 0 < dir dt * h ->
    let '(s', x', t', h', ok) := bs_live_try eps idx f cfg rs s x t h in
    True /\ 0 < dir dt * h' /\ (if ok : bool then t' = t + h /\ bs_Step eps f x t h x' else x' = x /\ t' = t /\ dir dt * h' <= dir dt * h)).
  { intros s x0 t h _ Hh. assert (Hh0 : h <> 0) by (intros ->; lra). pose proof (bs_contract eps idx f cfg rs s x0 t h Hh0) as Hc.
    destruct (bs_live_try eps idx f cfg rs s x0 t h) as [[[[s' x1] t1] h1] ok] eqn:Et.
    apply bs_live_spec in Et. destruct Et as [Et _].
    destruct (bs_try_ok (N := RNum eps) idx rpow f cfg 0 (proj1_sig (fst s)) (rs (snd s)) x0 t h (proj2_sig (fst s))) as (s1 & x2 & t2 & d2 & ok2 & E1 & _ & out & Hp & Hx2).
    pose proof (eq_trans (eq_sym Et) E1) as Q. injection Q as _ <- <- <- <-.
    split; [exact Logic.I|]. rewrite <- (dir_eq_of_pos _ _ Hh). destruct ok.
    - destruct Hc as [C1 C2]. split; [exact C2|]. split; [exact C1|]. subst out.
      destruct Hp as [(_ & _ & _ & _ & _ & _ & _ & Q)|(_ & _ & _ & _ & nh & lr & _ & _ & (k & Hk & _ & Hk2) & _)]; [discriminate|].
      exists k. split; [exact Hk|exact Hk2].
    - destruct Hc as (C1 & C2 & C3 & C4). split; [exact C3|]. split; [exact C1|]. split; [exact C2|]. rewrite dir_abs. exact C4. }
  destruct (ia_loop_links eps He _ (fun _ _ _ => True) (bs_Step eps f) _ (dir_pm dt) Hf g fuel tend c w x t0 dt 0 tr r Logic.I Pd Hrun) as ((l & Ho) & Hl & _).
  exists l. split; [exact Ho|]. exact (eq_ind _ (linked _) Hl _ Ho).
Qed.
Lemma bs_spaced {I : Type} (Step : (I -> R) -> R -> R -> (I -> R) -> Prop) eps t0 tend sg : sg = 1 \/ sg = -1 -> forall l x t,
  span eps t0 tend sg t -> linked (link eps Step sg tend) ((x, t) :: l) ->
  linked (fun p q : (I -> R) * R => Rabs (snd q - snd p) <= sg * (tend - t0) + eps) ((x, t) :: l).
Proof.
  intro Hsg. induction l as [|[x1 t1] l IH]; intros x t Ht Hl; [split; exact Logic.I|].
  destruct Hl as [(A & B & C) Hl]. cbn [fst snd] in A, B, C. destruct Ht as [T1 T2].
  assert (Q : sg * (t1 - t0) = sg * (t1 - t) + sg * (t - t0)) by ring.
  split; [|apply IH; [split; lra|exact Hl]]. cbn [fst snd]. rewrite (sg_abs sg Hsg (t1 - t)) by lra.
  assert (Q2 : sg * (t1 - t) = sg * (t1 - tend) + sg * (tend - t0) - sg * (t - t0)) by ring. lra.
Qed.

(** Runs of integrate_adaptive with bulirsch_stoer, any observer: where the observed times are at most [hm] apart, every
    observation is within exp( G a ) ( d + E hm^4 a ) of the solution, a = |t'-t0|, also when the run ends with an exception. *)
Theorem C128_runs : forall eps, 0 <= eps -> forall (I : Type) M H L, 0 <= M -> 0 <= H -> 0 <= L -> exists G E, 0 <= G /\ 0 <= E /\
  forall W (idx : list I) (cfg : err_cfg (RNum eps)) (rs : nat -> bool) (f : (I -> R) -> R -> (I -> R)) y D t0 tend dt d hm,
  dt <> 0 -> 0 <= dir dt * (tend - t0) -> 0 <= d -> 0 <= hm <= H ->
  lipschitz (span eps t0 tend (dir dt)) L f -> solution (span eps t0 tend (dir dt)) f y ->
  taylor 4 M (fun v => exists t, span eps t0 tend (dir dt) t /\ v = point (y t) t) (autonomous f) D ->
  forall (g : W -> (I -> R) -> R -> res W) fuel (c : bs_live eps) w x tr r, (forall j, Rabs (x j - y t0 j) <= d) ->
  integrate_adaptive_ctrl (N := RNum eps) (ctrl_step (bs_live_try eps idx f cfg rs)) (user_obs g) (S fuel) c w x t0 tend dt = (tr, r) ->
  linked (fun p q : (I -> R) * R => Rabs (snd q - snd p) <= hm) (obs_of tr) ->
  forall x' t', In (x', t') (obs_of tr) -> forall i,
  Rabs (x' i - y t' i) <= exp (G * Rabs (t' - t0)) * (d + E * hm ^ 4 * Rabs (t' - t0)).
Proof.
  intros eps He I M H L HM HH HL. destruct (bs_columns eps I M H HM HH 8) as (E & PE & B).
  assert (PG : 0 <= bs_growth L H).
  { pose proof (sumn_term 9 (fun k => ext_growth bs_seq 8 k k L H) 0 (fun j => ext_growth_nonneg bs_seq 8 j j L H HL HH) ltac:(lia)) as Q.
    pose proof (ext_growth_nonneg bs_seq 8 0 0 L H HL HH). unfold bs_growth. lra. }
  exists (bs_growth L H), E. split; [exact PG|]. split; [exact PE|].
  intros W idx cfg rs f y D t0 tend dt d hm Hd Hdir Hd0 Hhm Lip Sol Tay g fuel c w x tr r Hx Hrun Hsp x' t' Hin.
  set (T := span eps t0 tend (dir dt)) in *. pose proof (span_conv eps t0 tend (dir dt)) as Tc.
  set (Step := bs_Step eps f) in *.
  destruct (bs_linked eps He I W idx cfg rs f t0 tend dt g fuel c w x tr r Hd Hrun) as (l & Ho & Hl).
  rewrite Ho in Hin, Hsp.
  assert (Hl2 : linked (stepT Step (dir dt) T hm) ((x, t0) :: l)) by exact (links_stepT Step eps t0 tend (dir dt) hm (dir_pm dt) l x t0 (T_start eps He t0 tend dt Hdir) Hl Hsp).
  refine (proj2 (onestep_error Step (dir dt) (dir_pm' dt) T (bs_growth L H) E H 4 PG PE y _ hm Hhm l x t0 d Hd0
    (T_start eps He t0 tend dt Hdir) Hx Hl2 x' t' Hin)).
  intros x0 t h D0 x1 HD Ht Hth Hhh Hx0 (k & Hk & ->) i.
  eapply Rle_trans; [apply (ext_local eps T Tc f L H HL Lip y E 4 bs_seq 8 k k x0 t h D0 (bs_inc 8) (fun i _ => proj1 (even_of _ (bs_even i))) ltac:(lia) HD Ht Hth Hhh Hx0
    (B k Hk ltac:(lia) f y D T Tc Tay Sol t h Ht Hth Hhh))|].
  apply Rplus_le_compat_r. apply Rmult_le_compat_r; [exact HD|]. apply Rplus_le_compat_l. apply Rmult_le_compat_l; [apply Rabs_pos|].
  exact (sumn_term 9 (fun k => ext_growth bs_seq 8 k k L H) k (fun j => ext_growth_nonneg bs_seq 8 j j L H HL HH) ltac:(lia)).
Qed.
Print Assumptions C128_runs.

(** ** Examples: x' = sin x with the solution x = 2 atan( exp t ). *)
Lemma sin_start (t : R) : forall j : unit, Rabs (sin_y t j - sin_y t j) <= 0.
Proof. intro j. rewrite Rminus_diag_eq, Rabs_R0 by reflexivity. lra. Qed.

(** modified_midpoint with its default of two sub-steps, all step widths up to 1. *)
Example C127_midpoint_example : exists E, 0 <= E /\ forall dt, 0 < dt <= 1 -> forall s, exists fuel tr r,
  integrate_const (N := RNum 0) rec_obs (plain_step (mm_do_step_inplace (N := RNum 0) sin_f 2)) fuel s tt (sin_y 0) 0%R 1%R dt = (tr, Ok r)
  /\ forall x' t', In (x', t') (obs_of tr) -> Rabs (x' tt - 2 * atan (exp t')) <= exp (9 * Rabs t') * (E * dt ^ 2 * Rabs t').
Proof.
  destruct (C127_midpoint_runs 0 (Rle_refl 0) 2 unit 1 1 ltac:(lia) ltac:(lra) ltac:(lra)) as (E & PE & HC). exists E. split; [exact PE|].
  intros dt Hdt s. destruct (const_count 0 0 1 dt ltac:(lra)) as [m Hm].
  destruct (const_pure (N := RNum 0) (mm_do_step_inplace (N := RNum 0) sin_f 2) (S m) s tt (sin_y 0) 0 1 dt m Hm (Nat.lt_succ_diag_r m)) as (tr & R1 & _).
  eexists (S m), tr, _. split; [exact R1|]. intros x' t' Hin.
  assert (Ed : dir dt = 1) by (destruct (dir_cases dt) as [[_ E0]|[E0 _]]; [exact E0|lra]).
  assert (B := HC unit sin_f sin_y sin_D 0 1 dt 1 0 ltac:(lra) ltac:(rewrite Ed; lra) ltac:(rewrite Rabs_pos_eq; lra) ltac:(lra) (Rle_refl 0)
    (sin_lipschitz _) (sin_solution _) (sin_taylor _ _) (S m) s tt (sin_y 0) tr (sin_start 0) (or_introl (ex_intro _ _ R1)) x' t' Hin tt).
  rewrite Rminus_0_r, Rplus_0_l, (Rabs_pos_eq dt) in B by lra. replace (1 * (1 + 2 * 1 * 1) ^ 2) with 9 in B by ring. exact B.
Qed.

(** One step with five sub-steps in place, and extrapolation_stepper< 6 > with its error estimate. *)
Example C127_step_example : exists E, 0 <= E /\ forall t dt, Rabs dt <= 1 ->
  (forall m : rkmem (RNum 0) unit, m LIn = sin_y t ->
   Rabs (fst (run_step (N := RNum 0) sin_f (mkAlias true false) (mm_prog (N := RNum 0) 5 t dt) t m) LIn tt - 2 * atan (exp (t + dt))) <= E * Rabs dt ^ 3)
  /\ exists x' e s2, let s := mkEs (N := RNum 0) (I := unit) (fun _ _ => 0) [fun _ => 0; fun _ => 0] (fun _ => 0) in
   es_do_step_out (N := RNum 0) sin_f 6 s (sin_y t) t dt = Ok (s2, x') /\ Rabs (x' tt - 2 * atan (exp (t + dt))) <= E * Rabs dt ^ 7
   /\ es_impl_err (N := RNum 0) sin_f 6 false s (sin_y t) (sin_f (sin_y t) t) t dt = Ok (s2, x', e) /\ Rabs (e tt) <= E * Rabs dt ^ 5.
Proof.
  destruct (C127_midpoint 0 5 unit 1 1 ltac:(lia) ltac:(lra) ltac:(lra)) as (E1 & P1 & H1).
  destruct (C127_extrapolation 0 6 unit 1 1 ltac:(now exists 3%nat) ltac:(lia) ltac:(lra) ltac:(lra)) as (E2 & P2 & H2).
  destruct (C127_estimate 0 6 unit 1 1 ltac:(now exists 3%nat) ltac:(lia) ltac:(lra) ltac:(lra)) as (E3 & P3 & H3).
  exists (E1 + E2 + E3). split; [lra|]. intros t dt Hdt.
  assert (W : forall k a b, 0 <= b -> a <= b -> a * Rabs dt ^ k <= b * Rabs dt ^ k).
  { intros k a b _ Hab. apply Rmult_le_compat_r; [apply pow_le, Rabs_pos|exact Hab]. }
  split.
  - intros m Hm. eapply Rle_trans; [|apply (W 3%nat E1); lra].
    exact (H1 sin_f sin_y sin_D (fun _ => True) (fun _ _ _ _ _ _ => Logic.I) (sin_taylor _ _) (sin_solution _) (mkAlias true false) t dt m Logic.I Logic.I Hdt Hm tt).
  - set (s := mkEs (N := RNum 0) (I := unit) (fun _ _ => 0) [fun _ => 0; fun _ => 0] (fun _ => 0)).
    destruct (H2 sin_f sin_y sin_D (fun _ => True) (fun _ _ _ _ _ _ => Logic.I) (sin_taylor _ _) (sin_solution _) s t dt Logic.I Logic.I Hdt (le_n 2)) as (s1 & _ & x' & A1 & _ & A2).
    destruct (H3 sin_f sin_y sin_D (fun _ => True) (fun _ _ _ _ _ _ => Logic.I) (sin_taylor _ _) (sin_solution _) s t dt Logic.I Logic.I Hdt (le_n 2)) as (s2 & x2 & e & B1 & B2).
    assert (Q : s2 = s1 /\ x2 = x').
    { unfold es_impl_err in B1. unfold es_do_step_out in A1. rewrite A1 in B1. cbn [rbind] in B1.
      destruct (vget (es_table s1) 0); cbn [rbind] in B1; try discriminate. injection B1 as <- <- _. auto. }
    destruct Q as [-> ->]. exists x', e, s1. cbv zeta. split; [exact A1|]. split; [eapply Rle_trans; [apply A2|apply (W 7%nat E2); lra]|].
    split; [exact B1|]. eapply Rle_trans; [apply B2|apply (W 5%nat E3); lra].
Qed.

(** bulirsch_stoer with tolerance 1/1000 on [0,1]: the run returns, and its error is of fourth order in the largest step. *)
Example C128_example : let cfg := mkErrCfg (N := RNum 0) (1 / 1000)%R 0%R 1%R 1%R in
  exists G E, 0 <= G /\ 0 <= E /\ forall (l : bs_live 0) rs, exists tr l' w' x' t' dt' n fuel,
  integrate_adaptive_ctrl (N := RNum 0) (ctrl_step (bs_live_try 0 [tt] sin_f cfg rs)) (user_obs (fun (w : unit) _ _ => Ok w)) fuel l tt (sin_y 0) 0%R 1%R (1 / 10)%R
    = (tr, Ok (l', w', x', t', dt', n))
  /\ forall hm, linked (fun p q : (unit -> R) * R => Rabs (snd q - snd p) <= hm) (obs_of tr) -> 0 <= hm <= 1 ->
     forall x t, In (x, t) (obs_of tr) -> Rabs (x tt - 2 * atan (exp t)) <= exp (G * Rabs t) * (E * hm ^ 4 * Rabs t).
Proof.
  intro cfg. destruct (C128_runs 0 (Rle_refl 0) unit 1 1 1 ltac:(lra) ltac:(lra) ltac:(lra)) as (G & E & PG & PE & HC).
  exists G, E. split; [exact PG|]. split; [exact PE|]. intros l rs.
  destruct C77_example as (X1 & _ & X3 & k0 & X4). fold cfg in X1, X3, X4. cbv zeta in X1, X3, X4. set (h := 2 / 10 * eps_abs cfg / (2 * 9 ^ 8 * 1)) in *.
  assert (Ed : dir (1 / 10) = 1) by (destruct (dir_cases (1 / 10)) as [[_ E0]|[E0 _]]; [exact E0|lra]).
  assert (X4' : exists k, Rabs (1 - 0) <= INR k * Rmin (Rabs (1 / 10)) (1 / 200 * h) + 0).
  { assert (Pm : 0 < Rmin (Rabs (1 / 10)) (1 / 200 * h)) by (apply Rmin_glb_lt; [rewrite Rabs_pos_eq; lra|lra]).
    set (m := Rmin (Rabs (1 / 10)) (1 / 200 * h)) in *. destruct (archimed_cor1 (m / 2)) as (k & Hk & Hk0); [lra|]. exists k.
    rewrite Rminus_0_r, Rplus_0_r, (Rabs_right 1) by lra. assert (0 < INR k)%R by now apply lt_0_INR.
    apply (Rmult_lt_compat_r (INR k)) in Hk; [|assumption]. rewrite Rinv_l in Hk by lra. lra. }
  destruct X4' as [k Hk].
  destruct (C77_terminates 0 (Rle_refl 0) unit unit [tt] cfg ltac:(unfold good_tol; cbn; lra) sin_f 1
    ltac:(intros; apply Rabs_le; unfold sin_f; apply SIN_bound) ltac:(lra) (user_obs (fun (w : unit) _ _ => Ok w)) ltac:(intros; eexists _, _; reflexivity) rs X1
    l tt (sin_y 0) 0 1 (1 / 10) ltac:(lra) ltac:(rewrite Ed; lra)
    ltac:(eapply Rle_trans; [|exact X3]; apply Rmult_le_compat_l; [apply pow_le; lra|rewrite !Rabs_pos_eq; lra]) k (S k) Hk (Nat.lt_succ_diag_r k))
    as (tr & l' & w' & x' & t' & dt' & n & R1 & _).
  exists tr, l', w', x', t', dt', n, (S k). split; [exact R1|]. intros hm Hs Hm x t Hin.
  assert (B := HC unit [tt] cfg rs sin_f sin_y sin_D 0 1 (1 / 10) 0 hm ltac:(lra) ltac:(rewrite Ed; lra) (Rle_refl 0) Hm
    (sin_lipschitz _) (sin_solution _) (sin_taylor _ _) _ k l tt (sin_y 0) tr _ (sin_start 0) R1 Hs x t Hin tt).
  rewrite Rminus_0_r, Rplus_0_l in B. exact B.
Qed.

(** hm = 1 always meets the condition on it. *)
Example C128_spacing : forall cfg l rs fuel tr r,
  integrate_adaptive_ctrl (N := RNum 0) (ctrl_step (bs_live_try 0 [tt] sin_f cfg rs)) (user_obs (fun (w : unit) _ _ => Ok w)) (S fuel) l tt (sin_y 0) 0%R 1%R (1 / 10)%R = (tr, r) ->
  linked (fun p q : (unit -> R) * R => Rabs (snd q - snd p) <= 1) (obs_of tr).
Proof.
  intros cfg l rs fuel tr r E. assert (Ed : dir (1 / 10) = 1) by (destruct (dir_cases (1 / 10)) as [[_ E0]|[E0 _]]; [exact E0|lra]).
  destruct (bs_linked 0 (Rle_refl 0) unit unit [tt] cfg rs sin_f 0 1 (1 / 10) _ fuel l tt (sin_y 0) tr r ltac:(lra) E) as (q & Ho & Hl).
  pose proof (bs_spaced _ 0 0 1 _ (dir_pm (1 / 10)) q (sin_y 0) 0 (T_start 0 (Rle_refl 0) 0 1 (1 / 10) ltac:(rewrite Ed; lra)) Hl) as S.
  replace (dir (1 / 10) * (1 - 0) + 0) with 1 in S by (rewrite Ed; ring).
  exact (eq_ind_r (linked _) S Ho).
Qed.

(** The first accepted step. *)
Example C128_step_example : let cfg := mkErrCfg (N := RNum 0) (1 / 1000)%R 0%R 1%R 1%R in exists E h, 0 < h /\ forall t dt, dt <> 0 -> Rabs dt <= h ->
  forall s, bs_reach (N := RNum 0) [tt] rpow cfg 0%R s -> exists s' x' dt',
  bs_try (N := RNum 0) [tt] rpow sin_f cfg 0%R s true (sin_y t) t dt = Ok (s', x', t + dt, dt', true)
  /\ Rabs (x' tt - 2 * atan (exp (t + dt))) <= E * Rabs dt ^ 5.
Proof.
  intro cfg. destruct (C128_step 0 unit 1 1 ltac:(lra) ltac:(lra)) as (E & PE & HC).
  assert (Ht : good_tol (eps_abs cfg) (eps_rel cfg) (a_x cfg) (a_dxdt cfg)) by (unfold good_tol; cbn; lra).
  assert (HB : forall (x : unit -> R) t i, Rabs (sin_f x t i) <= 1) by (intros; apply Rabs_le; unfold sin_f; apply SIN_bound).
  set (h := bs_h 0 cfg 1). exists E, h. destruct C77_example as (X1 & _). cbv zeta in X1. fold cfg in X1. 
  assert (Ph : 0 < h) by (unfold h, bs_h, bs_C; lra). split; [exact Ph|].
  assert (H1 : h <= 1).
  { unfold h, bs_h, bs_C. cbn [eps_abs cfg]. simpl. lra. }
  intros t dt Hd Hh s Hs.
  pose (l := (exist (fun s => bs_inv s) s (bs_reach_inv (N := RNum 0) [tt] rpow cfg 0%R s Hs), 0%nat) : bs_live 0).
  pose proof (bs_step_term 0 [tt] sin_f cfg (fun _ => true) Ht 1 HB ltac:(lra) ltac:(fold h; lra) l (sin_y t) t dt Hd) as Q.
  destruct (bs_live_try 0 [tt] sin_f cfg (fun _ => true) l (sin_y t) t dt) as [[[[l' x'] t'] dt'] ok] eqn:Et.
  destruct Q as (_ & Q & Q2). specialize (Q Hh). subst ok. destruct Q2 as [-> _].
  apply bs_live_spec in Et. destruct Et as [Et _]. cbn [l fst snd proj1_sig] in Et.
  exists (proj1_sig (fst l')), x', dt'. split; [exact Et|].
  exact (proj2 (HC sin_f sin_y sin_D (fun _ => True) (fun _ _ _ _ _ _ => Logic.I) (sin_taylor _ _) (sin_solution _) [tt] rpow cfg 0 s Hs true t dt _ _ _ _
    Logic.I Logic.I ltac:(lra) Et) tt).
Qed.

(** rosenbrock4_dense_output. *)
From Coq Require Import ZArith Reals Arith Bool Lia Lra List FunctionalExtensionality.
From Verif Require Import M_Num M_Sign M_Run M_Checker M_RK M_CtrlRK M_LU M_Implicit S_LU S_Implicit P_R P_LU P_Implicit P_Ros P_RosR.
Import ListNotations.

(** ** Buffers and times, every arithmetic and controller. *)
Section Any.
Context {N : Num} {C : Type}.
Variable tr : C -> vec N nat -> N -> vec N nat -> N -> C * vec N nat * N * N * bool.
Variable prep : C -> C.
Variable Q : N -> Prop.
(** A rejected attempt leaves the time alone; [Q] is a property of the step size it keeps. *)
Hypothesis Hrej : forall c x t xo dt, let '(_, _, t1, dt1, ok) := tr c x t xo dt in
  ok = false -> t1 = t /\ (Q dt -> Q dt1).

Lemma loop_fields : forall fuel k s s', rd_loop tr fuel k s = Ok s' -> Q (rd_dt s) ->
  rd_x s' = rd_x s /\ rd_told s' = rd_told s /\ rd_cur s' = rd_cur s /\
  exists c xo dt xo', Q dt /\ let '(c', x', t', dt', ok) := tr c (rd_x s) (rd_t s) xo dt in
     ok = true /\ rd_xold s' = x' /\ rd_t s' = t' /\ rd_dt s' = dt' /\ rd_c s' = c' /\ xo' = x'.
Proof.
  induction fuel as [|fuel IH]; intros k s s' H HQ; [discriminate H|].
  cbn [rd_loop] in H.
  pose proof (Hrej (rd_c s) (rd_x s) (rd_t s) (rd_xold s) (rd_dt s)) as HR.
  destruct (tr (rd_c s) (rd_x s) (rd_t s) (rd_xold s) (rd_dt s)) as [[[[c xo] t] dt] ok] eqn:E.
  destruct (fail_check k) as [k1|e| |]; [|discriminate H|discriminate H|discriminate H].
  destruct ok.
  - injection H as <-. unfold rd_x, rd_xold. cbn [rd_cur rd_x1 rd_x2 rd_told rd_t rd_dt rd_c].
    repeat split; [destruct (rd_cur s); reflexivity|].
    exists (rd_c s), (rd_xold s), (rd_dt s), xo. split; [exact HQ|]. unfold rd_x in E. rewrite E.
    repeat split. destruct (rd_cur s); reflexivity.
  - destruct (HR eq_refl) as [HR1 HR2].
    destruct (IH _ _ _ H (HR2 HQ)) as (A & B & D & (c1 & xo1 & dt1 & xo1' & PQ & P)).
    assert (X : forall t dt, rd_x (mkRosd c (if rd_cur s then rd_x1 s else xo) (if rd_cur s then xo else rd_x2 s) (rd_cur s) t (rd_told s) dt) = rd_x s).
    { intros. unfold rd_x. cbn [rd_cur rd_x1 rd_x2]. destruct (rd_cur s); reflexivity. }
    rewrite X in A, P. cbn [rd_told rd_cur rd_t] in *. rewrite HR1 in P.
    repeat split; try assumption. exists c1, xo1, dt1, xo1'. split; [exact PQ|exact P].
Qed.

Lemma step_fields : forall s s', rd_step tr prep s = Ok s' -> Q (rd_dt s) ->
  rd_xold s' = rd_x s /\ rd_told s' = rd_t s /\
  exists c xo dt, Q dt /\ let '(c', x', t', dt', ok) := tr c (rd_x s) (rd_t s) xo dt in
     ok = true /\ rd_x s' = x' /\ rd_t s' = t' /\ rd_dt s' = dt' /\ rd_c s' = prep c'.
Proof.
  intros s s' H HQ. unfold rd_step in H.
  set (s0 := mkRosd (rd_c s) (rd_x1 s) (rd_x2 s) (rd_cur s) (rd_t s) (rd_t s) (rd_dt s)) in *.
  destruct (rd_loop tr (S default_max_steps) 0 s0) as [s1|e| |] eqn:E; try discriminate H.
  destruct (loop_fields _ _ _ _ E HQ) as (A & B & D & (c & xo & dt & xo' & PQ & P)).
  injection H as <-.
  assert (X : rd_x s0 = rd_x s) by reflexivity. rewrite X in *. cbn [rd_told rd_t] in *.
  unfold rd_x, rd_xold in *. cbn [rd_cur rd_x1 rd_x2 rd_told rd_t rd_dt rd_c].
  split; [rewrite <- A; destruct (rd_cur s1); reflexivity|]. split; [exact B|].
  exists c, xo, dt. split; [exact PQ|]. change (rd_t s0) with (rd_t s) in P.
  destruct (tr c (if rd_cur s then rd_x1 s else rd_x2 s) (rd_t s) xo dt) as [[[[c' x'] t'] dt'] ok].
  destruct P as (P1 & P2 & P3 & P4 & P5 & _). repeat split; try assumption.
  - rewrite <- P2. destruct (rd_cur s1); reflexivity.
  - rewrite P5. reflexivity.
Qed.
End Any.

(** ** Real arithmetic. *)
Section Real.
Variable eps : R.
Notation N := (RNum eps).
Local Open Scope R_scope.

Lemma calc_ends : forall (m : rbuf N) (xold xnew : nat -> R) (told tnew : R), tnew <> told ->
  ros_calc (N := N) m told xold told xnew tnew = xold /\ ros_calc (N := N) m tnew xold told xnew tnew = xnew.
Proof.
  intros m xold xnew told tnew H.
  split; extensionality i; unfold ros_calc; cbn [nadd nsub nmul ndiv nofZ RNum].
  - replace ((told - told) / (tnew - told)) with 0 by (field; lra). match goal with |- @eq _ ?l ?r => change (@eq R l r) end. ring.
  - replace ((tnew - told) / (tnew - told)) with 1 by (field; lra). match goal with |- @eq _ ?l ?r => change (@eq R l r) end. ring.
Qed.

(** The controller around a rosenbrock4 step. *)
Variable n : nat.
Variable pw : R -> R -> R.
Variable sq : R -> R.
Variable f : (nat -> R) -> R -> nat -> R.
Variable jac : (nat -> R) -> R -> nat -> nat -> R.
Variable dft : (nat -> R) -> R -> nat -> R.
Variable co : roscoef N.
Variables atol rtol max_dt : R.

Definition ros_try (c : rosc N nat (rbuf N)) (x : nat -> R) (t : R) (xo : nat -> R) (dt : R) :=
  rosc_core (N := N) (seq 0 n) pw sq (ros_step (N := N) n f jac dft co) atol rtol max_dt c x t xo dt.
Definition ros_prep (c : rosc N nat (rbuf N)) : rosc N nat (rbuf N) :=
  mkRosc (ros_prepare co (rc_st c)) (rc_xerr c) (rc_xnew c) (rc_first c) (rc_err_old c) (rc_dt_old c) (rc_rejected c).
Definition ros_dcalc (c : rosc N nat (rbuf N)) := ros_calc (N := N) (rc_st c).

Lemma shrink_nonzero (dt a : R) : dt <> 0 -> ndiv (n := N) dt (ros_clamp (N := N) a) <> 0.
Proof.
  intros H. pose proof (ros_clamp_R eps a) as B. set (c := ros_clamp (N := N) a) in *.
  change (dt / c <> 0). change (1 / 6 <= c <= 5) in B. clearbody c. intros E.
  apply H. replace dt with (dt / c * c) by (field; lra). rewrite E. ring.
Qed.

Lemma ros_try_spec : forall c x t xo dt, dt <> 0 ->
  let '(c', x', t', dt', ok) := ros_try c x t xo dt in
  (ok = true -> t' = t + dt /\ exists m, (rc_st c', x', rc_xerr c') = ros_step (N := N) n f jac dft co m x t dt) /\
  (ok = false -> t' = t /\ dt' <> 0).
Proof.
  intros c x t xo dt Hdt. unfold ros_try, rosc_core.
  destruct (nneq (N := N) max_dt (nofZ (n := N) 0%Z)) eqn:E1; cbn [andb].
  - apply nneq_R in E1. destruct (less_with_sign (N := N) max_dt dt dt).
    + split; [intros D; discriminate D|]. intros _. split; [reflexivity|exact E1].
    + destruct (ros_step (N := N) n f jac dft co (rc_st c) x t dt) as [[st1 xo1] xe1] eqn:ES.
      destruct (nle (n := N) _ (nofZ (n := N) 1%Z)).
      * split; [|intros D; discriminate D]. intros _. split; [reflexivity|]. exists (rc_st c). rewrite ES. reflexivity.
      * split; [intros D; discriminate D|]. intros _. split; [reflexivity|]. apply shrink_nonzero; exact Hdt.
  - destruct (ros_step (N := N) n f jac dft co (rc_st c) x t dt) as [[st1 xo1] xe1] eqn:ES.
    destruct (nle (n := N) _ (nofZ (n := N) 1%Z)).
    + split; [|intros D; discriminate D]. intros _. split; [reflexivity|]. exists (rc_st c). rewrite ES. reflexivity.
    + split; [intros D; discriminate D|]. intros _. split; [reflexivity|]. apply shrink_nonzero; exact Hdt.
Qed.

(** One step of the dense output stepper, then calc_state at both ends of the interval. *)
Theorem dense_ends : forall s s', rd_step (N := N) ros_try ros_prep s = Ok s' -> rd_dt s <> 0 ->
  rd_told s' = rd_t s /\ rd_t s' <> rd_t s /\
  (exists m, rd_x s' = snd (fst (ros_step (N := N) n f jac dft co m (rd_x s) (rd_t s) (rd_t s' - rd_t s)%R))) /\
  (forall j, rd_calc (N := N) ros_dcalc s' (rd_t s) j = rd_x s j) /\
  (forall j, rd_calc (N := N) ros_dcalc s' (rd_t s') j = rd_x s' j).
Proof.
  intros s s' H HQ.
  assert (Hrej : forall c x t xo dt, let '(_, _, t1, dt1, ok) := ros_try c x t xo dt in
     ok = false -> t1 = t /\ (dt <> 0 -> dt1 <> 0)).
  { intros c x t xo dt. destruct (Req_dec dt 0) as [Z|NZ].
    - unfold ros_try, rosc_core. subst dt.
      destruct (_ && _)%bool.
      + intros _. split; [reflexivity|]. intros W. exfalso; apply W; reflexivity.
      + destruct (ros_step (N := N) n f jac dft co (rc_st c) x t 0) as [[st1 xo1] xe1].
        destruct (nle (n := N) _ (nofZ (n := N) 1%Z)); intros D; [discriminate D|].
        split; [reflexivity|]. intros W. exfalso; apply W; reflexivity.
    - pose proof (ros_try_spec c x t xo dt NZ) as B. destruct (ros_try c x t xo dt) as [[[[c' x'] t'] dt'] ok].
      destruct B as [_ B]. intros D. destruct (B D) as [B1 B2]. split; [exact B1|]. intros _; exact B2. }
  destruct (step_fields (N := N) ros_try ros_prep (fun d : R => d <> 0) Hrej s s' H HQ) as (A & B & D).
  destruct D as (c & xo & dt & Hd & D).
  pose proof (ros_try_spec c (rd_x s) (rd_t s) xo dt Hd) as G.
  destruct (ros_try c (rd_x s) (rd_t s) xo dt) as [[[[c' x'] t'] dt'] ok].
  destruct D as (D1 & D2 & D3 & _ & _). destruct G as [G _]. destruct (G D1) as [G1 (m & G2)].
  assert (NE : rd_t s' <> rd_t s).
  { rewrite D3, G1. intros Z. apply Hd. apply Rplus_eq_reg_l with (rd_t s). rewrite Z. symmetry. apply Rplus_0_r. }
  split; [exact B|]. split; [exact NE|]. split; [|split].
  - exists m. assert (ED : rd_t s' - rd_t s = dt) by (rewrite D3, G1; match goal with |- @eq _ ?l ?r => change (@eq R l r) end; ring).
    rewrite ED. refine (eq_trans D2 _). exact (f_equal (fun p => snd (fst p)) G2).
  - intros j. unfold rd_calc, ros_dcalc. rewrite B.
    destruct (calc_ends (rc_st (rd_c s')) (rd_xold s') (rd_x s') (rd_t s) (rd_t s') NE) as [K _].
    rewrite K, A. reflexivity.
  - intros j. unfold rd_calc, ros_dcalc. rewrite B.
    destruct (calc_ends (rc_st (rd_c s')) (rd_xold s') (rd_x s') (rd_t s) (rd_t s') NE) as [_ K].
    rewrite K. reflexivity.
Qed.
End Real.

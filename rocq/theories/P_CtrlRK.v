(** controlled_runge_kutta in any arithmetic: effect of an attempt, history, FSAL. *)
From Coq Require Import ZArith List Bool FunctionalExtensionality.
From Verif Require Import M_Num M_Sign M_Run M_Checker M_Controlled M_RK S_RK P_RK M_CtrlRK S_CtrlRK P_Det.
Import ListNotations.
Local Open Scope num_scope.

Section Explicit.
Context {N : Num} {I S : Type}.
Variable idx : list I.
Variable pw : N -> N -> N.
Variable sys : vec N I -> N -> vec N I.
Variable estep : S -> vec N I -> vec N I -> N -> N -> S * vec N I * vec N I.
Variable eo so : Z.
Variable cfg : err_cfg N.
Variable max_dt : N.
Notation core := (ck_core idx pw estep eo so cfg max_dt).
Notation try := (ck_try idx pw sys estep eo so cfg max_dt).
Notation try3 := (ck_try_v3 idx pw sys estep eo so cfg max_dt).

Theorem ck_effect : forall c x t dt c' x' t' dt' ok,
  try c x t dt = (c', x', t', dt', ok) ->
  if (ok : bool)
  then t' = t + dt /\ x' = snd (fst (estep (ck_st c) x (sys x t) t dt))
  else x' = x /\ t' = t.
Proof.
  intros c x t dt c' x' t' dt' ok. unfold ck_try, ck_try_v2, ck_core. cbn [ck_st ck_xerr ck_xnew ck_dxdt].
  destruct (check_step_size_limit max_dt dt).
  - destruct (estep (ck_st c) x (sys x t) t dt) as [[st1 out1] xerr1]. unfold checker_error.
    destruct (ngt _ _); intro H; inversion H; subst; auto.
  - intro H; inversion H; subst; auto.
Qed.

(** In-place and out-of-place calls make the same decision. *)
Theorem ck_in_place : forall c x t out dt c1 x1 t1 dt1 ok1 c3 out3 t3 dt3 ok3,
  try c x t dt = (c1, x1, t1, dt1, ok1) -> try3 c x t out dt = (c3, out3, t3, dt3, ok3) ->
  t1 = t3 /\ dt1 = dt3 /\ ok1 = ok3 /\ (ok1 = true -> x1 = out3) /\ ck_st c1 = ck_st c3.
Proof.
  intros c x t out dt c1 x1 t1 dt1 ok1 c3 out3 t3 dt3 ok3.
  unfold ck_try, ck_try_v2, ck_try_v3, ck_core. cbn [ck_st ck_xerr ck_xnew ck_dxdt].
  destruct (check_step_size_limit max_dt dt).
  - destruct (estep (ck_st c) x (sys x t) t dt) as [[st1 out1] xerr1]. unfold checker_error.
    destruct (ngt _ _); intros H1 H3; inversion H1; inversion H3; subst; repeat split; auto; discriminate.
  - intros H1 H3; inversion H1; inversion H3; subst; repeat split; auto; discriminate.
Qed.

(** No memory: if the underlying stepper has none, neither has the controller. *)
Hypothesis det : forall s s0 x dx t dt,
  snd (estep s x dx t dt) = snd (estep s0 x dx t dt)
  /\ snd (fst (estep s x dx t dt)) = snd (fst (estep s0 x dx t dt)).

Lemma ck_memoryless : forall c c0 x t dt c1 x1 t1 dt1 ok1 c2 x2 t2 dt2 ok2,
  try c x t dt = (c1, x1, t1, dt1, ok1) -> try c0 x t dt = (c2, x2, t2, dt2, ok2) ->
  (x1, t1, dt1, ok1) = (x2, t2, dt2, ok2).
Proof.
  intros c c0 x t dt c1 x1 t1 dt1 ok1 c2 x2 t2 dt2 ok2.
  unfold ck_try, ck_try_v2, ck_core. cbn [ck_st ck_xerr ck_xnew ck_dxdt].
  destruct (check_step_size_limit max_dt dt); [|intros H1 H2; inversion H1; inversion H2; subst; reflexivity].
  destruct (det (ck_st c) (ck_st c0) x (sys x t) t dt) as [D1 D2].
  destruct (estep (ck_st c) x (sys x t) t dt) as [[st1 out1] xerr1].
  destruct (estep (ck_st c0) x (sys x t) t dt) as [[st2 out2] xerr2].
  cbn [fst snd] in D1, D2. subst xerr2 out2.
  unfold checker_error. destruct (ngt _ _); intros H1 H2; inversion H1; inversion H2; subst; reflexivity.
Qed.

Theorem ck_drive_fresh : forall l c c0 x t,
  drive (fun _ => try) (fun c => c) c x t l = drive_fresh (fun _ => try) c0 x t l.
Proof.
  induction l as [|[rs dt|x1 t1] l IH]; intros c c0 x t; [reflexivity| |].
  - unfold drive_fresh. cbn [drive].
    destruct (try c x t dt) as [[[[c1 x1] t1] dt1] ok1] eqn:E1.
    destruct (try c0 x t dt) as [[[[c2 x2] t2] dt2] ok2] eqn:E2.
    pose proof (ck_memoryless _ _ _ _ _ _ _ _ _ _ _ _ _ _ _ E1 E2) as E. inversion E; subst.
    rewrite (IH c1 c0). reflexivity.
  - unfold drive_fresh. cbn [drive]. apply IH.
Qed.
End Explicit.

(** ** FSAL controller. *)
Section FSAL.
Context {N : Num} {I S : Type}.
Variable idx : list I.
Variable pw : N -> N -> N.
Variable sys : vec N I -> N -> vec N I.
Variable fstep : S -> vec N I -> vec N I -> N -> N -> S * vec N I * vec N I * vec N I.
Variable eo so : Z.
Variable cfg : err_cfg N.
Variable max_dt : N.
Notation try := (ckf_try idx pw sys fstep eo so cfg max_dt).

(** The stepper's contract: outputs determined by state and derivative passed in; the returned
    derivative is the system at the new point. *)
Hypothesis det : forall s s0 x dx t dt,
  snd (fstep s x dx t dt) = snd (fstep s0 x dx t dt)
  /\ snd (fst (fstep s x dx t dt)) = snd (fst (fstep s0 x dx t dt))
  /\ snd (fst (fst (fstep s x dx t dt))) = snd (fst (fst (fstep s0 x dx t dt))).
Hypothesis lst : forall s x dx t dt,
  snd (fst (fstep s x dx t dt)) = sys (snd (fst (fst (fstep s x dx t dt)))) (t + dt).

(** The cache is empty or correct. *)
Definition cache_ok (c : ckf N I S) (x : vec N I) (t : N) : Prop :=
  cf_first c = true \/ cf_dxdt c = sys x t.

Theorem ckf_step : forall rs c x t dt c' x' t' dt' ok, cache_ok c x t ->
  try rs c x t dt = (c', x', t', dt', ok) ->
  cache_ok c' x' t'
  /\ (if (ok : bool)
      then t' = t + dt /\ x' = snd (fst (fst (fstep (cf_st c) x (sys x t) t dt)))
      else x' = x /\ t' = t).
Proof.
  intros rs c x t dt c' x' t' dt' ok Hc. unfold ckf_try.
  set (c1 := if (rs || cf_first c)%bool then ckf_init sys c x t else c).
  assert (H1 : cf_dxdt c1 = sys x t /\ cf_st c1 = cf_st c).
  { unfold c1. destruct (rs || cf_first c)%bool eqn:E; [now split|].
    destruct Hc as [Hc|Hc]; [|now split]. rewrite Hc in E. destruct rs; discriminate. }
  destruct H1 as [H1 H2]. rewrite H1. clearbody c1.
  unfold ckf_try_v3, ckf_core. rewrite H2.
  destruct (check_step_size_limit max_dt dt).
  - pose proof (lst (cf_st c) x (sys x t) t dt) as L.
    destruct (fstep (cf_st c) x (sys x t) t dt) as [[[st1 out1] dxout1] xerr1]. cbn [fst snd] in *.
    unfold checker_error. destruct (ngt _ _); intro H; inversion H; subst; cbn [cf_dxdt cf_first].
    + split; [right; reflexivity|auto].
    + split; [right; reflexivity|auto].
  - intro H; inversion H; subst. split; [right; reflexivity|auto].
Qed.

Lemma ckf_memoryless : forall rs rs0 c c0 x t dt c1 x1 t1 dt1 ok1 c2 x2 t2 dt2 ok2,
  cache_ok c x t -> cache_ok c0 x t ->
  try rs c x t dt = (c1, x1, t1, dt1, ok1) -> try rs0 c0 x t dt = (c2, x2, t2, dt2, ok2) ->
  (x1, t1, dt1, ok1) = (x2, t2, dt2, ok2).
Proof.
  assert (enter : forall rs c x t, cache_ok c x t ->
    cf_dxdt (if (rs || cf_first c)%bool then ckf_init sys c x t else c) = sys x t).
  { intros rs c x t Hc. destruct (rs || cf_first c)%bool eqn:E; [reflexivity|].
    destruct Hc as [Hc|Hc]; [|exact Hc]. rewrite Hc in E. destruct rs; discriminate. }
  intros rs rs0 c c0 x t dt c1 x1 t1 dt1 ok1 c2 x2 t2 dt2 ok2 Hc Hc0. unfold ckf_try.
  pose proof (enter rs c x t Hc) as E1. pose proof (enter rs0 c0 x t Hc0) as E2.
  set (b1 := if (rs || cf_first c)%bool then ckf_init sys c x t else c) in *.
  set (b2 := if (rs0 || cf_first c0)%bool then ckf_init sys c0 x t else c0) in *.
  clearbody b1 b2. rewrite E1, E2.
  unfold ckf_try_v3, ckf_core.
  destruct (check_step_size_limit max_dt dt); [|intros H1 H2; inversion H1; inversion H2; subst; reflexivity].
  destruct (det (cf_st b1) (cf_st b2) x (sys x t) t dt) as (D1 & D2 & D3).
  destruct (fstep (cf_st b1) x (sys x t) t dt) as [[[st1 out1] dxout1] xerr1].
  destruct (fstep (cf_st b2) x (sys x t) t dt) as [[[st2 out2] dxout2] xerr2].
  cbn [fst snd] in *. subst. unfold checker_error.
  destruct (ngt _ _); intros H1 H2; inversion H1; inversion H2; subst; reflexivity.
Qed.

Theorem ckf_drive_fresh : forall l c c0 x t, cache_ok c x t -> cf_first c0 = true ->
  drive try (@ckf_reset N I S) c x t l = drive_fresh try c0 x t l.
Proof.
  induction l as [|[rs dt|x1 t1] l IH]; intros c c0 x t Hc Hc0; [reflexivity| |].
  - unfold drive_fresh. cbn [drive].
    destruct (try rs c x t dt) as [[[[c1 x1] t1] dt1] ok1] eqn:E1.
    destruct (try rs c0 x t dt) as [[[[c2 x2] t2] dt2] ok2] eqn:E2.
    pose proof (ckf_memoryless _ _ _ _ _ _ _ _ _ _ _ _ _ _ _ _ _ Hc (or_introl Hc0) E1 E2) as E. inversion E; subst.
    destruct (ckf_step _ _ _ _ _ _ _ _ _ _ Hc E1) as [Hc1 _].
    rewrite (IH c1 c0) by auto. reflexivity.
  - unfold drive_fresh. cbn [drive]. apply IH; [left; reflexivity|exact Hc0].
Qed.
End FSAL.

(** ** FSAL stepper used directly. *)
Section FSALBase.
Context {N : Num} {I S : Type}.
Variable sys : vec N I -> N -> vec N I.
Variable fstep : alias -> S -> vec N I -> vec N I -> N -> N -> S * vec N I * vec N I * vec N I.
Hypothesis det : forall al s s0 x dx t dt,
  snd (fst (fstep al s x dx t dt)) = snd (fst (fstep al s0 x dx t dt))
  /\ snd (fst (fst (fstep al s x dx t dt))) = snd (fst (fst (fstep al s0 x dx t dt))).
Hypothesis lst : forall al s x dx t dt,
  snd (fst (fstep al s x dx t dt)) = sys (snd (fst (fst (fstep al s x dx t dt)))) (t + dt).

(** do_step as an attempt that always succeeds. *)
Definition fsal_try (alx : bool) (rs : bool) (s : fsal N I S) (x : vec N I) (t dt : N)
  : fsal N I S * vec N I * N * N * bool :=
  let '(s', x', _) := fsal_do_step sys fstep alx s rs x t dt in (s', x', t + dt, dt, true).

Definition fs_ok (s : fsal N I S) (x : vec N I) (t : N) : Prop := fs_first s = true \/ fs_dxdt s = sys x t.

Lemma fs_enter : forall rs s x t, fs_ok s x t ->
  fs_dxdt (fsal_enter sys s rs x t) = sys x t.
Proof.
  intros rs s x t Hs. unfold fsal_enter. destruct (rs || fs_first s)%bool eqn:E; [reflexivity|].
  destruct Hs as [Hs|Hs]; [|exact Hs]. rewrite Hs in E. destruct rs; discriminate.
Qed.

Theorem fsal_keeps : forall alx rs s x t dt s' x' e, fs_ok s x t ->
  fsal_do_step sys fstep alx s rs x t dt = (s', x', e) -> fs_ok s' x' (t + dt).
Proof.
  intros alx rs s x t dt s' x' e Hs. unfold fsal_do_step. rewrite (fs_enter rs s x t Hs).
  set (s1 := fsal_enter sys s rs x t). clearbody s1.
  pose proof (lst (mkAlias alx true) (fs_st s1) x (sys x t) t dt) as L.
  destruct (fstep (mkAlias alx true) (fs_st s1) x (sys x t) t dt) as [[[st2 out] dxout] xerr].
  cbn [fst snd] in L. intro H; inversion H; subst. right. reflexivity.
Qed.

Lemma fsal_memoryless : forall alx rs rs0 s s0 x t dt s1 x1 e1 s2 x2 e2,
  fs_ok s x t -> fs_ok s0 x t ->
  fsal_do_step sys fstep alx s rs x t dt = (s1, x1, e1) ->
  fsal_do_step sys fstep alx s0 rs0 x t dt = (s2, x2, e2) -> x1 = x2.
Proof.
  intros alx rs rs0 s s0 x t dt s1 x1 e1 s2 x2 e2 Hs Hs0. unfold fsal_do_step.
  rewrite (fs_enter rs s x t Hs), (fs_enter rs0 s0 x t Hs0).
  set (a := fsal_enter sys s rs x t). set (b := fsal_enter sys s0 rs0 x t). clearbody a b.
  destruct (det (mkAlias alx true) (fs_st a) (fs_st b) x (sys x t) t dt) as [D1 D2].
  destruct (fstep _ (fs_st a) x (sys x t) t dt) as [[[sa oa] da] ea].
  destruct (fstep _ (fs_st b) x (sys x t) t dt) as [[[sb ob] db] eb].
  cbn [fst snd] in *. intros H1 H2; inversion H1; inversion H2; subst; auto.
Qed.

Theorem fsal_drive_fresh : forall alx l s s0 x t, fs_ok s x t -> fs_first s0 = true ->
  drive (fsal_try alx) (@fsal_reset N I S) s x t l = drive_fresh (fsal_try alx) s0 x t l.
Proof.
  induction l as [|[rs dt|x1 t1] l IH]; intros s s0 x t Hs Hs0; [reflexivity| |].
  - unfold drive_fresh. cbn [drive]. unfold fsal_try at 1 3.
    destruct (fsal_do_step sys fstep alx s rs x t dt) as [[s1 x1] e1] eqn:E1.
    destruct (fsal_do_step sys fstep alx s0 rs x t dt) as [[s2 x2] e2] eqn:E2.
    pose proof (fsal_memoryless _ _ _ _ _ _ _ _ _ _ _ _ _ _ Hs (or_introl Hs0) E1 E2). subst x2.
    pose proof (fsal_keeps _ _ _ _ _ _ _ _ _ Hs E1) as Hk.
    rewrite (IH s1 s0) by auto. reflexivity.
  - unfold drive_fresh. cbn [drive]. apply IH; [left; reflexivity|exact Hs0].
Qed.
End FSALBase.

(** ** Steppers with the same behaviour give the same run of integrate_adaptive. *)
Section Sim.
Context {N : Num} {S1 S2 W X : Type}.
Notation V := (ev X (carrier N)).
Variable f1 : S1 -> X -> N -> N -> S1 * X * N * N * bool.
Variable f2 : S2 -> X -> N -> N -> S2 * X * N * N * bool.
Variable Rel : S1 -> S2 -> X -> N -> Prop.
Hypothesis sim : forall s1 s2 x t dt s1' x1 t1 d1 ok1 s2' x2 t2 d2 ok2, Rel s1 s2 x t ->
  f1 s1 x t dt = (s1', x1, t1, d1, ok1) -> f2 s2 x t dt = (s2', x2, t2, d2, ok2) ->
  (x1, t1, d1, ok1) = (x2, t2, d2, ok2) /\ Rel s1' s2' x1 t1.

Lemma try_loop_sim : forall fuel cnt s1 s2 (w : W) x t dt, Rel s1 s2 x t ->
  let m1 := try_loop (N := N) (ctrl_step f1) fuel cnt s1 w x t dt in
  let m2 := try_loop (N := N) (ctrl_step f2) fuel cnt s2 w x t dt in
  fst m1 = fst m2 /\
  match snd m1, snd m2 with
  | Ok (s1', w1, x1, t1, d1), Ok (s2', w2, x2, t2, d2) =>
      (w1, x1, t1, d1) = (w2, x2, t2, d2) /\ Rel s1' s2' x1 t1
  | Exc e1, Exc e2 => e1 = e2
  | UB, UB => True | Fuel, Fuel => True
  | _, _ => False
  end.
Proof.
  induction fuel as [|fuel IH]; intros cnt s1 s2 w x t dt HR; cbn [try_loop].
  - now split.
  - destruct (f1 s1 x t dt) as [[[[s1' x1] t1] d1] ok1] eqn:E1.
    destruct (f2 s2 x t dt) as [[[[s2' x2] t2] d2] ok2] eqn:E2.
    destruct (sim _ _ _ _ _ _ _ _ _ _ _ _ _ _ _ HR E1 E2) as [E HR'].
    inversion E; subst x2 t2 d2 ok2.
    assert (A1 : ctrl_step f1 s1 w x t dt = ([ETry x t dt ok1], Ok (s1', w, x1, t1, d1, ok1)))
      by (unfold ctrl_step; now rewrite E1).
    assert (A2 : ctrl_step f2 s2 w x t dt = ([ETry x t dt ok1], Ok (s2', w, x1, t1, d1, ok1)))
      by (unfold ctrl_step; now rewrite E2).
    rewrite A1, A2. unfold bind, fail, ret. clear A1 A2.
    destruct (fail_check cnt) as [cnt1|e| |]; cbn [fst snd]; try now split.
    destruct ok1; cbn [fst snd].
    + split; auto.
    + specialize (IH cnt1 s1' s2' w x1 t1 d1 HR'). cbv zeta in IH.
      destruct (try_loop (ctrl_step f1) fuel cnt1 s1' w x1 t1 d1) as [tr1 r1].
      destruct (try_loop (ctrl_step f2) fuel cnt1 s2' w x1 t1 d1) as [tr2 r2].
      cbn [fst snd] in *. destruct IH as [-> IH]. split; [reflexivity|exact IH].
Qed.

Variable obs : W -> X -> N -> M V W.

Theorem adaptive_sim : forall fuel tend s1 s2 w x t dt k, Rel s1 s2 x t ->
  let m1 := ia_loop (N := N) (ctrl_step f1) obs fuel tend s1 w x t dt k in
  let m2 := ia_loop (N := N) (ctrl_step f2) obs fuel tend s2 w x t dt k in
  fst m1 = fst m2 /\
  match snd m1, snd m2 with
  | Ok (_, w1, x1, t1, d1, n1), Ok (_, w2, x2, t2, d2, n2) =>
      (w1, x1, t1, d1, n1) = (w2, x2, t2, d2, n2)
  | Exc e1, Exc e2 => e1 = e2
  | UB, UB => True | Fuel, Fuel => True
  | _, _ => False
  end.
Proof.
  induction fuel as [|fuel IH]; intros tend s1 s2 w x t dt k HR; cbn [ia_loop].
  - now split.
  - destruct (less_with_sign t tend dt).
    + destruct (obs w x t) as [tr0 [w1|e| |]]; unfold bind; cbn [fst snd]; try now split.
      set (dt1 := if less_with_sign tend (t + dt) dt then tend - t else dt).
      pose proof (try_loop_sim (2 + default_max_steps) 0 s1 s2 w1 x t dt1 HR) as H. cbv zeta in H.
      destruct (try_loop (ctrl_step f1) _ 0 s1 w1 x t dt1) as [tr1 r1].
      destruct (try_loop (ctrl_step f2) _ 0 s2 w1 x t dt1) as [tr2 r2].
      cbn [fst snd] in H. destruct H as [-> H].
      destruct r1 as [[[[[a1 b1] c1] d1] e1]|e1| |], r2 as [[[[[a2 b2] c2] d2] e2]|e2| |]; try contradiction;
        cbn [fst snd]; try (split; [reflexivity|exact H]).
      destruct H as [H HR']. inversion H; subst b2 c2 d2 e2.
      specialize (IH tend a1 a2 b1 c1 d1 e1 (Datatypes.S k) HR'). cbv zeta in IH.
      destruct (ia_loop (ctrl_step f1) obs fuel tend a1 b1 c1 d1 e1 (Datatypes.S k)) as [tr3 r3].
      destruct (ia_loop (ctrl_step f2) obs fuel tend a2 b1 c1 d1 e1 (Datatypes.S k)) as [tr4 r4].
      cbn [fst snd] in *. destruct IH as [-> IH]. split; [reflexivity|exact IH].
    + destruct (obs w x t) as [tr0 [w1|e| |]]; unfold bind, ret; cbn [fst snd]; now split.
Qed.
End Sim.

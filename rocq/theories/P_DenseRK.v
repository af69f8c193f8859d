(** dense_output_runge_kutta: the toggled buffers behave like a plain pair of current and previous
    values; independence of earlier use. *)
From Coq Require Import ZArith List Bool Lia Arith FunctionalExtensionality.
From Verif Require Import M_Num M_Run M_Checker M_RK S_RK P_RK M_CtrlRK M_Dense M_DenseRK S_DenseRK P_Det.
Import ListNotations.
Local Open Scope num_scope.

(** ** The loop and its attempts. *)
Section Loop.
Context {O : Type}.
Variable try : O -> O * bool.

Fixpoint gloop (fuel : nat) (o : O) (steps : nat) : O * res unit :=
  match fuel with
  | 0%nat => (o, Fuel)
  | S fuel' =>
      let (o1, ok) := try o in
      match fail_check steps with
      | Ok steps1 => if (ok : bool) then (o1, Ok tt) else gloop fuel' o1 steps1
      | Exc e => (o1, Exc e)
      | UB => (o1, UB)
      | Fuel => (o1, Fuel)
      end
  end.

Lemma gloop_char : forall m o k, (k + m = default_max_steps)%nat ->
  (exists j, (j < m)%nat /\ snd (attempts try j o) = true /\ (forall i, (i < j)%nat -> snd (attempts try i o) = false)
             /\ gloop (S m) o k = (fst (attempts try j o), Ok tt))
  \/ ((forall i, (i < m)%nat -> snd (attempts try i o) = false)
      /\ gloop (S m) o k = (fst (attempts try m o), Exc StepAdjustment)).
Proof.
  induction m as [|m IH]; intros o k H.
  - right. split; [intros i Hi; lia|]. cbn [gloop]. unfold fail_check, checker_call.
    replace (Nat.leb default_max_steps k) with true by (symmetry; apply Nat.leb_le; lia).
    cbn [attempts]. now destruct (try o).
  - remember (S m) as m1 eqn:Em. cbn [gloop]. destruct (try o) as [o1 ok] eqn:E. unfold fail_check, checker_call.
    replace (Nat.leb default_max_steps k) with false by (symmetry; apply Nat.leb_gt; lia).
    destruct ok.
    + left. exists 0%nat. split; [lia|]. cbn [attempts]. rewrite E. split; [reflexivity|]. split; [intros i Hi; lia|reflexivity].
    + subst m1. destruct (IH o1 (S k)) as [(j & H1 & H2 & H3 & H4)|(H1 & H2)]; [lia| |].
      * left. exists (S j). split; [lia|]. cbn [attempts]. rewrite E. cbn [fst]. split; [exact H2|].
        split; [|exact H4]. intros [|i] Hi; cbn [attempts]; rewrite E; [reflexivity|]. apply H3. lia.
      * right. split; [|cbn [attempts]; rewrite E; exact H2].
        intros [|i] Hi; cbn [attempts]; rewrite E; [reflexivity|]. apply H1. lia.
Qed.

(** A property of the object kept by failing attempts holds before every attempt. *)
Lemma attempts_inv (P : O -> Prop) : (forall o, P o -> snd (try o) = false -> P (fst (try o))) ->
  forall j o, P o -> (forall i, (i < j)%nat -> snd (attempts try i o) = false) ->
  exists o1, P o1 /\ attempts try j o = try o1.
Proof.
  intros HP. induction j as [|j IH]; intros o Ho H; [exists o; auto|].
  cbn [attempts]. apply IH.
  - apply HP; [exact Ho|]. exact (H 0%nat ltac:(lia)).
  - intros i Hi. exact (H (S i) ltac:(lia)).
Qed.
End Loop.

(** ** Refinement. *)
Section Abs.
Context {N : Num} {I C : Type}.
Notation X := (vec N I).
Variable sys : X -> N -> X.
Variable ftry : C -> X -> X -> N -> X -> X -> N -> C * X * X * N * N * bool.
Variable fcalc : C -> N -> X -> X -> N -> X -> X -> N -> X.

Record fv := mkFv { f_st : C; f_x : X; f_d : X; f_ox : X; f_od : X; f_t : N; f_told : N; f_dt : N; f_der : bool }.
Definition abs (o : drf N I C) : fv :=
  mkFv (df_st o) (df_current o) (df_cderiv o) (df_old o) (df_oderiv o) (df_t o) (df_told o) (df_dt o) (df_der o).

Definition a_init (v : fv) (x : X) (t dt : N) : fv :=
  mkFv (f_st v) x (f_d v) (f_ox v) (f_od v) t (f_told v) dt false.
Definition a_enter (v : fv) : fv :=
  if f_der v then v
  else mkFv (f_st v) (f_x v) (sys (f_x v) (f_t v)) (f_ox v) (f_od v) (f_t v) (f_told v) (f_dt v) true.
Definition a_save (v : fv) : fv :=
  mkFv (f_st v) (f_x v) (f_d v) (f_ox v) (f_od v) (f_t v) (f_t v) (f_dt v) (f_der v).
Definition a_try (v : fv) : fv * bool :=
  let '(st1, out1, dout1, t1, dt1, ok) := ftry (f_st v) (f_x v) (f_d v) (f_t v) (f_ox v) (f_od v) (f_dt v) in
  (mkFv st1 (f_x v) (f_d v) out1 dout1 t1 (f_told v) dt1 (f_der v), ok).
Definition a_swap (v : fv) : fv :=
  mkFv (f_st v) (f_ox v) (f_od v) (f_x v) (f_d v) (f_t v) (f_told v) (f_dt v) (f_der v).
Definition a_loop := gloop a_try.
Definition a_step (v : fv) : fv * res unit :=
  let (v1, r) := a_loop (S default_max_steps) (a_save (a_enter v)) 0 in
  match r with
  | Ok _ => (a_swap v1, Ok tt)
  | Exc e => (v1, Exc e)
  | UB => (v1, UB)
  | Fuel => (v1, Fuel)
  end.
Definition a_calc (v : fv) (t : N) : X :=
  fcalc (f_st v) t (f_ox v) (f_od v) (f_told v) (f_x v) (f_d v) (f_t v).

Lemma abs_init o x t dt : abs (df_init o x t dt) = a_init (abs o) x t dt.
Proof. destruct o as [st [] x1 x2 d1 d2 t1 to dt1 der]; reflexivity. Qed.
Lemma abs_enter o : abs (df_enter sys o) = a_enter (abs o).
Proof. destruct o as [st [] x1 x2 d1 d2 t1 to dt1 []]; reflexivity. Qed.
Lemma abs_save o : abs (df_save_time o) = a_save (abs o).
Proof. destruct o as [st [] x1 x2 d1 d2 t1 to dt1 []]; reflexivity. Qed.
Lemma abs_toggle o : abs (df_toggle o) = a_swap (abs o).
Proof. destruct o as [st [] x1 x2 d1 d2 t1 to dt1 []]; reflexivity. Qed.
Lemma abs_try o : a_try (abs o) = (abs (fst (df_try ftry o)), snd (df_try ftry o)).
Proof.
  destruct o as [st [] x1 x2 d1 d2 t1 to dt1 der]; unfold a_try, df_try, abs, df_current, df_cderiv, df_old, df_oderiv;
    cbn [f_st f_x f_d f_ox f_od f_t f_told f_dt f_der df_st df_cur df_x1 df_x2 df_d1 df_d2 df_t df_told df_dt df_der];
    destruct (ftry _ _ _ _ _ _ _) as [[[[[st2 out] dout] t2] dt2] ok]; reflexivity.
Qed.
Lemma df_gloop : forall fuel o k, df_loop ftry fuel o k = gloop (df_try ftry) fuel o k.
Proof. reflexivity. Qed.
Lemma abs_loop : forall fuel o k,
  a_loop fuel (abs o) k = (abs (fst (df_loop ftry fuel o k)), snd (df_loop ftry fuel o k)).
Proof.
  unfold a_loop. induction fuel as [|fuel IH]; intros o k; cbn [gloop df_loop]; [reflexivity|].
  rewrite abs_try. destruct (df_try ftry o) as [o1 ok]. cbn [fst snd].
  destruct (fail_check k); try reflexivity. destruct ok; [reflexivity|apply IH].
Qed.
Theorem abs_step o : a_step (abs o) = (abs (fst (df_step sys ftry o)), snd (df_step sys ftry o)).
Proof.
  unfold a_step, df_step. rewrite <- abs_enter, <- abs_save, abs_loop.
  destruct (df_loop ftry _ _ 0) as [o1 r]. cbn [fst snd]. destruct r as [[]|e| |]; cbn [fst snd]; rewrite ?abs_toggle; reflexivity.
Qed.
Lemma abs_steps : forall n o,
  do_steps a_step n (abs o) = (abs (fst (do_steps (df_step sys ftry) n o)), snd (do_steps (df_step sys ftry) n o)).
Proof.
  induction n as [|n IH]; intro o; cbn [do_steps]; [reflexivity|].
  rewrite abs_step. destruct (df_step sys ftry o) as [o1 r]. cbn [fst snd]. destruct r; try reflexivity. apply IH.
Qed.
Lemma abs_calc o t : df_calc fcalc o t = a_calc (abs o) t.
Proof. reflexivity. Qed.

(** The outcome of do_step in terms of the attempts. *)
Theorem a_step_char : forall v,
  let v0 := a_save (a_enter v) in
  (exists j, (j < default_max_steps)%nat /\ snd (attempts a_try j v0) = true
      /\ (forall i, (i < j)%nat -> snd (attempts a_try i v0) = false)
      /\ a_step v = (a_swap (fst (attempts a_try j v0)), Ok tt))
  \/ ((forall i, (i < default_max_steps)%nat -> snd (attempts a_try i v0) = false)
      /\ a_step v = (fst (attempts a_try default_max_steps v0), Exc StepAdjustment)).
Proof.
  intros v v0. unfold a_step, a_loop. fold v0.
  destruct (gloop_char a_try default_max_steps v0 0 eq_refl) as [(j & H1 & H2 & H3 & H4)|(H1 & H2)].
  - left. exists j. rewrite H4. auto.
  - right. rewrite H2. auto.
Qed.
End Abs.
Arguments fv N I C : clear implicits.
Arguments mkFv {N I C}.

(** ** Independence of earlier use: dopri5. *)
Section Dopri.
Context {N : Num} {I : Type}.
Notation X := (vec N I).
Variable sys : X -> N -> X.
Variable idx : list I.
Variable pw : N -> N -> N.
Variable eo so : Z.
Variable cfg : err_cfg N.
Variable max_dt : N.
Notation ftry := (dopri5_ftry sys idx pw eo so cfg max_dt).
Notation obj := (fv N I (rkmem N I * X)).

Lemma dopri5_stages_det : forall (m m0 : rkmem N I) x dx t dt j, In j [1; 2; 3; 4]%nat ->
  fst (fst (fst (dopri5_fstep sys (mkAlias false false) m x dx t dt))) (LK j)
  = fst (fst (fst (dopri5_fstep sys (mkAlias false false) m0 x dx t dt))) (LK j).
Proof.
  intros m m0 x dx t dt j Hj. unfold dopri5_fstep. fold (args m x dx). fold (args m0 x dx).
  assert (D : det_out (mkAlias false false) [LK 1; LK 2; LK 3; LK 4] (dopri5_err_prog (N := N) (mkAlias false false) t dt) = true)
    by reflexivity.
  cbn [fst snd].
  pose proof (det_out_eq sys _ (mkAlias false false) _ m m0 x dx D) as H.
  assert (G : In (LK j) [LK 1; LK 2; LK 3; LK 4]) by (cbn in *; intuition (subst; auto)).
  exact (H (LK j) G).
Qed.

(** What one attempt does. *)
Lemma a_try_cases : forall st x d ox od t told dt der,
  let r := a_try ftry (mkFv st x d ox od t told dt der) in
  let m1 := upd (upd (fst st) LIn x) LDx d in
  let m2 := fst (exec sys (mkAlias false false) (dopri5_err_prog (mkAlias false false) t dt) m1) in
  let ce := checker_error idx cfg x d (m2 LErr) dt in
  (check_step_size_limit max_dt dt = false /\ r = (mkFv st x d ox od t told max_dt der, false))
  \/ (check_step_size_limit max_dt dt = true /\ ngt (snd ce) (nofZ 1) = true
      /\ r = (mkFv (m2, fst ce) x d (m2 LOut) (m2 LDxOut) t told (decrease_step pw max_dt dt (snd ce) eo) der, false))
  \/ (check_step_size_limit max_dt dt = true /\ ngt (snd ce) (nofZ 1) = false
      /\ r = (mkFv (m2, fst ce) x d (m2 LOut) (m2 LDxOut) (t + dt) told (increase_step pw max_dt dt (snd ce) so) der, true)).
Proof.
  intros st x d ox od t told dt der r m1 m2 ce. unfold r, a_try, dopri5_ftry, ckf_core, dopri5_fstep.
  cbn [f_st f_x f_d f_ox f_od f_t f_told f_dt f_der].
  destruct (check_step_size_limit max_dt dt); [right|left; destruct st; auto].
  fold m1. fold m2. unfold rd. cbn [resolve al_x al_dx]. fold ce. destruct ce as [xe err]. cbn [fst snd].
  destruct (ngt err (nofZ 1)); auto.
Qed.

(** Same current values. *)
Definition same_now (v w : obj) : Prop :=
  f_x v = f_x w /\ f_t v = f_t w /\ f_dt v = f_dt w /\ f_der v = f_der w /\ (f_der v = true -> f_d v = f_d w).
Definition same_saved (v w : obj) : Prop := same_now v w /\ f_der v = true /\ f_told v = f_told w.
Definition same_all (v w : obj) : Prop :=
  same_saved v w /\ f_ox v = f_ox w /\ f_od v = f_od w /\ f_d v = f_d w
  /\ forall j, In j [1; 2; 3; 4]%nat -> fst (f_st v) (LK j) = fst (f_st w) (LK j).

Lemma same_try v w : same_saved v w ->
  snd (a_try ftry v) = snd (a_try ftry w)
  /\ same_saved (fst (a_try ftry v)) (fst (a_try ftry w))
  /\ (snd (a_try ftry v) = true -> same_all (fst (a_try ftry v)) (fst (a_try ftry w))).
Proof.
  destruct v as [st x d ox od t told dt der], w as [st' x' d' ox' od' t' told' dt' der'].
  unfold same_saved, same_now; cbn [f_st f_x f_d f_ox f_od f_t f_told f_dt f_der].
  intros ((-> & -> & -> & -> & Hd) & -> & ->). specialize (Hd eq_refl). subst d'.
  unfold a_try, dopri5_ftry, ckf_core; cbn [f_st f_x f_d f_ox f_od f_t f_told f_dt f_der].
  destruct (check_step_size_limit max_dt dt').
  - pose proof (dopri5_fstep_det sys (mkAlias false false) (fst st) (fst st') x' d t' dt') as (D1 & D2 & D3).
    pose proof (dopri5_stages_det (fst st) (fst st') x' d t' dt') as D4.
    destruct (dopri5_fstep sys (mkAlias false false) (fst st) x' d t' dt') as [[[st1 out1] dout1] xerr1].
    destruct (dopri5_fstep sys (mkAlias false false) (fst st') x' d t' dt') as [[[st2 out2] dout2] xerr2].
    cbn [fst snd] in D1, D2, D3, D4. subst out2 dout2 xerr2. unfold checker_error.
    destruct (ngt _ _); unfold same_all, same_saved, same_now; cbn [fst snd f_st f_x f_d f_ox f_od f_t f_told f_dt f_der]; auto 20.
  - unfold same_all, same_saved, same_now; cbn [fst snd f_st f_x f_d f_ox f_od f_t f_told f_dt f_der]; auto 20.
    split; [reflexivity|]. split; [auto 20|discriminate].
Qed.

Lemma same_loop : forall fuel v w k, same_saved v w ->
  snd (a_loop ftry fuel v k) = snd (a_loop ftry fuel w k)
  /\ (snd (a_loop ftry fuel v k) = Ok tt -> same_all (fst (a_loop ftry fuel v k)) (fst (a_loop ftry fuel w k))).
Proof.
  unfold a_loop. induction fuel as [|fuel IH]; intros v w k H; cbn [gloop]; [split; [reflexivity|discriminate]|].
  destruct (same_try v w H) as (H1 & H2 & H3).
  destruct (a_try ftry v) as [v1 ok]. destruct (a_try ftry w) as [w1 ok']. cbn [fst snd] in *. subst ok'.
  destruct (fail_check k); try (split; [reflexivity|discriminate]).
  destruct ok; cbn [fst snd]; [auto|]. now apply IH.
Qed.

Lemma same_enter v w : same_now v w -> same_saved (a_save (a_enter sys v)) (a_save (a_enter sys w)).
Proof.
  destruct v as [st x d ox od t told dt der], w as [st' x' d' ox' od' t' told' dt' der'].
  unfold same_saved, same_now, a_enter; cbn [f_st f_x f_d f_ox f_od f_t f_told f_dt f_der].
  intros (-> & -> & -> & -> & Hd). destruct der'; unfold a_save; cbn [f_st f_x f_d f_ox f_od f_t f_told f_dt f_der]; auto 20.
Qed.

Lemma same_step v w : same_now v w ->
  snd (a_step sys ftry v) = snd (a_step sys ftry w)
  /\ (snd (a_step sys ftry v) = Ok tt -> same_all (fst (a_step sys ftry v)) (fst (a_step sys ftry w))).
Proof.
  intro H. unfold a_step.
  destruct (same_loop (S default_max_steps) _ _ 0 (same_enter v w H)) as [H1 H2].
  destruct (a_loop ftry _ (a_save (a_enter sys v)) 0) as [v1 r].
  destruct (a_loop ftry _ (a_save (a_enter sys w)) 0) as [w1 r']. cbn [fst snd] in *. subst r'.
  destruct r as [[]|e| |]; cbn [fst snd]; (split; [reflexivity|]); try discriminate.
  intros _. specialize (H2 eq_refl). revert H2.
  destruct v1 as [st x d ox od t told dt der], w1 as [st' x' d' ox' od' t' told' dt' der'].
  unfold same_all, same_saved, same_now, a_swap; cbn [f_st f_x f_d f_ox f_od f_t f_told f_dt f_der].
  intros (((-> & -> & -> & -> & Hd) & -> & ->) & -> & -> & -> & K). auto 20.
Qed.

Lemma same_steps : forall n v w, same_now v w ->
  snd (do_steps (a_step sys ftry) (S n) v) = snd (do_steps (a_step sys ftry) (S n) w)
  /\ (snd (do_steps (a_step sys ftry) (S n) v) = Ok tt ->
      same_all (fst (do_steps (a_step sys ftry) (S n) v)) (fst (do_steps (a_step sys ftry) (S n) w))).
Proof.
  induction n as [|n IH]; intros v w H.
  - destruct (same_step v w H) as [H1 H2]. cbn [do_steps].
    destruct (a_step sys ftry v) as [v1 r], (a_step sys ftry w) as [w1 r']. cbn [fst snd] in *. subst r'.
    destruct r as [[]|e| |]; cbn [fst snd]; auto.
  - destruct (same_step v w H) as [H1 H2]. remember (S n) as n1. cbn [do_steps].
    destruct (a_step sys ftry v) as [v1 r], (a_step sys ftry w) as [w1 r']. cbn [fst snd] in *. subst r'.
    destruct r as [[]|e| |]; cbn [fst snd]; try (split; [reflexivity|discriminate]).
    apply IH. exact (proj1 (proj1 (H2 eq_refl))).
Qed.

Definition df_view (o : drf N I (rkmem N I * X)) : view N X :=
  mkView (df_current o) (df_t o) (df_old o) (df_told o) (df_dt o) (df_calc dopri5_fcalc o).

Theorem dopri5_fresh : forall n o o' x t dt,
  let r := do_steps (df_step sys ftry) (S n) (df_init o x t dt) in
  let r' := do_steps (df_step sys ftry) (S n) (df_init o' x t dt) in
  snd r = snd r' /\ (snd r = Ok tt -> df_view (fst r) = df_view (fst r')).
Proof.
  intros n o o' x t dt. cbv zeta.
  pose proof (abs_steps sys ftry (S n) (df_init o x t dt)) as A.
  pose proof (abs_steps sys ftry (S n) (df_init o' x t dt)) as A'.
  rewrite abs_init in A, A'.
  destruct (same_steps n (a_init (abs o) x t dt) (a_init (abs o') x t dt)) as [H1 H2].
  { unfold same_now, a_init; cbn [f_st f_x f_d f_ox f_od f_t f_told f_dt f_der]. repeat split. discriminate. }
  rewrite A, A' in H1. rewrite A, A' in H2. cbn [fst snd] in H1, H2. split; [exact H1|].
  intro Hok. specialize (H2 Hok).
  set (a := fst (do_steps (df_step sys ftry) (S n) (df_init o x t dt))) in *.
  set (b := fst (do_steps (df_step sys ftry) (S n) (df_init o' x t dt))) in *. clearbody a b.
  destruct H2 as (((E1 & E2 & E3 & E4 & _) & _ & E5) & E6 & E7 & E8 & K).
  unfold abs in *; cbn [f_st f_x f_d f_ox f_od f_t f_told f_dt f_der] in *.
  unfold df_view, df_calc, dopri5_fcalc. rewrite E1, E2, E3, E5, E6, E7, E8.
  rewrite (K 1%nat), (K 2%nat), (K 3%nat), (K 4%nat) by (cbn; auto). reflexivity.
Qed.
End Dopri.

(** ** euler. *)
Section Euler.
Context {N : Num} {I : Type}.
Notation X := (vec N I).
Variable sys : X -> N -> X.

Fixpoint dp_steps (n : nat) (o : drp N I (rkmem N I)) : drp N I (rkmem N I) :=
  match n with 0%nat => o | S n' => dp_steps n' (dp_step (euler_pstep sys) o) end.
Definition dp_view (junk : X) (o : drp N I (rkmem N I)) : view N X :=
  mkView (dp_current o) (dp_t o) (dp_old o) (dp_told o) (dp_dt o) (dp_calc (euler_pcalc sys) o junk).

Lemma euler_pstep_eq m x t dt :
  snd (euler_pstep sys m x t dt) = (fun i => scale_sum [(nofZ 1, x i); (dt, sys x t i)])
  /\ fst (euler_pstep sys m x t dt) LDx = sys x t.
Proof. split; reflexivity. Qed.

Lemma euler_pcalc_eq m y t old t_old cur t_new :
  euler_pcalc sys m y t old t_old cur t_new = (fun i => scale_sum [(nofZ 1, old i); (t - t_old, m LDx i)]).
Proof. reflexivity. Qed.

Lemma dp_step_view o junk :
  let o1 := dp_step (euler_pstep sys) o in
  dp_view junk o1
  = mkView (fun i => scale_sum [(nofZ 1, dp_current o i); (dp_dt o, sys (dp_current o) (dp_t o) i)])
      (dp_t o + dp_dt o) (dp_current o) (dp_t o) (dp_dt o)
      (fun s i => scale_sum [(nofZ 1, dp_current o i); (s - dp_t o, sys (dp_current o) (dp_t o) i)]).
Proof. destruct o as [st x1 x2 [] t told dt]; reflexivity. Qed.

Lemma dp_step_now o o' : dp_current o = dp_current o' -> dp_t o = dp_t o' -> dp_dt o = dp_dt o' ->
  forall junk junk', dp_view junk (dp_step (euler_pstep sys) o) = dp_view junk' (dp_step (euler_pstep sys) o').
Proof. intros H1 H2 H3 junk junk'. rewrite !dp_step_view. now rewrite H1, H2, H3. Qed.

Lemma dp_steps_last : forall n o, dp_steps (S n) o = dp_step (euler_pstep sys) (dp_steps n o).
Proof. induction n as [|n IH]; intro o; [reflexivity|]. exact (IH (dp_step (euler_pstep sys) o)). Qed.

Theorem euler_fresh : forall n o o' junk junk' x t dt,
  dp_view junk (dp_steps (S n) (dp_init o x t dt)) = dp_view junk' (dp_steps (S n) (dp_init o' x t dt)).
Proof.
  intros n o o' junk junk' x t dt. revert junk junk'. induction n as [|n IH]; intros junk junk'.
  - apply dp_step_now; unfold dp_init; destruct (dp_cur o), (dp_cur o'); reflexivity.
  - rewrite !(dp_steps_last (S n)). specialize (IH junk junk').
    apply dp_step_now.
    + exact (f_equal v_x IH).
    + exact (f_equal v_t IH).
    + exact (f_equal v_dt IH).
Qed.
End Euler.

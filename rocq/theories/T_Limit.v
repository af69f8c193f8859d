(** C102 for rosenbrock4_dense_output and bulirsch_stoer_dense_out: the attempts of one do_step. *)
From Coq Require Import ZArith QArith List Bool Arith Lia.
From Verif Require Import M_Num M_Sign M_Run M_Checker M_RK M_CtrlRK M_Midpoint M_BS M_BSDense M_Implicit S_BS S_DenseRK P_BS P_BSDense P_DenseRK X_Inst X_BS T_BS.
Import ListNotations.
Local Close Scope Q_scope.

(** One attempt of rosenbrock4_dense_output: the controller is called with the current state and writes
    into the buffer of the old one. *)
Definition rd_attempt {N : Num} {C : Type} (tr : C -> vec N nat -> N -> vec N nat -> N -> C * vec N nat * N * N * bool)
    (s : rosd N C) : rosd N C * bool :=
  match tr (rd_c s) (rd_x s) (rd_t s) (rd_xold s) (rd_dt s) with
  | (c, xo, t, dt, ok) =>
      (if rd_cur s then mkRosd c (rd_x1 s) xo true t (rd_told s) dt else mkRosd c xo (rd_x2 s) false t (rd_told s) dt, ok)
  end.
(** The object do_step starts its attempts from, and what it makes of an accepted one. *)
Definition rd_start {N : Num} {C} (s : rosd N C) : rosd N C := mkRosd (rd_c s) (rd_x1 s) (rd_x2 s) (rd_cur s) (rd_t s) (rd_t s) (rd_dt s).
Definition rd_accept {N : Num} {C} (prep : C -> C) (s : rosd N C) : rosd N C :=
  mkRosd (prep (rd_c s)) (rd_x1 s) (rd_x2 s) (negb (rd_cur s)) (rd_t s) (rd_told s) (rd_dt s).

Lemma rd_loop_gloop {N : Num} {C} tr : forall fuel k (s : rosd N C),
  rd_loop tr fuel k s = match gloop (rd_attempt tr) fuel s k with (s1, Ok _) => Ok s1 | (_, Exc e) => Exc e | (_, UB) => UB | (_, Fuel) => Fuel end.
Proof.
  induction fuel as [|fuel IH]; intros k s; cbn [rd_loop gloop]; [reflexivity|]. unfold rd_attempt at 1.
  destruct (tr (rd_c s) (rd_x s) (rd_t s) (rd_xold s) (rd_dt s)) as [[[[c xo] t] dt] ok].
  set (s1 := mkRosd c _ _ _ _ _ _). set (s2 := if rd_cur s then _ else _).
  assert (E : s1 = s2) by (subst s1 s2; destruct (rd_cur s); reflexivity). rewrite E.
  destruct (fail_check k); try reflexivity. destruct ok; [reflexivity|]. apply IH.
Qed.

(** An acceptance among the first 500 attempts ends the step normally with that attempt; otherwise do_step
    throws step_adjustment_error.  It never loops. *)
Theorem C102_rosenbrock_partial : forall (N : Num) (C : Type) tr prep (s : rosd N C),
  (exists j, (j < 500)%nat /\ snd (attempts (rd_attempt tr) j (rd_start s)) = true
      /\ (forall i, (i < j)%nat -> snd (attempts (rd_attempt tr) i (rd_start s)) = false)
      /\ rd_step tr prep s = Ok (rd_accept prep (fst (attempts (rd_attempt tr) j (rd_start s)))))
  \/ ((forall i, (i < 500)%nat -> snd (attempts (rd_attempt tr) i (rd_start s)) = false) /\ rd_step tr prep s = Exc StepAdjustment).
Proof.
  intros N C tr prep s. unfold rd_step. fold (rd_start s). rewrite rd_loop_gloop.
  change 500%nat with default_max_steps.
  destruct (gloop_char (rd_attempt tr) default_max_steps (rd_start s) 0 eq_refl) as [(j & A & B & D & E)|[A E]]; rewrite E.
  - left. exists j. repeat split; auto.
  - right. split; [exact A|reflexivity].
Qed.
Print Assumptions C102_rosenbrock_partial.

Lemma gloop_more {O} (try : O -> O * bool) : forall m o k, (k + m = default_max_steps)%nat ->
  gloop try (2 + m) o k = gloop try (1 + m) o k.
Proof.
  induction m as [|m IH]; intros o k H.
  - cbn [Nat.add gloop]. unfold fail_check, checker_call.
    replace (Nat.leb default_max_steps k) with true by (symmetry; apply Nat.leb_le; lia). now destruct (try o).
  - change (2 + S m)%nat with (S (2 + m)). change (1 + S m)%nat with (S (1 + m)). cbn [gloop].
    destruct (try o) as [o1 ok]. unfold fail_check, checker_call.
    replace (Nat.leb default_max_steps k) with false by (symmetry; apply Nat.leb_gt; lia).
    destruct ok; [reflexivity|]. apply IH. lia.
Qed.

(** One attempt of bulirsch_stoer_dense_out; the attempts of reachable objects are defined. *)
Section BSD.
Context {N : Num} {I : Type}.
Variable idx : list I.
Variable pw : N -> N -> N.
Variable cfg : err_cfg N.
Variable max_dt : N.
Variable ci : bool.
Variable sys : vec N I -> N -> vec N I.
Definition bsd_attempt (s : bsd N I) : bsd N I * bool :=
  match bsd_try idx pw cfg max_dt ci sys s with
  | Ok (s1, ok) => (set_first s1 false, ok)
  | _ => (s, false)
  end.
Definition bsd_start (s : bsd N I) : bsd N I := let s0 := if bd_first s then eval_cur sys s else s in set_tlast s0 (bd_t s0).

Lemma bsd_attempt_inv s : bsd_inv s -> bsd_inv (fst (bsd_attempt s)) /\ exists s1, bsd_try idx pw cfg max_dt ci sys s = Ok (s1, snd (bsd_attempt s)) /\ fst (bsd_attempt s) = set_first s1 false.
Proof.
  intro Hs. unfold bsd_attempt.
  destruct (bsd_try_ok idx pw cfg max_dt ci sys (fun _ _ _ _ _ _ => True) (fun _ _ _ _ _ _ _ _ _ _ => Logic.I) s Hs) as (s1 & ok & E & (Hz & Hk) & _).
  rewrite E. cbn [fst snd]. split; [|eauto]. split; [exact Hz|]. split; [exact Hk|discriminate].
Qed.
Lemma bsd_attempts_gloop : forall fuel k s, bsd_inv s ->
  bsd_attempts idx pw cfg max_dt ci sys fuel k s
  = match gloop bsd_attempt fuel s k with (s1, Ok _) => Ok s1 | (_, Exc e) => Exc e | (_, UB) => UB | (_, Fuel) => Fuel end.
Proof.
  induction fuel as [|fuel IH]; intros k s Hs; cbn [bsd_attempts gloop]; [reflexivity|].
  destruct (bsd_attempt_inv s Hs) as (Hi & s1 & E & F). rewrite E. cbn [rbind].
  destruct (bsd_attempt s) as [o ok]. cbn [fst snd] in *. subst o.
  destruct (fail_check k); try reflexivity. cbn [rbind]. destruct ok; [reflexivity|]. now apply IH.
Qed.
End BSD.

Theorem C102_bulirsch_stoer_partial : forall (N : Num) (I : Type) (idx : list I) pw cfg max_dt ci sys (s : bsd N I),
  bsd_reach idx pw cfg max_dt ci (fun s => bd_kopt s <= 6)%nat s ->
  let att j := attempts (bsd_attempt idx pw cfg max_dt ci sys) j (bsd_start sys s) in
  (exists j, (j < 500)%nat /\ snd (att j) = true /\ (forall i, (i < j)%nat -> snd (att i) = false)
      /\ bsd_do_step idx pw cfg max_dt ci sys s = Ok (toggle (fst (att j))))
  \/ ((forall i, (i < 500)%nat -> snd (att i) = false) /\ bsd_do_step idx pw cfg max_dt ci sys s = Exc StepAdjustment).
Proof.
  intros N I idx pw cfg max_dt ci sys s Hr att. pose proof (bsd_reach_inv _ _ _ _ _ _ Hr) as Hs.
  unfold bsd_do_step. fold (bsd_start sys s).
  assert (H0 : bsd_inv (bsd_start sys s)) by (unfold bsd_start; destruct (bd_first s); exact Hs).
  rewrite bsd_attempts_gloop by exact H0. unfold att. clear att.
  change 500%nat with default_max_steps.
  assert (G : gloop (bsd_attempt idx pw cfg max_dt ci sys) (2 + default_max_steps) (bsd_start sys s) 0
    = gloop (bsd_attempt idx pw cfg max_dt ci sys) (S default_max_steps) (bsd_start sys s) 0).
  { apply gloop_more. reflexivity. }
  rewrite G.
  destruct (gloop_char (bsd_attempt idx pw cfg max_dt ci sys) default_max_steps (bsd_start sys s) 0 eq_refl) as [(j & A & B & D & E)|[A E]]; rewrite E; cbn [rbind].
  - left. exists j. repeat split; auto.
  - right. split; [exact A|reflexivity].
Qed.
Print Assumptions C102_bulirsch_stoer_partial.

(** A controller that rejects its first [n] calls: with n = 2 the third attempt is taken, with n = 500 the
    501st attempt is accepted and do_step throws all the same. *)
Definition late_tr (n : nat) (c : nat) (x : vec Q0 nat) (t : Q0) (xo : vec Q0 nat) (dt : Q0) : nat * vec Q0 nat * Q0 * Q0 * bool :=
  (S c, x, t, dt, Nat.leb n c).
Definition late_rd : rosd Q0 nat := @mkRosd Q0 nat 0 (fun _ => 1%Q) (fun _ => 0%Q) true 0%Q 0%Q 1%Q.
Example C102_rosenbrock_ex :
  (exists s', rd_step (late_tr 2) (fun c => c) late_rd = Ok s' /\ rd_c s' = 3%nat)
  /\ rd_step (late_tr 500) (fun c => c) late_rd = Exc StepAdjustment
  /\ snd (attempts (rd_attempt (late_tr 500)) 500 (rd_start late_rd)) = true.
Proof.
  split; [|split].
  - eexists. split; vm_compute; reflexivity.
  - vm_compute. reflexivity.
  - vm_compute. reflexivity.
Qed.
(** A rejected first attempt of bulirsch_stoer_dense_out (x' = 10^12 except at t = 0). *)
Example C102_bulirsch_stoer_ex : let s := bsd_init (N := Q0) bsd0 z0 0%Q 1%Q in
  bsd_reach (N := Q0) [tt] qpow cfg1 0%Q false (fun s => bd_kopt s <= 6)%nat s
  /\ snd (bsd_attempt (N := Q0) [tt] qpow cfg1 0%Q false stiff_sys (bsd_start (N := Q0) stiff_sys s)) = false.
Proof. split; [apply dr_new, bsd0_fresh|vm_compute; reflexivity]. Qed.

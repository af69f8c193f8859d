(** bulirsch_stoer_dense_out over the reals: step sizes after rejections. *)
From Coq Require Import ZArith List Bool Arith Reals Lia Lra.
From Verif Require Import M_Num M_Sign M_Run M_Checker M_RK M_CtrlRK M_Midpoint M_BS M_BSDense S_Real S_CtrlRK
  P_R P_BS P_BSDense P_BSInd P_BSDInd P_CtrlRKR P_BSR.
Import ListNotations.
Local Open Scope R_scope.

Section D.
Variable eps : R.
Notation NN := (RNum eps).
Context {I : Type}.
Variable idx : list I.
Variable cfg : err_cfg NN.
Variable ci : bool.
Variable sys : (I -> R) -> R -> (I -> R).
Notation try := (bsd_try (N := NN) idx rpow cfg 0%R ci sys).

(** After a rejection without step limit. *)
Lemma bsd_reject s s1 : bsd_inv s -> try s = Ok (s1, false) ->
  bd_lastrej s1 = true /\ bsd_sizes s1 /\ (2 <= bd_kopt s1 <= 7)%nat /\ bd_t s1 = bd_t s /\ bd_curx s1 = bd_curx s
  /\ (ci = false -> bd_kopt s1 = bd_kopt s)
  /\ exists fac, 0 < fac < 1 /\ (ci = false -> 1 / 200 <= fac <= 94 / 100)
     /\ bd_dt s1 = (if negb (bd_lastrej s) || Rltb (bd_dt s * fac) (bd_dt s) then bd_dt s * fac else bd_dt s).
Proof.
  intros Hi E.
  destruct (bsd_try_ok (N := NN) idx rpow cfg 0%R ci sys (fun _ _ _ _ _ _ => True) (fun _ _ _ _ _ _ _ _ _ _ => Logic.I) s Hi)
    as (s' & ok & E2 & (Hz & Hk) & Hp).
  pose proof (eq_trans (eq_sym E) E2) as Q. injection Q as <- <-. clear E E2.
  destruct Hp as (P1 & P2 & P3 & P4 & P5 & P6 & Hp).
  assert (L0 : @nneq NN 0%R (nofZ 0) = false) by (apply nneq_R_false; reflexivity).
  rewrite L0 in Hp. cbn [andb] in Hp. destruct Hp as [[Hp _]|(_ & Hl & Hkf & new_h & Hdt & Hr)]; [discriminate|].
  split; [exact Hl|]. split; [exact Hz|]. split; [exact Hk|]. split; [exact P6|]. split; [exact P1|].
  destruct (Hr eq_refl) as [(j & e & Hj & _ & He & Ec & Ek)|(e & He & Eh & Hci)].
  - split; [intros _; exact Ek|]. rewrite calc_R in Ec by exact Hj. injection Ec as <-. apply Rltb_false in He.
    exists (hfac true e j). pose proof (hfac_lower true e j). pose proof (hfac_reject true e j ltac:(lia) He).
    split; [lra|]. split; [intros; lra|]. exact Hdt.
  - assert (H10 : 10 < e) by (apply Rltb_true in He; exact He).
    split; [intro Q; specialize (Hci Q); cbn in Hci; lra|].
    exists (rpow e (-1 / INR (2 * bd_kfinal s1 + 2))). rewrite rpow_pos by lra.
    split; [split; [apply Rpower_gt0|apply Rpower_lt1; [lra|]]|].
    { assert (0 < / INR (2 * bd_kfinal s1 + 2)) by (apply Rinv_0_lt_compat, lt_0_INR; lia). unfold Rdiv. lra. }
    split; [intro Q; specialize (Hci Q); cbn in Hci; lra|].
    rewrite Hdt, Eh. rewrite nofnat_R. cbn [nofZ ndiv nmul RNum]. rewrite rpow_pos by lra. reflexivity.
Qed.

(** Forward: every rejection shortens the step. *)
Lemma bsd_forward (s s1 : bsd NN I) : bsd_inv s -> 0 < bd_dt s -> try s = Ok (s1, false) -> 0 < bd_dt s1 < bd_dt s.
Proof.
  intros Hi Hd E. destruct (bsd_reject s s1 Hi E) as (_ & _ & _ & _ & _ & _ & fac & Hf & _ & Hdt).
  assert (bd_dt s * fac < bd_dt s) by nra.
  assert (E2 : Rltb (bd_dt s * fac) (bd_dt s) = true) by now apply Rltb_true. rewrite E2, orb_true_r in Hdt. rewrite Hdt.
  split; [|assumption]. apply Rmult_lt_0_compat; lra.
Qed.

(** Backward: the second rejection in a row leaves the step as it is. *)
Lemma bsd_backward (s s1 : bsd NN I) : bsd_inv s -> bd_dt s < 0 -> bd_lastrej s = true -> try s = Ok (s1, false) -> bd_dt s1 = bd_dt s.
Proof.
  intros Hi Hd Hl E. destruct (bsd_reject s s1 Hi E) as (_ & _ & _ & _ & _ & _ & fac & Hf & _ & Hdt).
  assert (bd_dt s < bd_dt s * fac) by nra.
  assert (E2 : Rltb (bd_dt s * fac) (bd_dt s) = false) by (apply Rltb_false; lra). rewrite E2, Hl in Hdt. exact Hdt.
Qed.
Lemma bsd_backward1 (s s1 : bsd NN I) : bsd_inv s -> bd_dt s < 0 -> bd_lastrej s = false -> try s = Ok (s1, false) -> bd_dt s < bd_dt s1 < 0.
Proof.
  intros Hi Hd Hl E. destruct (bsd_reject s s1 Hi E) as (_ & _ & _ & _ & _ & _ & fac & Hf & _ & Hdt).
  rewrite Hl in Hdt. cbn [negb orb] in Hdt. rewrite Hdt. nra.
Qed.
End D.

(** Two rejections in a row: the step cannot succeed any more. *)
Section S.
Context {N : Num} {I : Type}.
Variable idx : list I.
Variable pw : N -> N -> N.
Variable cfg : err_cfg N.
Variable max_dt : N.
Variable sys : vec N I -> N -> vec N I.
Notation try := (bsd_try idx pw cfg max_dt false sys).

Lemma bsd_two_rejections s s1 s2 : bsd_inv s -> bd_first s = true ->
  try (set_tlast (eval_cur sys s) (bd_t (eval_cur sys s))) = Ok (s1, false) ->
  try (set_first s1 false) = Ok (s2, false) ->
  bd_lastrej s1 = true -> bd_lastrej s2 = true -> bd_dt s2 = bd_dt s1 -> bd_kopt s2 = bd_kopt s1 ->
  bsd_do_step idx pw cfg max_dt false sys s = Exc StepAdjustment.
Proof.
  intros Hi Hf E1 E2 L1 L2 Hd Hk. unfold bsd_do_step. rewrite Hf.
  assert (E : bsd_attempts idx pw cfg max_dt false sys (2 + default_max_steps) 0 (set_tlast (eval_cur sys s) (bd_t (eval_cur sys s))) = Exc StepAdjustment).
  { assert (G : forall fuel, (500 < fuel)%nat ->
      bsd_attempts idx pw cfg max_dt false sys (S fuel) 0 (set_tlast (eval_cur sys s) (bd_t (eval_cur sys s))) = Exc StepAdjustment);
      [|apply (G (1 + default_max_steps)%nat); unfold default_max_steps; lia].
    intros fuel Hfu. cbn [bsd_attempts]. rewrite E1. cbn [rbind]. unfold fail_check at 1, checker_call.
    change (Nat.leb default_max_steps 0) with false. cbn [rbind].
    apply (bsd_stuck idx pw cfg max_dt false sys eq_refl fuel 1 (set_first s1 false) s2); try (auto; lia).
    destruct (bsd_try_ok idx pw cfg max_dt false sys (fun _ _ _ _ _ _ => True) (fun _ _ _ _ _ _ _ _ _ _ => Logic.I)
       (set_tlast (eval_cur sys s) (bd_t (eval_cur sys s))) Hi) as (s' & ok & E' & (Hz & Hk') & _).
    rewrite E1 in E'. injection E' as <- _. split; [exact Hz|]. split; [exact Hk'|discriminate]. }
  rewrite E. reflexivity.
Qed.
End S.

Section D2.
Variable eps : R.
Notation NN := (RNum eps).
Context {I : Type}.
Variable idx : list I.
Variable cfg : err_cfg NN.
Variable sys : (I -> R) -> R -> (I -> R).
Notation try := (bsd_try (N := NN) idx rpow cfg 0%R false sys).

Lemma bsd_backward_throws (s s1 s2 : bsd NN I) : bsd_inv s -> bd_first s = true -> bd_dt s < 0 -> bd_lastrej s = false ->
  try (set_tlast (eval_cur (N := NN) sys s) (bd_t (eval_cur (N := NN) sys s))) = Ok (s1, false) ->
  try (set_first s1 false) = Ok (s2, false) ->
  bsd_do_step (N := NN) idx rpow cfg 0%R false sys s = Exc StepAdjustment.
Proof.
  intros Hi Hf Hd Hl E1 E2.
  set (s0 := set_tlast (eval_cur (N := NN) sys s) (bd_t (eval_cur (N := NN) sys s))) in *.
  assert (H0 : bsd_inv s0) by exact Hi.
  destruct (bsd_reject eps idx cfg false sys s0 s1 H0 E1) as (L1 & Z1 & K1 & _).
  pose proof (bsd_backward1 eps idx cfg false sys s0 s1 H0 Hd Hl E1) as D1.
  assert (H1 : bsd_inv (set_first s1 false)) by (split; [exact Z1|]; split; [exact K1|discriminate]).
  destruct (bsd_reject eps idx cfg false sys (set_first s1 false) s2 H1 E2) as (L2 & _ & _ & _ & _ & K2 & _).
  pose proof (bsd_backward eps idx cfg false sys (set_first s1 false) s2 H1 (proj2 D1) L1 E2) as D2.
  apply (bsd_two_rejections (N := NN) idx rpow cfg 0%R sys s s1 s2); auto.
Qed.
End D2.

(** Extrapolated error estimates on right-hand sides that are polynomials in time. *)
From Coq Require Import ZArith List Bool Arith Reals Lia Lra FunctionalExtensionality.
From Verif Require Import M_Num M_Sign M_Run M_Checker M_RK M_CtrlRK M_Midpoint M_BS M_BSDense S_RK S_Real S_CtrlRK S_Midpoint P_R P_RKOrder P_Midpoint P_BS P_BSDense P_BSInd P_BSDInd
  P_Neville P_Extrap P_CtrlRKR P_CtrlRKT P_CtrlRKW P_EvenPoly P_PolyQuad P_BSDVal P_BSDVal2 P_BSDPoly.
Import ListNotations.
Local Open Scope R_scope.
Local Ltac toR := match goal with |- @eq _ ?l ?r => change (@eq R l r) end.

Lemma nev_shift {N : Num} {I} q (y : nat -> vec N I) s : forall m k, (m <= k)%nat ->
  nev q y (k + s) m = nev (fun j => q (j + s)%nat) (fun j => y (j + s)%nat) k m.
Proof.
  induction m as [|m IH]; intros k Hk; cbn [nev]; [reflexivity|].
  rewrite IH by lia. replace (k + s - 1)%nat with (k - 1 + s)%nat by lia. rewrite IH by lia.
  unfold ex_coeff. replace (k - 1 + s - m)%nat with (k - 1 - m + s)%nat by lia. reflexivity.
Qed.

Section P.
Variable eps : R.
Notation NN := (RNum eps).
Context {I : Type}.
Variable p : I -> list R.
Variable sys : (I -> R) -> R -> I -> R.
Hypothesis Hsys : forall x t i, sys x t i = peval (p i) t.

(** A step of length zero. *)
Lemma gz_zero x t : forall m i, gz (N := NN) sys x (sys x t) t 0%R m i = x i.
Proof.
  assert (H : forall m i, gz (N := NN) sys x (sys x t) t 0%R m i = x i /\ gz (N := NN) sys x (sys x t) t 0%R (S m) i = x i).
  { induction m as [|m IH]; intro i.
    - split; [reflexivity|]. unfold gz. cbn [gpair fst]. cbn [nadd nmul nofZ RNum]. toR. ring.
    - split; [apply IH|]. rewrite gz_SS. cbn [nadd nmul nofZ RNum]. rewrite (proj1 (IH i)). toR. ring. }
  intros m i. apply H.
Qed.
Lemma mm_zero x t n i : mm_val (N := NN) sys n x (sys x t) t 0%R i = x i.
Proof.
  unfold mm_val, smoothed. set (h := @ndiv NN 0%R (nofnat n)). assert (E : h = 0%R) by (unfold h; cbn [ndiv RNum]; unfold Rdiv; apply Rmult_0_l).
  rewrite E, !gz_zero. cbn [nadd nmul ndiv nofZ RNum]. toR. field.
Qed.

Lemma nev_quad0 (q : nat -> nat) K x t i n P dt :
  (forall k, (k <= K)%nat -> exists m, (1 <= m)%nat /\ q k = (2 * m)%nat) -> (forall i j, (i < j <= K)%nat -> (0 < q i < q j)%nat) ->
  (length (p i) <= S n)%nat -> (n <= 2 * K + 1)%nat -> (forall s, derivable_pt_lim P s (peval (p i) s)) ->
  nev (N := NN) q (fun k => mm_val (N := NN) sys (q k) x (sys x t) t dt) K K i = x i + (P (t + dt) - P t).
Proof.
  intros He Hq L Hn HP. destruct (Req_dec dt 0) as [->|Hd].
  - rewrite (nev_poly eps q 1 R1_neq_R0 K Hq _ i [x i]).
    + cbn [peval]. rewrite Rplus_0_r, Rmult_0_l. unfold Rminus. rewrite Rplus_opp_r, !Rplus_0_r. reflexivity.
    + cbn [length]. lia.
    + intros k _. rewrite mm_zero. cbn [peval]. rewrite Rmult_0_r, Rplus_0_r. reflexivity.
  - now apply (nev_quad eps p sys Hsys x t q K i n P dt).
Qed.

(** The value one column back. *)
Lemma nev_quad1 (q : nat -> nat) K x t i n P dt : (1 <= K)%nat ->
  (forall k, (k <= K)%nat -> exists m, (1 <= m)%nat /\ q k = (2 * m)%nat) -> (forall i j, (i < j <= K)%nat -> (0 < q i < q j)%nat) ->
  (length (p i) <= S n)%nat -> (n <= 2 * K - 1)%nat -> (forall s, derivable_pt_lim P s (peval (p i) s)) ->
  nev (N := NN) q (fun k => mm_val (N := NN) sys (q k) x (sys x t) t dt) K (K - 1) i = x i + (P (t + dt) - P t).
Proof.
  intros HK He Hq L Hn HP. pose proof (nev_shift q (fun k => mm_val (N := NN) sys (q k) x (sys x t) t dt) 1 (K - 1) (K - 1) (le_n _)) as E.
  replace (K - 1 + 1)%nat with K in E by lia. rewrite E.
  apply (nev_quad0 (fun j => q (j + 1)%nat) (K - 1) x t i n P dt); auto; try lia.
  - intros k Hk. apply He. lia.
  - intros a b Hab. apply Hq. lia.
Qed.

Lemma antider i n : (length (p i) <= S n)%nat -> exists P, forall s, derivable_pt_lim P s (peval (p i) s).
Proof.
  intro L. destruct (ep_sum n _ (ep_poly (p i) n L)) as (Q & _ & [_ CQ]). exists (fun s => Q s 0). exact CQ.
Qed.

Lemma err_zero idx cfg (T : nat -> nat -> vec NN I) x dx dt k : (forall i, T k k i = T k (k - 1)%nat i) ->
  err_of (N := NN) idx cfg T x dx dt k = 0%R.
Proof.
  intro H. unfold err_of, checker_error. cbn [snd]. apply norm_zero. intro i. unfold rel_error.
  cbn [scale_sum fold_left fst snd]. rewrite H. cbn [nadd nmul nopp nofZ nabs ndiv RNum].
  match goal with |- ?a / _ = _ => replace a with 0 end; [unfold Rdiv; apply Rmult_0_l|].
  symmetry. rewrite <- Rabs_R0. f_equal. ring.
Qed.

Lemma bs_err_zero idx cfg x t dt k : (forall i, length (p i) <= 2)%nat -> (1 <= k)%nat ->
  bs_err (N := NN) idx sys cfg x (sys x t) t dt k = 0%R.
Proof.
  intros L Hk. apply err_zero. intro i. destruct (antider i 1 (L i)) as (P & HP). unfold bs_T.
  assert (He : forall j, (j <= k)%nat -> exists m, (1 <= m)%nat /\ bs_seq j = (2 * m)%nat) by (intros j _; exists (j + 1)%nat; unfold bs_seq; lia).
  assert (Hq : forall a b, (a < b <= k)%nat -> (0 < bs_seq a < bs_seq b)%nat) by (intros; unfold bs_seq; lia).
  rewrite (nev_quad0 bs_seq k x t i 1 P dt He Hq (L i) ltac:(lia) HP).
  rewrite (nev_quad1 bs_seq k x t i 1 P dt Hk He Hq (L i) ltac:(lia) HP). reflexivity.
Qed.
Lemma bsd_err_zero idx cfg x t dt k : (forall i, length (p i) <= 2)%nat -> (1 <= k)%nat ->
  bsd_err (N := NN) idx cfg sys x (sys x t) t dt k = 0%R.
Proof.
  intros L Hk. apply err_zero. intro i. destruct (antider i 1 (L i)) as (P & HP). unfold bsd_T.
  assert (He : forall j, (j <= k)%nat -> exists m, (1 <= m)%nat /\ bsd_seq j = (2 * m)%nat) by (intros j _; exists (2 * j + 1)%nat; unfold bsd_seq; lia).
  assert (Hq : forall a b, (a < b <= k)%nat -> (0 < bsd_seq a < bsd_seq b)%nat) by (intros; unfold bsd_seq; lia).
  rewrite (nev_quad0 bsd_seq k x t i 1 P dt He Hq (L i) ltac:(lia) HP).
  rewrite (nev_quad1 bsd_seq k x t i 1 P dt Hk He Hq (L i) ltac:(lia) HP). reflexivity.
Qed.

(** Right-hand sides linear in time: the first attempt is accepted. *)
Lemma bs_linear_accepts idx pw cfg (s : bs NN I) rs x t dt : (forall i, length (p i) <= 2)%nat -> bs_inv s ->
  exists s' x' dt', bs_try (N := NN) idx pw sys cfg 0%R s rs x t dt = Ok (s', x', t + dt, dt', true).
Proof.
  intros L Hs. destruct (bs_try_ok (N := NN) idx pw sys cfg 0%R s rs x t dt Hs) as (s' & x' & t' & dt' & ok & E & _ & out & Hp & _).
  assert (L0 : @limits NN 0%R = false) by (unfold limits; apply nneq_R_false; reflexivity).
  unfold core_post in Hp. rewrite L0 in Hp. cbn [andb] in Hp. destruct Hp as [[Hp _]|(_ & _ & Ht & _ & nh & lr & _ & _ & Hr)]; [discriminate|].
  destruct ok.
  - exists s', x', dt'. rewrite E. cbn [nadd RNum] in Ht. now rewrite Ht.
  - destruct Hr as (j & Hj & He & _). rewrite bs_err_zero in He by (auto; lia). apply Rltb_false in He. cbn in He. lra.
Qed.

Lemma bsd_linear_accepts idx pw cfg (s : bsd NN I) : (forall i, length (p i) <= 2)%nat -> bsd_inv s ->
  (bd_first s = false -> bd_curdx s = sys (bd_curx s) (bd_t s)) ->
  exists s', bsd_do_step (N := NN) idx pw cfg 0%R false sys s = Ok s' /\ bd_t s' = (bd_t s + bd_dt s)%R.
Proof.
  intros L Hs Hd. unfold bsd_do_step.
  set (s0 := set_tlast _ _).
  assert (H0 : bsd_inv s0) by (subst s0; destruct (bd_first s); exact Hs).
  assert (Ec : bd_curdx s0 = sys (bd_curx s0) (bd_t s0)).
  { subst s0. destruct (bd_first s) eqn:Ef.
    - unfold eval_cur, set_tlast, bd_curdx, bd_curx. cbn. destruct (bd_cur1 s); reflexivity.
    - exact (Hd eq_refl). }
  assert (Et : bd_t s0 = bd_t s /\ bd_dt s0 = bd_dt s) by (subst s0; destruct (bd_first s); auto).
  destruct Et as [<- <-]. clearbody s0. cbn [bsd_attempts Nat.add].
  assert (A : exists s1, bsd_try (N := NN) idx pw cfg 0%R false sys s0 = Ok (s1, true) /\ bd_t s1 = (bd_t s0 + bd_dt s0)%R).
  { unfold bsd_try. assert (L0 : @nneq NN 0%R (nofZ 0) = false) by (apply nneq_R_false; reflexivity). rewrite L0. cbn [andb].
    destruct (bsd_run_nev (N := NN) idx pw cfg sys s0 (bd_curx s0) (bd_curdx s0) (bd_t s0) (bd_dt s0) (bd_oldx s0) H0)
      as (kf & rej & k' & h & tb & mp & de & C & E & Lm & Hde).
    rewrite E. cbn [rbind].
    assert (LP : (1 <= kf <= 8)%nat /\ rej = false).
    { destruct H0 as (Hz0 & Hk & Hf).
      destruct (bs_run_ok pw true (oracle (bsd_err (N := NN) idx cfg sys (bd_curx s0) (bd_curdx s0) (bd_t s0) (bd_dt s0))) (fun _ => True)
          (fun k e => e = bsd_err (N := NN) idx cfg sys (bd_curx s0) (bd_curdx s0) (bd_t s0) (bd_dt s0) k))
        with (2 := Hk) (3 := Hf) (lastrej := bd_lastrej s0) (dt := bd_dt s0) (d := tt) as (r & Er & Hr); auto.
      - intros k d _ _. eexists tt, _. split; [reflexivity|auto].
      - unfold bsd_ctl in C. rewrite C in Er. injection Er as <-. destruct Hr as (_ & Hr1 & _ & Hr2). split; [lia|].
        destruct rej; [|reflexivity]. destruct Hr2 as (_ & j & e & Hj & -> & He & _).
        rewrite Ec, bsd_err_zero in He by (auto; lia). apply Rltb_false in He. cbn in He. lra. }
    destruct LP as [Hkf ->]. destruct H0 as ((_ & _ & _ & Hdi) & _).
    destruct (prepare_ok (N := NN) idx cfg false kf (bd_curx s0) (bd_curdx s0) (bd_dt s0) de mp (bd_diffs s0) ltac:(lia) Hde Hdi Lm)
      as (mp' & di' & e & Ep & Hdi' & Lm').
    rewrite Ep. cbn [rbind]. rewrite (prepare_err (N := NN) idx cfg false _ _ _ _ _ _ _ _ _ _ Ep eq_refl).
    assert (Lg : @nlt NN (@nofZ NN 10) (@nofZ NN 0) = false) by (apply Rltb_false; cbn; lra). rewrite Lg. cbn [rbind].
    eexists. split; [reflexivity|]. reflexivity. }
  destruct A as (s1 & E & Hs1). rewrite E. cbn [rbind].
  destruct (fail_check 0) eqn:Ef; [|discriminate|discriminate|discriminate]. cbn [rbind]. eexists. split; [reflexivity|]. exact Hs1.
Qed.
End P.

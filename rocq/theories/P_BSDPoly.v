(** The extrapolation methods on right-hand sides that are polynomials in time. *)
From Coq Require Import ZArith List Bool Arith Reals Lia Lra Factorial FunctionalExtensionality.
From Verif Require Import M_Num M_Run M_RK M_CtrlRK M_Midpoint M_BS M_BSDense S_RK S_Midpoint P_R P_RKOrder P_Midpoint P_BS P_BSInd P_BSDInd P_Neville P_Extrap
  P_EvenPoly P_PolyQuad P_BSDVal P_BSDVal2.
Import ListNotations.
Local Open Scope R_scope.
Local Ltac toR := match goal with |- @eq _ ?l ?r => change (@eq R l r) end.

Section P.
Variable eps : R.
Notation NN := (RNum eps).
Context {I : Type}.
Variable p : I -> list R.
Variable sys : (I -> R) -> R -> I -> R.
Hypothesis Hsys : forall x t i, sys x t i = peval (p i) t.
Variables (x : I -> R) (t : R).
Notation z h := (gz (N := NN) sys x (sys x t) t h).

Section Comp.
Variable i : I.
Variables Q A : R -> R -> R.
Hypothesis HQ : cdiff Q (fun s _ => peval (p i) s).
Hypothesis HA : cavg Q A.

Lemma gz_quad h : forall m, z h (2 * m)%nat i = x i + Q (t + INR (2 * m) * h) h - Q t h
  /\ z h (2 * m + 1)%nat i = x i + Q (t + INR (2 * m + 1) * h) h - A t h.
Proof.
  destruct HQ as [D _]. destruct HA as [C _].
  induction m as [|m [I1 I2]].
  - split; unfold gz; cbn [gpair fst Nat.mul Nat.add]; cbn [nadd nmul nofZ RNum].
    + change (INR 0) with 0. replace (t + 0 * h) with t by ring. toR. ring.
    + change (INR 1) with 1. replace (t + 1 * h) with (t + h) by ring. rewrite Hsys. specialize (D t h). specialize (C t h). toR. lra.
  - replace (2 * S m)%nat with (S (S (2 * m))) by lia. replace (S (S (2 * m)) + 1)%nat with (S (S (2 * m + 1))) by lia.
    rewrite !gz_SS. rewrite I1, I2, !gth_R. cbn [nadd nmul nofZ RNum]. rewrite !Hsys.
    assert (E1 := D (t + INR (S (2 * m)) * h) h). assert (E2 := D (t + INR (S (2 * m + 1)) * h) h).
    replace (t + INR (S (2 * m)) * h + h) with (t + INR (S (S (2 * m))) * h) in E1 by (rewrite !S_INR; ring).
    replace (t + INR (S (2 * m)) * h - h) with (t + INR (2 * m) * h) in E1 by (rewrite !S_INR; ring).
    replace (t + INR (S (2 * m + 1)) * h + h) with (t + INR (S (S (2 * m + 1))) * h) in E2 by (rewrite !S_INR; ring).
    replace (t + INR (S (2 * m + 1)) * h - h) with (t + INR (2 * m + 1) * h) in E2 by (rewrite !S_INR; ring).
    split; toR; lra.
Qed.

(** The modified midpoint method with an even number of sub-steps. *)
Lemma mm_quad m dt : (1 <= m)%nat -> mm_val (N := NN) sys (2 * m) x (sys x t) t dt i
  = x i + ((A (t + dt) (dt / INR (2 * m)) + Q (t + dt) (dt / INR (2 * m))) / 2 - (A t (dt / INR (2 * m)) + Q t (dt / INR (2 * m))) / 2).
Proof.
  intro Hm. unfold mm_val, smoothed. rewrite nofnat_R. set (h := @ndiv NN dt (INR (2 * m))).
  change h with (dt / INR (2 * m)). set (hh := dt / INR (2 * m)). change h with hh. clear h.
  assert (Pn : 0 < INR (2 * m)) by (apply lt_0_INR; lia).
  assert (Eh : INR (2 * m) * hh = dt) by (subst hh; field; lra).
  destruct m as [|m]; [lia|]. replace (2 * S m - 1)%nat with (2 * m + 1)%nat by lia.
  rewrite (proj2 (gz_quad hh m)), (proj1 (gz_quad hh (S m))), gth_R, Hsys. cbn [nadd nmul ndiv nofZ RNum]. rewrite Eh.
  destruct HQ as [D _]. destruct HA as [C _]. specialize (D (t + dt) hh). assert (C1 := C (t + dt) hh).
  replace (t + INR (2 * m + 1) * hh) with (t + dt - hh).
  2:{ rewrite <- Eh. replace (2 * S m)%nat with (2 * m + 1 + 1)%nat by lia. rewrite (plus_INR (2 * m + 1) 1). change (INR 1) with 1. ring. }
  toR. set (u := Q (t + dt + hh) hh) in *. set (v := Q (t + dt - hh) hh) in *. set (w := Q (t + dt) hh). lra.
Qed.
End Comp.

(** Extrapolation of even step numbers is exact up to degree 2K+1. *)
Lemma nev_quad (q : nat -> nat) K i n P dt : dt <> 0 ->
  (forall k, (k <= K)%nat -> exists m, (1 <= m)%nat /\ q k = (2 * m)%nat) -> (forall i j, (i < j <= K)%nat -> (0 < q i < q j)%nat) ->
  (length (p i) <= S n)%nat -> (n <= 2 * K + 1)%nat -> (forall s, derivable_pt_lim P s (peval (p i) s)) ->
  nev (N := NN) q (fun k => mm_val (N := NN) sys (q k) x (sys x t) t dt) K K i = x i + (P (t + dt) - P t).
Proof.
  intros Hdt Hev Hq Lp Hn HP.
  destruct (ep_sum n _ (ep_poly (p i) n Lp)) as (Q & EQ & CQ). destruct (ep_cavg (S n) Q EQ) as (A & EA & CA).
  destruct (ep_eval_diff n (fun s h => (1 / 2) * A s h + (1 / 2) * Q s h) (t + dt) t) as (r & Lr & Er).
  { apply ep_add; apply ep_scale; assumption. }
  rewrite (nev_poly eps q dt Hdt K Hq _ i (padd [x i] r)).
  - rewrite padd_eval. cbn [peval]. pose proof (Er 0) as E0. rewrite Rsqr_0 in E0. rewrite <- E0.
    destruct CA as [_ CA]. rewrite !CA. destruct CQ as [_ CQ].
    pose proof (same_deriv P (fun s => Q s 0) (peval (p i)) HP CQ t (t + dt)) as E. cbv beta in E. rewrite E. toR. field.
  - rewrite padd_len. cbn [length]. assert (n / 2 <= K)%nat; [|lia].
    assert (n / 2 <= (2 * K + 1) / 2)%nat by (apply Nat.div_le_mono; lia). rewrite <- (P_BSDense.half_odd K). assumption.
  - intros k Hk. destruct (Hev k Hk) as (m & Hm & Em). rewrite Em, (mm_quad i Q A CQ CA m dt Hm), padd_eval. cbn [peval].
    unfold hsq. rewrite Em, <- Er. toR. field.
Qed.

(** *** The tables of the dense output *)
Variable dt : R.
Hypothesis Hdt : dt <> 0.
Notation seqR j := (INR (bsd_seq j)).
Lemma seq_pos j : 0 < seqR j. Proof. apply lt_0_INR. unfold bsd_seq. lia. Qed.
Lemma sub_R j : sub (N := NN) dt j = dt / seqR j.
Proof. unfold sub. now rewrite nofnat_R. Qed.
Lemma seq_half j : INR (2 * j + 1) * (dt / seqR j) = dt / 2.
Proof.
  pose proof (seq_pos j) as P. assert (E : seqR j = 2 * INR (2 * j + 1)).
  { unfold bsd_seq. replace (2 + 4 * j)%nat with (2 * (2 * j + 1))%nat by lia. now rewrite mult_INR. }
  rewrite E in *. field. lra.
Qed.

Lemma mpv_quad i Q A j : cdiff Q (fun s _ => peval (p i) s) -> cavg Q A ->
  mpv (N := NN) sys x (sys x t) t dt j i = x i + Q (t + dt / 2) (dt / seqR j) - A t (dt / seqR j).
Proof.
  intros HQ HA. unfold mpv. rewrite sub_R. rewrite (proj2 (gz_quad i Q A HQ HA (dt / seqR j)%R j)), seq_half. reflexivity.
Qed.
Lemma drv_quad j m i : drv (N := NN) sys x (sys x t) t dt j m i = peval (p i) (t + INR (S m) * (dt / seqR j)).
Proof. unfold drv. rewrite Hsys, gth_R, sub_R. reflexivity. Qed.

Notation mid := (t + dt / 2).
Notation F := (drv (N := NN) sys x (sys x t) t dt).
Lemma fdacc_quad j kappa i (Hk : (kappa <= 2 * j + 1)%nat) : forall n c sign fac (cur : I -> R), (c + n = kappa + 1)%nat -> (1 <= c)%nat ->
  fdacc (N := NN) (sys x t) F n c j kappa sign fac cur i
  = cur i + fac * sign * sumn n (fun m => (-1) ^ m * INR (binom kappa (c + m)) * peval (p i) (mid + (INR kappa - 2 * INR (c + m)) * (dt / seqR j))).
Proof.
  induction n as [|n IH]; intros c sign fac cur Hn Hc; cbn [fdacc].
  - unfold sumn. cbn. toR. ring.
  - rewrite IH by lia. rewrite sumn_shift, Nat.add_0_r. cbn [scale_sum fold_left fst snd]. cbn [nadd nmul nofZ RNum].
    set (S1 := sumn n (fun m => (-1) ^ m * INR (binom kappa (S c + m)) * _)).
    assert (E : sumn n (fun m => (-1) ^ S m * INR (binom kappa (c + S m)) * peval (p i) (mid + (INR kappa - 2 * INR (c + S m)) * (dt / seqR j))) = -1 * S1).
    { unfold S1. rewrite <- sumn_scale. apply sumn_ext. intros m _. replace (c + S m)%nat with (S c + m)%nat by lia. cbn [pow]. ring. }
    rewrite E. clearbody S1. clear E.
    pose proof (seq_half j) as Hh.
    destruct (Nat.leb_spec (2 * c) (2 * j + kappa)) as [L|L]; cbn [fst snd].
    + rewrite drv_quad, nofnat_R.
      replace (t + INR (S (2 * j + kappa - 2 * c)) * (dt / seqR j)) with (mid + (INR kappa - 2 * INR c) * (dt / seqR j)).
      2:{ rewrite <- Hh. replace (S (2 * j + kappa - 2 * c)) with (2 * j + 1 + kappa - 2 * c)%nat by lia. rewrite minus_INR, !plus_INR, !mult_INR by lia. change (INR 2) with 2. ring. }
      cbn [pow]. toR. ring.
    + assert (Ec : c = kappa) by lia. assert (Ek : kappa = (2 * j + 1)%nat) by lia.
      rewrite Hsys. replace (mid + (INR kappa - 2 * INR c) * (dt / seqR j)) with t by (rewrite Ec, Ek, <- Hh; ring).
      rewrite Ec, binom_diag. change (INR 1) with 1. cbn [pow]. toR. ring.
Qed.
Lemma fdv_quad j kappa fac i : (kappa <= 2 * j + 1)%nat ->
  fdv (N := NN) (sys x t) F j kappa fac i = fac * cdsum (peval (p i)) kappa mid (dt / seqR j).
Proof.
  intro Hk. unfold fdv. rewrite fdacc_quad by lia. unfold cdsum. rewrite sumn_shift. cbn [scale_sum fold_left fst snd]. cbn [nadd nmul nofZ RNum].
  rewrite drv_quad, binom_0. change (INR 1) with 1. change (INR 0) with 0. cbn [pow].
  replace (t + INR (S (2 * j + kappa)) * (dt / seqR j)) with (mid + (INR kappa - 2 * 0) * (dt / seqR j)).
  2:{ rewrite <- (seq_half j). replace (S (2 * j + kappa)) with (2 * j + 1 + kappa)%nat by lia. rewrite !plus_INR. ring. }
  set (S1 := sumn kappa (fun m => (-1) ^ m * INR (binom kappa (1 + m)) * _)).
  assert (E : sumn kappa (fun m => -1 * (-1) ^ m * INR (binom kappa (S m)) * peval (p i) (mid + (INR kappa - 2 * INR (S m)) * (dt / seqR j))) = -1 * S1).
  { unfold S1. rewrite <- sumn_scale. apply sumn_ext. intros m _. change (1 + m)%nat with (S m). ring. }
  rewrite E. clearbody S1. toR. ring.
Qed.
Lemma fpow_R (d : R) k : fpow (N := NN) d k = d ^ k.
Proof. induction k as [|k IH]; [reflexivity|]. cbn [fpow pow]. rewrite IH. cbn [nmul RNum]. toR. ring. Qed.
Lemma dspc_R j : dspc (N := NN) dt j = / (2 * (dt / seqR j)).
Proof. unfold dspc. rewrite nofnat_R. cbn [ndiv nmul nofZ RNum]. pose proof (seq_pos j). toR. field. split; lra. Qed.

Variable k : nat.

Section Comp2.
Variable i : I.
Variable n : nat.
Hypothesis Lp : (length (p i) <= S n)%nat.
Variable G : nat -> R -> R -> R.
Hypothesis G0 : forall s h, G O s h = peval (p i) s.
Hypothesis Ge : forall a, (a <= 2 * k + 2)%nat -> ep (n - a) (G a).
Hypothesis Gd : forall a, (a < 2 * k + 2)%nat -> cdiff (G a) (G (S a)).

Lemma bsd_inc osi K : forall a b, (a < b <= K)%nat -> (0 < bsd_seq (a + osi) < bsd_seq (b + osi))%nat.
Proof. intros. unfold bsd_seq. lia. Qed.

Lemma fdx_quad kappa : (n <= 2 * k + 1)%nat -> (kappa < 2 * k + 2)%nat ->
  fdx (N := NN) (sys x t) F k dt kappa i = G kappa mid 0.
Proof.
  intros Hn Hka. destruct (ep_eval (n - kappa) (G kappa) mid (Ge kappa ltac:(lia))) as (r & Lr & Er).
  unfold fdx.
  rewrite (nev_poly eps (fun j => bsd_seq (j + kappa / 2)) dt Hdt (k - kappa / 2) (bsd_inc _ _) (fdy (N := NN) (sys x t) F dt kappa) i r).
  - rewrite (Er 0), Rsqr_0. reflexivity.
  - assert ((n - kappa) / 2 <= k - kappa / 2)%nat; [|lia].
    pose proof (Nat.div_mod kappa 2). pose proof (Nat.mod_upper_bound kappa 2). 
    assert ((n - kappa) / 2 < S (k - kappa / 2))%nat; [|lia]. apply Nat.div_lt_upper_bound; lia.
  - intros b Hb. unfold fdy. set (j := (b + kappa / 2)%nat).
    pose proof (Nat.div_mod kappa 2). pose proof (Nat.mod_upper_bound kappa 2).
    rewrite fdv_quad by (unfold j; lia). rewrite (cd_seq_sum (p i) G (2 * k + 2) G0 Gd kappa mid (dt / seqR j) ltac:(lia)).
    rewrite Er. unfold hsq. fold j. rewrite fpow_R, dspc_R.
    assert (Hh : 2 * (dt / seqR j) <> 0).
    { pose proof (seq_pos j). unfold Rdiv. assert (/ seqR j <> 0) by (apply Rinv_neq_0_compat; lra). assert (dt * / seqR j <> 0) by (apply Rmult_integral_contrapositive_currified; assumption). lra. }
    rewrite <- Rmult_assoc, <- Rpow_mult_distr, Rinv_l by exact Hh. rewrite pow1. toR. ring.
Qed.
End Comp2.

Lemma dcf_R a : dcf (N := NN) dt a = (dt / 2) ^ S a / INR (fact (S a)).
Proof.
  induction a as [|a IH].
  - cbn [dcf]. cbn [ndiv nofZ RNum]. change (INR (fact 1)) with 1. toR. field.
  - cbn [dcf]. rewrite IH, nofnat_R. cbn [ndiv nmul nofZ RNum]. rewrite (fact_simpl (S a)), (mult_INR (S (S a))).
    replace (2 * (a + 2))%nat with (2 * S (S a))%nat by lia. rewrite (mult_INR 2). change (INR 2) with 2.
    pose proof (INR_fact_neq_0 (S a)). assert (INR (S (S a)) <> 0) by (apply not_0_INR; lia).
    rewrite <- (tech_pow_Rmult (dt / 2) (S a)). toR. field. split; assumption.
Qed.
Lemma isum_R (B : nat -> I -> R) i : forall n a (theta tp : R) (out : I -> R),
  isum (N := NN) B n a theta tp out i = out i + sumn n (fun m => tp * theta ^ m * B (a + m)%nat i).
Proof.
  induction n as [|n IH]; intros a theta tp out; cbn [isum].
  - unfold sumn. cbn. toR. ring.
  - rewrite IH, sumn_shift, Nat.add_0_r. cbn [scale_sum fold_left fst snd]. cbn [nadd nmul nofZ RNum pow].
    rewrite (sumn_ext n (fun m => tp * (theta * theta ^ m) * B (a + S m)%nat i) (fun m => tp * theta * theta ^ m * B (S a + m)%nat i)).
    + toR. ring.
    + intros m _. replace (a + S m)%nat with (S a + m)%nat by lia. ring.
Qed.

(** The interpolation polynomial is the antiderivative. *)
Lemma interp_quad i n P (theta : R) : (length (p i) <= S n)%nat -> (n <= 2 * k)%nat -> (forall s, derivable_pt_lim P s (peval (p i) s)) ->
  isum (N := NN) (fun a j => @nmul NN (fdx (N := NN) (sys x t) F k dt a j) (dcf (N := NN) dt a)) (2 * k + 2) 0 theta theta
      (nev (N := NN) bsd_seq (mpv (N := NN) sys x (sys x t) t dt) k k) i
  = x i + (P (mid + theta * (dt / 2)) - P t).
Proof.
  intros Lp Hn HP.
  destruct (ep_sum n _ (ep_poly (p i) n Lp)) as (Q & EQ & CQ). destruct (ep_cavg (S n) Q EQ) as (A & EA & CA).
  destruct (cd_seq (p i) n Lp (2 * k + 2)) as (G & G0 & Ge & Gd).
  rewrite isum_R.
  assert (Em : nev (N := NN) bsd_seq (mpv (N := NN) sys x (sys x t) t dt) k k i = x i + Q mid 0 - Q t 0).
  { destruct (ep_eval (S n) Q mid EQ) as (r1 & L1 & E1). destruct (ep_eval (S n) A t EA) as (r2 & L2 & E2).
    assert (Hs : (S n / 2 <= k)%nat) by (rewrite <- (P_BSDense.half_odd k); apply Nat.div_le_mono; lia).
    rewrite (nev_poly eps bsd_seq dt Hdt k (fun a b H => ltac:(unfold bsd_seq; lia)) _ i (padd [x i] (padd r1 (map (Rmult (-1)) r2)))).
    - rewrite !padd_eval, pscale_eval. cbn [peval]. destruct CA as [_ CA]. rewrite <- (CA t).
      rewrite (E1 0), (E2 0), Rsqr_0. toR. ring.
    - rewrite !padd_len, map_length. cbn [length]. lia.
    - intros j Hj. rewrite (mpv_quad i Q A j CQ CA), !padd_eval, pscale_eval. cbn [peval]. unfold hsq. rewrite <- E1, <- E2. toR. ring. }
  rewrite Em.
  set (FF := fun m s => match m with O => Q s 0 | S a => G a s 0 end).
  assert (T : Q (mid + theta * (dt / 2)) 0 = sumn (S (2 * k + 2)) (fun m => (theta * (dt / 2)) ^ m / INR (fact m) * FF m mid)).
  { apply (poly_taylor (2 * k + 2) FF).
    - intros m s Hm. unfold FF. destruct m as [|a].
      + rewrite G0. apply CQ.
      + apply Gd. lia.
    - intro s. unfold FF. replace (2 * k + 2)%nat with (S (2 * k + 1)) by lia.
      apply (cdiff_const (G (2 * k + 1)%nat)); [|apply Gd; lia].
      apply ep0_const. pose proof (Ge (2 * k + 1)%nat ltac:(lia)) as Gl. replace (n - (2 * k + 1))%nat with 0%nat in Gl by lia. exact Gl. }
  rewrite sumn_shift in T.
  rewrite (sumn_ext (2 * k + 2) _ (fun m => (theta * (dt / 2)) ^ S m / INR (fact (S m)) * FF (S m) mid)).
  - destruct CQ as [_ CQ]. pose proof (same_deriv P (fun s => Q s 0) (peval (p i)) HP CQ t (mid + theta * (dt / 2))) as E. cbv beta in E.
    change (INR (fact 0)) with 1 in T. change (FF 0%nat mid) with (Q mid 0) in T. rewrite pow_O in T.
    toR. rewrite E, T. field.
  - intros m Hm. cbn [Nat.add]. rewrite (fdx_quad i n Lp G G0 Ge Gd m ltac:(lia) Hm), dcf_R. cbn [nmul RNum]. unfold FF.
    rewrite (Rpow_mult_distr theta), <- (tech_pow_Rmult theta m). unfold Rdiv. toR. ring.
Qed.
End P.

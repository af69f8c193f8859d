(** The controllers of the named steppers over the reals; a step of fehlberg78 with error 0.49. *)
From Coq Require Import ZArith List Bool Reals Lra Lia.
From Verif Require Import M_Num M_Sign M_RK M_CtrlRK S_RK S_Real S_Ctrl S_CtrlRK P_R P_RK P_RKR P_RKAll P_Det
  P_CtrlRK P_CtrlRKR P_CtrlRKT.
Import ListNotations.
Local Open Scope R_scope.

Section N.
Variable eps : R.
Notation NN := (RNum eps).
Context {I : Type}.
Variable sys : (I -> R) -> R -> (I -> R).

Lemma estep_run : forall n p (m : rkmem NN I) x t dt,
  rk_err_impl (N := NN) n (mkAlias false false) t dt = Some p ->
  rk_estep (N := NN) sys n m x (sys x t) t dt =
  let m2 := fst (run_step (N := NN) sys (mkAlias false false) p t (upd (N := NN) m LIn x)) in
  (m2, m2 LOut, m2 LErr).
Proof.
  intros n p m x t dt E. unfold rk_estep. rewrite E. cbv zeta. rewrite run_step_exec. reflexivity.
Qed.

Lemma rk_estep_R : forall n (m : rkmem NN I) x t dt st out e, (0 < rk_error_order n)%nat ->
  rk_estep (N := NN) sys n m x (sys x t) t dt = (st, out, e) ->
  rk_result eps (tab_of n) sys x t dt out /\ rk_error eps (tab_of n) sys x t dt e.
Proof.
  intros n m x t dt st out e Hn.
  destruct (rk_err_impl (N := NN) n (mkAlias false false) t dt) as [p|] eqn:E.
  2:{ destruct n; cbn [rk_err_impl] in E; try discriminate E; clear E; exfalso; inversion Hn. }
  rewrite (estep_run n p m x t dt E). cbv zeta.
  pose proof (named_err_step eps sys n (mkAlias false false) t dt (upd (N := NN) m LIn x) p E) as Q.
  cbv zeta in Q.
  set (m2 := fst (run_step (N := NN) sys (mkAlias false false) p t (upd (N := NN) m LIn x))) in *.
  clearbody m2. intro H. injection H; intros. subst out e. exact Q.
Qed.

Lemma dopri5_fstep_R : forall al (m : rkmem NN I) x t dt st out dxo e,
  dopri5_fstep (N := NN) sys al m x (sys x t) t dt = (st, out, dxo, e) ->
  rk_result eps (tab_of rk_dopri5) sys x t dt out /\ rk_error eps (tab_of rk_dopri5) sys x t dt e.
Proof.
  intros al m x t dt st out dxo e. unfold dopri5_fstep.
  set (m1 := upd (N := NN) (upd (N := NN) m LIn x) LDx (sys x t)).
  destruct (dopri5_R eps sys al t dt m1) as (A & B & _); [reflexivity|].
  change (m1 LIn) with x in A, B.
  set (m2 := fst (exec (N := NN) sys al (dopri5_err_prog (N := NN) al t dt) m1)) in *.
  clearbody m2. intro H. injection H; intros. subst out e. exact (conj A B).
Qed.
End N.

(** fehlberg78 with a system that is [a] at the origin and 0 elsewhere. *)
Definition spike (a : R) (x : unit -> R) (t : R) : unit -> R :=
  fun _ => if Req_EM_T (x tt) 0 then a else 0.
Lemma spike_0 a x t : x tt = 0 -> spike a x t tt = a.
Proof. intro H. unfold spike. destruct (Req_EM_T (x tt) 0); [reflexivity|contradiction]. Qed.
Lemma spike_n a x t : x tt <> 0 -> spike a x t tt = 0.
Proof. intro H. unfold spike. destruct (Req_EM_T (x tt) 0); [contradiction|reflexivity]. Qed.

Lemma some_at (ks : list (unit -> R)) k : forall s v, nth_error ks s = Some v -> v tt = k ->
  nth s (map (fun g => g tt) ks) 0 = k.
Proof.
  induction ks as [|g ks IH]; intros [|s] v H E; cbn in *; try discriminate.
  - inversion H; now subst.
  - now apply (IH s v).
Qed.

Lemma wsum_tt : forall row (ks : list (unit -> R)),
  wsum row ks tt = rsum (map (fun p => fst p * snd p) (combine row (map (fun g => g tt) ks))).
Proof.
  unfold wsum. induction row as [|r row IH]; intros [|k ks]; cbn [combine map rsum fold_right fst snd]; auto.
  unfold rsum in IH. now rewrite IH.
Qed.

Lemma spike_error : forall eps a e, a <> 0 ->
  rk_error eps (tab_of (N := RNum eps) rk_f78) (spike a) (fun _ => 0) 0 1 e -> e tt = - (41 / 840 * a).
Proof.
  intros eps a e Ha (ks & Hks & He). rewrite He. clear He. destruct Hks as [L H0 HS].
  rewrite wsum_tt. cbn [length tab_of f78_tab tab_a] in L.
  assert (K0 : nth 0 (map (fun g : unit -> R => g tt) ks) 0 = a).
  { eapply some_at; [exact H0|]. apply spike_0. reflexivity. }
  assert (K : forall s, (s < 12)%nat -> nth (S s) (map (fun g : unit -> R => g tt) ks) 0 = 0).
  { set (vs := map (fun g : unit -> R => g tt) ks) in *.
    assert (Lv : length vs = 13%nat) by (unfold vs; now rewrite map_length).
    assert (step : forall s row c, nth_error (tab_a (tab_of (N := RNum eps) rk_f78)) s = Some row ->
       nth_error (tab_c (tab_of (N := RNum eps) rk_f78)) (S s) = Some c ->
       rsum (map (fun p => fst p * snd p) (combine row (firstn (S s) vs))) <> 0 -> nth (S s) vs 0 = 0).
    { intros s row c Hr Hc Hn. unfold vs. eapply some_at; [exact (HS s row c Hr Hc)|].
      apply spike_n. rewrite wsum_tt, <- firstn_map. fold vs. intro Q. apply Hn. rewrite Rplus_0_l, Rmult_1_l in Q. exact Q. }
    assert (Z : forall s, (s <= 12)%nat -> forall j, (j < s)%nat -> nth (S j) vs 0 = 0).
    { clearbody vs. clear HS H0.
      do 14 (destruct vs as [|? vs]; try discriminate Lv). cbn [nth] in K0. subst r.
      induction s as [|s IH]; intros Hs j Hj; [lia|].
      destruct (Nat.eq_dec j s) as [->|Hne]; [|apply IH; lia].
      specialize (IH ltac:(lia)).
      do 12 (destruct s as [|s];
        [ eapply step; [reflexivity|reflexivity|];
          repeat match goal with |- context [firstn _ (_ :: ?x :: _)] => idtac end;
          pose proof (IH 0%nat) as I0; pose proof (IH 1%nat) as I1; pose proof (IH 2%nat) as I2;
          pose proof (IH 3%nat) as I3; pose proof (IH 4%nat) as I4; pose proof (IH 5%nat) as I5;
          pose proof (IH 6%nat) as I6; pose proof (IH 7%nat) as I7; pose proof (IH 8%nat) as I8;
          pose proof (IH 9%nat) as I9; pose proof (IH 10%nat) as I10;
          cbn [nth] in I0, I1, I2, I3, I4, I5, I6, I7, I8, I9, I10;
          cbn [firstn combine map rsum fold_right fst snd];
          try rewrite I0 by lia; try rewrite I1 by lia; try rewrite I2 by lia; try rewrite I3 by lia;
          try rewrite I4 by lia; try rewrite I5 by lia; try rewrite I6 by lia; try rewrite I7 by lia;
          try rewrite I8 by lia; try rewrite I9 by lia; try rewrite I10 by lia;
          unfold nfrac; cbn [ndiv nofZ RNum]; lra
        | ]). lia. }
    intros s Hs. apply (Z 12%nat); lia. }
  assert (Lv : length (map (fun g : unit -> R => g tt) ks) = 13%nat) by now rewrite map_length.
  set (vs := map (fun g : unit -> R => g tt) ks) in *. clearbody vs.
  do 14 (destruct vs as [|? vs]; try discriminate Lv).
  cbn [nth] in K0. subst.
  pose proof (K 0%nat ltac:(lia)); pose proof (K 1%nat ltac:(lia)); pose proof (K 2%nat ltac:(lia));
  pose proof (K 3%nat ltac:(lia)); pose proof (K 4%nat ltac:(lia)); pose proof (K 5%nat ltac:(lia));
  pose proof (K 6%nat ltac:(lia)); pose proof (K 7%nat ltac:(lia)); pose proof (K 8%nat ltac:(lia));
  pose proof (K 9%nat ltac:(lia)); pose proof (K 10%nat ltac:(lia)); pose proof (K 11%nat ltac:(lia)).
  cbn [nth] in *. subst. cbn [tab_of f78_tab tab_b2 combine map rsum fold_right fst snd].
  unfold nfrac; cbn [ndiv nofZ RNum]. lra.
Qed.

Lemma grow_below : forall err, 49 / 100 <= err -> grow err 8 < 1.
Proof.
  intros err He. unfold grow. rewrite (rpow_pos 5) by lra.
  pose proof (Rmax_r (Rpower 5 (- IZR 8)) err) as M. rewrite rpow_pos by lra.
  set (q := Rmax _ err) in *. clearbody q.
  assert (Rpower q (-1 / INR 8) < 10 / 9).
  { apply Rpower_root_lt; [lra|lra|lia|]. simpl. nra. }
  replace (INR 8) with 8 in H by (simpl; lra). lra.
Qed.

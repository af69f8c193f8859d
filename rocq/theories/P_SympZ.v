(** The coefficient recurrence of P_SympR with all denominators cleared: integer arithmetic only. *)
From Coq Require Import ZArith Reals List Lra Lia Bool.
From Verif Require Import M_Num M_RK M_Symp P_SympR.
Import ListNotations.
Local Open Scope R_scope.

Fixpoint zladd (c d : list Z) (x : Z) : list Z :=
  match c, d with
  | [], _ => map (Z.mul x) d
  | _, [] => c
  | a :: c', b :: d' => (a + x * b)%Z :: zladd c' d' x
  end.
Definition zco := (list Z * list Z * list Z * list Z)%type.
Definition zcstep (c : zco) (o : bool * Z) : zco :=
  let '(al, be, ga, de) := c in
  if fst o then (zladd al (0%Z :: ga) (snd o), zladd be de (snd o), ga, de)
  else (al, be, zladd ga al (snd o), zladd de (0%Z :: be) (snd o)).
Definition zcsteps (ops : list (bool * Z)) : zco := fold_left zcstep ops ([1], [], [], [1])%Z.

Lemma nth_ladd : forall c d x k, nth k (ladd c d x) 0 = nth k c 0 + x * nth k d 0.
Proof.
  induction c as [|a c IH]; intros d x k.
  - assert (G : nth k (map (Rmult x) d) 0 = x * nth k d 0).
    { revert k. induction d as [|b d IHd]; intros [|k]; cbn; try ring; apply IHd. }
    cbn [ladd]. rewrite G. destruct k; cbn; ring.
  - destruct d as [|b d]; [cbn [ladd]; destruct k; cbn; ring|].
    destruct k as [|k]; cbn [ladd nth]; [reflexivity|]. apply IH.
Qed.
Lemma nth_zladd : forall c d x k, nth k (zladd c d x) 0%Z = (nth k c 0 + x * nth k d 0)%Z.
Proof.
  induction c as [|a c IH]; intros d x k.
  - assert (G : nth k (map (Z.mul x) d) 0%Z = (x * nth k d 0)%Z).
    { revert k. induction d as [|b d IHd]; intros [|k]; cbn [map nth]; try lia; apply IHd. }
    cbn [zladd]. rewrite G. destruct k; cbn [nth]; lia.
  - destruct d as [|b d]; [cbn [zladd]; destruct k; cbn [nth]; lia|].
    destruct k as [|k]; cbn [zladd nth]; [reflexivity|]. apply IH.
Qed.

Section Scale.
Variables D E : R.
Hypothesis HD : D <> 0.
Hypothesis HE : E <> 0.
Definition to_sop (o : bool * Z) : sop := if fst o then Dr (IZR (snd o) / D) else Kk (IZR (snd o) / E).

Definition scaled (c : co) (z : zco) : Prop :=
  let '(al, be, ga, de) := c in let '(al', be', ga', de') := z in
  forall k, nth k al 0 = IZR (nth k al' 0%Z) / (D * E) ^ k /\
            nth k be 0 = IZR (nth k be' 0%Z) / D / (D * E) ^ k /\
            nth k ga 0 = IZR (nth k ga' 0%Z) / E / (D * E) ^ k /\
            nth k de 0 = IZR (nth k de' 0%Z) / (D * E) ^ k.

Lemma scaled_step : forall c z o, scaled c z -> scaled (cstep c (to_sop o)) (zcstep z o).
Proof.
  assert (P : forall k, (D * E) ^ k <> 0) by (intros k; apply pow_nonzero, Rmult_integral_contrapositive_currified; assumption).
  intros [[[al be] ga] de] [[[al' be'] ga'] de'] [[|] w] H; cbn [to_sop zcstep cstep fst snd]; intros k;
    rewrite !nth_ladd, !nth_zladd, !plus_IZR, !mult_IZR; destruct (H k) as (H1 & H2 & H3 & H4).
  - repeat split; [|rewrite H2, H4; field; auto|exact H3|exact H4].
    destruct k as [|k].
    + cbn [nth]. rewrite H1. cbn [pow]. field. assumption.
    + cbn [nth]. destruct (H k) as (_ & _ & G3 & _). rewrite H1, G3. cbn [pow]. field. auto.
  - repeat split; [exact H1|exact H2|rewrite H1, H3; field; auto|].
    destruct k as [|k].
    + cbn [nth]. rewrite H4. cbn [pow]. field. assumption.
    + cbn [nth]. destruct (H k) as (_ & G2 & _ & _). rewrite H4, G2. cbn [pow]. field. auto.
Qed.

Lemma scaled_steps : forall ops, scaled (csteps (map to_sop ops) c0) (zcsteps ops).
Proof.
  intros ops. unfold csteps, zcsteps.
  assert (G : forall c z, scaled c z -> scaled (fold_left cstep (map to_sop ops) c) (fold_left zcstep ops z)).
  { induction ops as [|o r IH]; intros c z H; [exact H|]. cbn [map fold_left]. apply IH, scaled_step, H. }
  apply G. intros k. destruct k as [|[|k]]; cbn; repeat split; unfold Rdiv; rewrite ?Rinv_1; ring.
Qed.
End Scale.

(** A quotient of integers close to 1/m. *)
Lemma close_to : forall p q m e : Z, (0 < q)%Z -> (0 < m)%Z -> (0 < e)%Z ->
  (Z.abs (m * p - q) * e <=? m * q)%Z = true -> Rabs (IZR p / IZR q - / IZR m) <= / IZR e.
Proof.
  intros p q m e Hq Hm He H. apply Z.leb_le in H. apply IZR_le in H. rewrite !mult_IZR, abs_IZR, minus_IZR, mult_IZR in H.
  apply IZR_lt in Hq, Hm, He.
  replace (IZR p / IZR q - / IZR m) with ((IZR m * IZR p - IZR q) * / (IZR m * IZR q)) by (field; lra).
  rewrite Rabs_mult, (Rabs_pos_eq (/ (IZR m * IZR q))) by (left; apply Rinv_0_lt_compat; nra).
  apply Rmult_le_reg_r with (IZR m * IZR q); [nra|]. apply Rmult_le_reg_r with (IZR e); [lra|].
  replace (Rabs (IZR m * IZR p - IZR q) * / (IZR m * IZR q) * (IZR m * IZR q) * IZR e)
    with (Rabs (IZR m * IZR p - IZR q) * IZR e) by (field; lra).
  replace (/ IZR e * (IZR m * IZR q) * IZR e) with (IZR m * IZR q) by (field; lra). exact H.
Qed.

(** sb3a_mclachlan over the common denominators 10^20 and 73 * 59. *)
Definition sb3a_z : list (bool * Z) :=
  let a0 := 40518861839525227722%Z in let a1 := (-28714404081652408900)%Z in
  let a2 := (50000000000000000000 - a0 - a1)%Z in
  let b0 := (-3 * 59)%Z in let b1 := (17 * 73)%Z in let b2 := (4307 - 2 * (b0 + b1))%Z in
  [(true, a0); (false, b0); (true, a1); (false, b1); (true, a2); (false, b2); (true, a2); (false, b1); (true, a1); (false, b0);
   (true, a0); (false, 0%Z)].
Definition tenp20 : Z := 100000000000000000000.

Lemma sb3a_flat : forall eps, flat (sb3a_mclachlan (N := RNum eps)) = map (to_sop (IZR tenp20) 4307) sb3a_z.
Proof.
  intros eps. unfold sb3a_mclachlan, sb3a_z, flat, to_sop, tenp20. cbn [flat_map map app fst snd].
  unfold nfrac. cbn [ndiv nopp nsub nadd nmul nofZ RNum]. repeat (apply f_equal2; [apply f_equal; match goal with |- @eq _ ?l ?r => change (@eq R l r) end; cbn -[IZR]; try reflexivity; lra|]).
  reflexivity.
Qed.

Lemma sb3a_close : forall eps al be ga de, csteps (flat (sb3a_mclachlan (N := RNum eps))) c0 = (al, be, ga, de) ->
  nth 0 al 0 = 1 /\ nth 1 al 0 = / 2 /\ Rabs (nth 2 al 0 - / 24) <= / 10 ^ 20 /\ nth 0 be 0 = 1 /\ Rabs (nth 1 be 0 - / 6) <= / 10 ^ 20
  /\ nth 0 ga 0 = 1 /\ Rabs (nth 1 ga 0 - / 6) <= / 10 ^ 20 /\ nth 0 de 0 = 1 /\ nth 1 de 0 = / 2 /\ Rabs (nth 2 de 0 - / 24) <= / 10 ^ 20.
Proof.
  intros eps al be ga de H. rewrite sb3a_flat in H.
  assert (N1 : IZR tenp20 <> 0) by (apply not_0_IZR; discriminate). assert (N2 : (4307:R) <> 0) by lra.
  pose proof (scaled_steps _ _ N1 N2 sb3a_z) as S0. rewrite H in S0.
  destruct (zcsteps sb3a_z) as [[[al' be'] ga'] de'] eqn:EZ.
  assert (EZ' := EZ). vm_compute in EZ'. injection EZ' as E1 E2 E3 E4. subst al' be' ga' de'. clear EZ H.
  destruct (S0 0%nat) as (A0 & B0 & G0 & D0). destruct (S0 1%nat) as (A1 & B1 & G1 & D1). destruct (S0 2%nat) as (A2 & _ & _ & D2).
  clear S0. cbn [nth] in *.
  assert (P1 : forall z, IZR z / (IZR tenp20 * 4307) ^ 1 = IZR z / IZR (tenp20 * 4307)) by (intros; rewrite mult_IZR, pow_1; reflexivity).
  assert (P2 : forall z, IZR z / (IZR tenp20 * 4307) ^ 2 = IZR z / IZR (tenp20 * 4307 * (tenp20 * 4307)))
    by (intros; rewrite !mult_IZR; f_equal; ring).
  assert (P3 : forall z, IZR z / IZR tenp20 / (IZR tenp20 * 4307) ^ 1 = IZR z / IZR (tenp20 * (tenp20 * 4307))).
  { intros. rewrite !mult_IZR, pow_1. field. repeat split; assumption. }
  assert (P4 : forall z, IZR z / 4307 / (IZR tenp20 * 4307) ^ 1 = IZR z / IZR (4307 * (tenp20 * 4307))).
  { intros. rewrite !mult_IZR, pow_1. field. assumption. }
  assert (T20 : 10 ^ 20 = IZR tenp20) by (unfold tenp20; rewrite pow_IZR; f_equal; vm_compute; reflexivity).
  rewrite P1 in A1, D1. rewrite P2 in A2, D2. rewrite P3 in B1. rewrite P4 in G1.
  rewrite A0, A1, A2, B0, B1, G0, G1, D0, D1, D2, T20.
  assert (Div : forall p q m : Z, (0 < q)%Z -> (0 < m)%Z -> (m * p =? q)%Z = true -> IZR p / IZR q = / IZR m).
  { intros p q m Hq Hm Q. apply Z.eqb_eq in Q. subst q. rewrite mult_IZR. apply IZR_lt in Hm.
    assert (IZR p <> 0). { intros Z. apply eq_IZR in Z. subst p. lia. } field. lra. }
  repeat match goal with |- _ /\ _ => split end.
  - cbn. field.
  - apply Div; vm_compute; reflexivity.
  - apply close_to; vm_compute; reflexivity.
  - rewrite pow_O. rewrite (Div _ _ 1%Z); [field|vm_compute; reflexivity..].
  - apply close_to; vm_compute; reflexivity.
  - rewrite pow_O. rewrite (Div _ _ 1%Z); [field|vm_compute; reflexivity..].
  - apply close_to; vm_compute; reflexivity.
  - cbn. field.
  - apply Div; vm_compute; reflexivity.
  - apply close_to; vm_compute; reflexivity.
Qed.

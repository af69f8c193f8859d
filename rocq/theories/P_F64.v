(** Exact operations in binary64. *)
From Coq Require Import ZArith Bool Lia.
From Coq Require Import Floats.SpecFloat Zpower.
From Verif Require Import M_Num S_F64.
Local Open Scope Z_scope.

Fixpoint itn {A} (k : nat) (f : A -> A) (x : A) : A := match k with O => x | S k => f (itn k f x) end.
Lemma iter_pos_nat A (f : A -> A) n : forall x, iter_pos f n x = itn (Pos.to_nat n) f x.
Proof.
  assert (C : forall k x, itn k f (f x) = f (itn k f x)) by (induction k; intro x; cbn [itn Nat.add]; [reflexivity|now rewrite IHk]).
  assert (P : forall a b x, itn (a + b) f x = itn a f (itn b f x)) by (induction a; intros b x; cbn [itn Nat.add]; [reflexivity|now rewrite IHa]).
  induction n as [n IH|n IH|]; intro x; cbn [iter_pos].
  - rewrite !IH, <- P, Pos2Nat.inj_xI. replace (S (2 * Pos.to_nat n))%nat with (S (Pos.to_nat n + Pos.to_nat n)) by lia. cbn [itn]. apply C.
  - rewrite !IH, <- P, Pos2Nat.inj_xO. f_equal. lia.
  - reflexivity.
Qed.

Lemma digits_bound p : 2 ^ (Zpos (digits2_pos p) - 1) <= Zpos p < 2 ^ Zpos (digits2_pos p).
Proof.
  induction p as [p IH|p IH|]; cbn [digits2_pos]; try rewrite Pos2Z.inj_succ.
  - unfold Z.succ. rewrite Z.pow_add_r by lia. replace (Zpos (digits2_pos p) + 1 - 1) with (Zpos (digits2_pos p) - 1 + 1) by ring.
    rewrite Z.pow_add_r by lia. change (2 ^ 1) with 2. lia.
  - unfold Z.succ. rewrite Z.pow_add_r by lia. replace (Zpos (digits2_pos p) + 1 - 1) with (Zpos (digits2_pos p) - 1 + 1) by ring.
    rewrite Z.pow_add_r by lia. change (2 ^ 1) with 2. lia.
  - cbn. lia.
Qed.
Lemma digits_le p n : Zpos p < 2 ^ n -> 0 <= n -> Zpos (digits2_pos p) <= n.
Proof.
  intros H Hn. destruct (digits_bound p) as [L _]. apply Z.nlt_ge. intro C.
  assert (2 ^ n <= 2 ^ (Zpos (digits2_pos p) - 1)) by (apply Z.pow_le_mono_r; lia). lia.
Qed.
Lemma digits_ge p n : 2 ^ (n - 1) <= Zpos p -> n <= Zpos (digits2_pos p).
Proof.
  intros H. destruct (digits_bound p) as [_ U]. apply Z.nlt_ge. intro C.
  assert (2 ^ Zpos (digits2_pos p) <= 2 ^ (n - 1)) by (apply Z.pow_le_mono_r; lia). lia.
Qed.

Definition shl n p := itn n xO p.
Lemma shl_val n p : Zpos (shl n p) = Zpos p * 2 ^ Z.of_nat n.
Proof.
  induction n as [|n IH]; [cbn; lia|]. unfold shl in *. cbn [itn]. rewrite Pos2Z.inj_xO, IH, Nat2Z.inj_succ, Z.pow_succ_r by lia. ring.
Qed.
Lemma shl_digits n p : Zpos (digits2_pos (shl n p)) = Zpos (digits2_pos p) + Z.of_nat n.
Proof.
  induction n as [|n IH]; [cbn; lia|]. unfold shl in *. cbn [itn digits2_pos]. rewrite Pos2Z.inj_succ, IH. lia.
Qed.
Lemma shl_of p a n : Zpos p = a * 2 ^ Z.of_nat n -> exists m, a = Zpos m /\ p = shl n m.
Proof.
  intro H. assert (0 < a) by (assert (0 < 2 ^ Z.of_nat n) by (apply Z.pow_pos_nonneg; lia); nia).
  destruct a as [|m|m]; try lia. exists m. split; [reflexivity|]. apply Pos2Z.inj. now rewrite shl_val.
Qed.
Lemma shift_pos_shl d p : shift_pos d p = shl (Pos.to_nat d) p.
Proof.
  rewrite shift_pos_nat. unfold shl. induction (Pos.to_nat d) as [|n IH]; [reflexivity|]. cbn [itn]. rewrite <- IH. reflexivity.
Qed.

Lemma shr_shl n m : itn n shr_1 (Build_shr_record (Zpos (shl n m)) false false) = Build_shr_record (Zpos m) false false.
Proof.
  assert (C : forall k x, itn k shr_1 (shr_1 x) = shr_1 (itn k shr_1 x)) by (induction k; intro x; cbn [itn Nat.add]; [reflexivity|now rewrite IHk]).
  induction n as [|n IH]; [reflexivity|]. unfold shl in *. cbn [itn]. rewrite <- C. cbn [shr_1 orb]. exact IH.
Qed.

Notation fexp64 := (fexp 53 1024).
Lemma fexp_val e : fexp64 e = Z.max (e - 53) (-1074).
Proof. reflexivity. Qed.

(** Rounding an exactly representable number changes nothing. *)
Lemma round_aux_exact s p ex a j : Zpos p = a * 2 ^ j -> a < 2 ^ 53 -> 0 <= j -> -1074 <= ex + j ->
  ex <= fexp64 (Zpos (digits2_pos p) + ex) -> Zpos (digits2_pos p) + ex <= 1024 ->
  exists m e, binary_round_aux 53 1024 s (Zpos p) ex loc_Exact = S754_finite s m e /\ bounded 53 1024 m e = true
  /\ ex <= e /\ Zpos p = Zpos m * 2 ^ (e - ex).
Proof.
  intros Hp Ha Hj Hl Hd Hu. set (n := Z.to_nat (fexp64 (Zpos (digits2_pos p) + ex) - ex)).
  assert (En : Z.of_nat n = fexp64 (Zpos (digits2_pos p) + ex) - ex) by (unfold n; lia).
  assert (Da : 0 < a) by (assert (0 < 2 ^ j) by (apply Z.pow_pos_nonneg; lia); nia).
  assert (Dp : Zpos (digits2_pos p) <= 53 + j).
  { apply digits_le; [|lia]. rewrite Hp, Z.pow_add_r by lia. apply Z.mul_lt_mono_pos_r; [apply Z.pow_pos_nonneg; lia|exact Ha]. }
  assert (Hn : Z.of_nat n <= j) by (rewrite fexp_val in En; lia).
  destruct (shl_of p (a * 2 ^ (j - Z.of_nat n)) n) as (m & Em & Ep).
  { rewrite Hp, <- Z.mul_assoc, <- Z.pow_add_r by lia. f_equal. f_equal. lia. }
  assert (Dm : Zpos (digits2_pos p) = Zpos (digits2_pos m) + Z.of_nat n) by (rewrite Ep; apply shl_digits).
  set (e := ex + Z.of_nat n). exists m, e.
  assert (F2 : fexp64 (Zpos (digits2_pos m) + e) - e = 0) by (replace (Zpos (digits2_pos m) + e) with (Zpos (digits2_pos p) + ex) by (unfold e; lia); unfold e; lia).
  assert (F1 : shr_fexp 53 1024 (Zpos p) ex loc_Exact = (Build_shr_record (Zpos m) false false, e)).
  { unfold shr_fexp. cbn [shr_record_of_loc Zdigits2]. rewrite <- En. unfold shr. destruct (Z.of_nat n) as [|q|q] eqn:Eq; [|rewrite iter_pos_nat|lia].
    - assert (H0 : n = 0%nat) by lia. rewrite H0 in Ep. unfold shl in Ep. cbn [itn] in Ep. rewrite Ep. f_equal. unfold e; lia.
    - replace (Pos.to_nat q) with n by lia. rewrite Ep, shr_shl. f_equal. }
  assert (F3 : shr_fexp 53 1024 (Zpos m) e loc_Exact = (Build_shr_record (Zpos m) false false, e)).
  { unfold shr_fexp. cbn [shr_record_of_loc Zdigits2]. rewrite F2. reflexivity. }
  assert (Le : e <= 971) by (unfold e; rewrite En, fexp_val; lia).
  unfold binary_round_aux. rewrite F1. cbn [shr_m loc_of_shr_record round_nearest_even]. rewrite F3. cbn [shr_m].
  change (1024 - 53) with 971. rewrite (proj2 (Z.leb_le e 971) Le). split; [reflexivity|]. split; [|split].
  - unfold bounded, canonical_mantissa. change (1024 - 53) with 971. rewrite (proj2 (Z.leb_le e 971) Le), andb_true_r.
    apply Zeq_is_eq_bool. lia.
  - unfold e; lia.
  - replace (e - ex) with (Z.of_nat n) by (unfold e; lia). rewrite Ep at 1. apply shl_val.
Qed.

Lemma round_exact s p ex a j : Zpos p = a * 2 ^ j -> a < 2 ^ 53 -> 0 <= j -> -1074 <= ex + j -> Zpos (digits2_pos p) + ex <= 1024 -> -1074 <= ex ->
  exists m e, binary_round 53 1024 s p ex = S754_finite s m e /\ bounded 53 1024 m e = true /\ -1074 <= e
  /\ Zpos p * 2 ^ (ex + 1074) = Zpos m * 2 ^ (e + 1074).
Proof.
  intros Hp Ha Hj Hl Hu Hx. unfold binary_round, shl_align. set (f := fexp64 (Zpos (digits2_pos p) + ex)).
  assert (Hf : -1074 <= f) by (unfold f; rewrite fexp_val; lia).
  destruct (f - ex) as [|d|d] eqn:E.
  - destruct (round_aux_exact s p ex a j Hp Ha Hj Hl) as (m & e & R & B & Le & V); [fold f; lia|lia|].
    exists m, e. repeat split; auto; [lia|]. rewrite V, <- Z.mul_assoc, <- Z.pow_add_r by lia. f_equal. f_equal. lia.
  - destruct (round_aux_exact s p ex a j Hp Ha Hj Hl) as (m & e & R & B & Le & V); [fold f; lia|lia|].
    exists m, e. repeat split; auto; [lia|]. rewrite V, <- Z.mul_assoc, <- Z.pow_add_r by lia. f_equal. f_equal. lia.
  - rewrite shift_pos_shl. set (n := Pos.to_nat d). assert (En : Z.of_nat n = ex - f) by (unfold n; lia).
    assert (Ds : Zpos (digits2_pos (shl n p)) = Zpos (digits2_pos p) + Z.of_nat n) by apply shl_digits.
    assert (Q : Zpos (digits2_pos (shl n p)) + f = Zpos (digits2_pos p) + ex) by lia.
    destruct (round_aux_exact s (shl n p) f a (j + Z.of_nat n)) as (m & e & R & B & Le & V); try lia.
    + rewrite shl_val, Hp, Z.pow_add_r by lia. ring.
    + rewrite Q. fold f. lia.
    + exists m, e. repeat split; auto; [lia|]. rewrite shl_val in V.
      assert (V2 : Zpos p * 2 ^ (ex + 1074) = Zpos p * 2 ^ Z.of_nat n * 2 ^ (f + 1074)) by (rewrite <- Z.mul_assoc, <- Z.pow_add_r by lia; f_equal; f_equal; lia).
      rewrite V2, V, <- Z.mul_assoc, <- Z.pow_add_r by lia. f_equal. f_equal. lia.
Qed.

Lemma normalize_exact z q b : -1074 <= q -> exact_units (z * 2 ^ (q + 1074)) -> units (binary_normalize 53 1024 z q b) (z * 2 ^ (q + 1074)).
Proof.
  intros Hq (a & k & Ha & Hk & E).
  assert (G : forall p s, (z = Zpos p \/ z = Zneg p) -> exists m e, binary_round 53 1024 s p q = S754_finite s m e /\ bounded 53 1024 m e = true /\ -1074 <= e
     /\ Zpos p * 2 ^ (q + 1074) = Zpos m * 2 ^ (e + 1074)).
  { intros p s Hz. assert (E' : Zpos p * 2 ^ (q + 1074) = Z.abs a * 2 ^ k).
    { assert (P1 : 0 <= 2 ^ (q + 1074)) by (apply Z.pow_nonneg; lia). assert (P2 : 0 <= 2 ^ k) by (apply Z.pow_nonneg; lia).
      apply (f_equal Z.abs) in E. rewrite !Z.abs_mul, (Z.abs_eq _ P1), (Z.abs_eq _ P2) in E. destruct Hz as [-> | ->]; exact E. }
    assert (Du : Zpos (digits2_pos p) + q <= 1024).
    { assert (L : 2 ^ (Zpos (digits2_pos p) - 1) * 2 ^ (q + 1074) < 2 ^ 53 * 2 ^ 2045).
      { apply Z.le_lt_trans with (Zpos p * 2 ^ (q + 1074)); [apply Z.mul_le_mono_nonneg_r; [apply Z.pow_nonneg; lia|apply digits_bound]|].
        rewrite E'. apply Z.lt_le_trans with (2 ^ 53 * 2 ^ k); [apply Z.mul_lt_mono_pos_r; [apply Z.pow_pos_nonneg; lia|exact Ha]|].
        apply Z.mul_le_mono_nonneg_l; [lia|apply Z.pow_le_mono_r; lia]. }
      rewrite <- !Z.pow_add_r in L by lia. apply Z.pow_lt_mono_r_iff in L; lia. }
    destruct (Z.le_gt_cases (q + 1074) k) as [C|C].
    - apply (round_exact s p q (Z.abs a) (k - (q + 1074))); try lia.
      apply Z.mul_reg_r with (2 ^ (q + 1074)); [apply Z.pow_nonzero; lia|]. rewrite E', <- Z.mul_assoc, <- Z.pow_add_r by lia. f_equal. f_equal. lia.
    - apply (round_exact s p q (Zpos p) 0); try lia. replace (q + 1074) with (q + 1074 - k + k) in E' by lia. rewrite Z.pow_add_r, Z.mul_assoc in E' by lia.
      apply Z.mul_reg_r in E'; [|apply Z.pow_nonzero; lia]. assert (1 <= 2 ^ (q + 1074 - k)) by (apply (Z.pow_le_mono_r 2 0); lia). nia. }
  destruct z as [|p|p]; cbn [binary_normalize].
  - unfold units. lia.
  - destruct (G p false (or_introl eq_refl)) as (m & e & R & B & _ & V). rewrite R. split; [exact B|exact V].
  - destruct (G p true (or_intror eq_refl)) as (m & e & R & B & _ & V). rewrite R. split; [exact B|]. 
    change (Zneg p) with (- Zpos p). change (Zneg m) with (- Zpos m). lia.
Qed.

Lemma bounded_range m e : bounded 53 1024 m e = true -> -1074 <= e <= 971 /\ Zpos m < 2 ^ 53 /\ (e = -1074 \/ 2 ^ 52 <= Zpos m).
Proof.
  unfold bounded, canonical_mantissa. intro H. apply andb_true_iff in H as [H1 H2]. apply Zeq_is_eq_bool in H1. apply Zle_bool_imp_le in H2.
  change (1024 - 53) with 971 in H2. rewrite fexp_val in H1. destruct (digits_bound m) as [L U]. split; [lia|]. split.
  - eapply Z.lt_le_trans; [exact U|]. apply Z.pow_le_mono_r; lia.
  - destruct (Z.eq_dec e (-1074)); [now left|right]. eapply Z.le_trans; [|exact L]. apply Z.pow_le_mono_r; lia.
Qed.

Lemma align_val m e ez : -1074 <= ez -> ez <= e -> Zpos (fst (shl_align m e ez)) * 2 ^ (ez + 1074) = Zpos m * 2 ^ (e + 1074).
Proof.
  intros H1 H2. unfold shl_align. destruct (ez - e) as [|d|d] eqn:E; cbn [fst].
  - f_equal. f_equal. lia.
  - lia.
  - rewrite shift_pos_shl, shl_val, <- Z.mul_assoc, <- Z.pow_add_r by lia. f_equal. f_equal. lia.
Qed.
Lemma cond_val s m : cond_Zopp s (Zpos m) = if s then Zneg m else Zpos m.
Proof. now destruct s. Qed.

Lemma add_exact x y V W : units x V -> units y W -> exact_units (V + W) -> units (@nadd F64 x y) (V + W).
Proof.
  intros Hx Hy E. destruct x as [sx|sx| |sx mx ex]; try easy; destruct y as [sy|sy| |sy my ey]; try easy; cbn [units] in Hx, Hy.
  - subst. cbn. destruct (Bool.eqb sx sy); reflexivity.
  - subst V. destruct Hy as [B ->]. cbn. split; [exact B|lia].
  - subst W. destruct Hx as [B ->]. cbn. split; [exact B|lia].
  - destruct Hx as [Bx ->], Hy as [By ->]. pose proof (bounded_range mx ex Bx) as (Rx & _). pose proof (bounded_range my ey By) as (Ry & _).
    change (@nadd F64 _ _) with (binary_normalize 53 1024 (cond_Zopp sx (Zpos (fst (shl_align mx ex (Z.min ex ey)))) + cond_Zopp sy (Zpos (fst (shl_align my ey (Z.min ex ey))))) (Z.min ex ey) false).
    pose proof (align_val mx ex (Z.min ex ey) ltac:(lia) ltac:(lia)) as Ax. pose proof (align_val my ey (Z.min ex ey) ltac:(lia) ltac:(lia)) as Ay.
    set (ez := Z.min ex ey) in *. set (px := fst _) in *. set (py := fst (shl_align my ey ez)) in *.
    assert (S : (cond_Zopp sx (Zpos px) + cond_Zopp sy (Zpos py)) * 2 ^ (ez + 1074)
                = (if sx then Zneg mx else Zpos mx) * 2 ^ (ex + 1074) + (if sy then Zneg my else Zpos my) * 2 ^ (ey + 1074)).
    { change (Zneg mx) with (- Zpos mx). change (Zneg my) with (- Zpos my). unfold cond_Zopp. destruct sx, sy; lia. }
    rewrite <- S. apply normalize_exact; [lia|]. now rewrite S.
Qed.

Lemma opp_units x V : units x V -> units (SFopp x) (- V).
Proof.
  destruct x as [sx|sx| |sx mx ex]; try easy; cbn [units SFopp]; [lia|]. intros [B ->]. split; [exact B|].
  change (Zneg mx) with (- Zpos mx). destruct sx; cbn [negb]; lia.
Qed.
Lemma sub_exact x y V W : units x V -> units y W -> exact_units (V - W) -> units (@nsub F64 x y) (V - W).
Proof.
  intros Hx Hy E. destruct x as [sx|sx| |sx mx ex]; try easy; destruct y as [sy|sy| |sy my ey]; try easy; cbn [units] in Hx, Hy.
  - subst. cbn. destruct (Bool.eqb sx (negb sy)); reflexivity.
  - subst V. destruct Hy as [B ->]. cbn [nsub F64 SFsub]. split; [exact B|]. change (Zneg my) with (- Zpos my). destruct sy; cbn [negb]; lia.
  - subst W. destruct Hx as [B ->]. cbn. split; [exact B|lia].
  - destruct Hx as [Bx ->], Hy as [By ->]. pose proof (bounded_range mx ex Bx) as (Rx & _). pose proof (bounded_range my ey By) as (Ry & _).
    change (@nsub F64 _ _) with (binary_normalize 53 1024 (cond_Zopp sx (Zpos (fst (shl_align mx ex (Z.min ex ey)))) - cond_Zopp sy (Zpos (fst (shl_align my ey (Z.min ex ey))))) (Z.min ex ey) false).
    pose proof (align_val mx ex (Z.min ex ey) ltac:(lia) ltac:(lia)) as Ax. pose proof (align_val my ey (Z.min ex ey) ltac:(lia) ltac:(lia)) as Ay.
    set (ez := Z.min ex ey) in *. set (px := fst _) in *. set (py := fst (shl_align my ey ez)) in *.
    assert (S : (cond_Zopp sx (Zpos px) - cond_Zopp sy (Zpos py)) * 2 ^ (ez + 1074)
                = (if sx then Zneg mx else Zpos mx) * 2 ^ (ex + 1074) - (if sy then Zneg my else Zpos my) * 2 ^ (ey + 1074)).
    { change (Zneg mx) with (- Zpos mx). change (Zneg my) with (- Zpos my). unfold cond_Zopp. destruct sx, sy; lia. }
    rewrite <- S. apply normalize_exact; [lia|]. now rewrite S.
Qed.

Lemma mul_exact x y V W U : units x V -> units y W -> V * W = U * 2 ^ 1074 -> exact_units U -> units (@nmul F64 x y) U.
Proof.
  intros Hx Hy M (a & k & Ha & Hk & Ua).
  assert (P0 : 2 ^ 1074 <> 0) by (apply Z.pow_nonzero; lia).
  destruct x as [sx|sx| |sx mx ex]; try easy; destruct y as [sy|sy| |sy my ey]; try easy; cbn [units] in Hx, Hy.
  - subst V W. cbn [Z.mul] in M. symmetry in M. apply Z.mul_eq_0 in M. unfold nmul; cbn [F64 SFmul units]. tauto.
  - subst V. cbn [Z.mul] in M. symmetry in M. apply Z.mul_eq_0 in M. unfold nmul; cbn [F64 SFmul units]. tauto.
  - subst W. rewrite Z.mul_0_r in M. symmetry in M. apply Z.mul_eq_0 in M. unfold nmul; cbn [F64 SFmul units]. tauto.
  - destruct Hx as [Bx ->], Hy as [By ->]. pose proof (bounded_range mx ex Bx) as (Rx & Mx & Nx). pose proof (bounded_range my ey By) as (Ry & My & Ny).
    change (@nmul F64 _ _) with (binary_round_aux 53 1024 (xorb sx sy) (Zpos (mx * my)) (ex + ey) loc_Exact).
    set (p := (mx * my)%positive). set (E := ex + ey).
    assert (Ep : Zpos p = Zpos mx * Zpos my) by reflexivity.
    assert (M1 : (if xorb sx sy then Zneg p else Zpos p) * 2 ^ (E + 2148) = U * 2 ^ 1074).
    { rewrite <- M. replace (E + 2148) with (ex + 1074 + (ey + 1074)) by (unfold E; lia). rewrite Z.pow_add_r by lia.
      change (Zneg p) with (- Zpos p). rewrite Ep. change (Zneg mx) with (- Zpos mx). change (Zneg my) with (- Zpos my). destruct sx, sy; cbn [xorb]; ring. }
    assert (M2 : Zpos p * 2 ^ (E + 2148) = Z.abs a * 2 ^ (k + 1074)).
    { apply (f_equal Z.abs) in M1. rewrite Ua, !Z.abs_mul, !(Z.abs_eq (2 ^ _)) in M1 by (apply Z.pow_nonneg; lia).
      rewrite <- Z.mul_assoc, <- Z.pow_add_r in M1 by lia. rewrite <- M1. f_equal. now destruct (xorb sx sy). }
    assert (Du : Zpos (digits2_pos p) + E <= 1024).
    { assert (L : 2 ^ (Zpos (digits2_pos p) - 1) * 2 ^ (E + 2148) < 2 ^ 53 * 2 ^ (2045 + 1074)).
      { apply Z.le_lt_trans with (Zpos p * 2 ^ (E + 2148)); [apply Z.mul_le_mono_nonneg_r; [apply Z.pow_nonneg; lia|apply digits_bound]|].
        rewrite M2. apply Z.lt_le_trans with (2 ^ 53 * 2 ^ (k + 1074)); [apply Z.mul_lt_mono_pos_r; [apply Z.pow_pos_nonneg; lia|exact Ha]|].
        apply Z.mul_le_mono_nonneg_l; [lia|apply Z.pow_le_mono_r; lia]. }
      rewrite <- !Z.pow_add_r in L by lia. apply Z.pow_lt_mono_r_iff in L; lia. }
    assert (Dl : E <= fexp64 (Zpos (digits2_pos p) + E)).
    { rewrite fexp_val. destruct Nx as [->|Nx]; [destruct Ny as [->|Ny]|].
      - unfold E; lia.
      - assert (53 <= Zpos (digits2_pos p)) by (apply digits_ge; rewrite Ep; change (53 - 1) with 52; nia). lia.
      - assert (53 <= Zpos (digits2_pos p)) by (apply digits_ge; rewrite Ep; change (53 - 1) with 52; nia). lia. }
    assert (J : exists b j, Zpos p = b * 2 ^ j /\ b < 2 ^ 53 /\ 0 <= j /\ -1074 <= E + j).
    { destruct (Z.le_gt_cases (E + 2148) (k + 1074)) as [C|C].
      - exists (Z.abs a), (k + 1074 - (E + 2148)). repeat split; try lia.
        apply Z.mul_reg_r with (2 ^ (E + 2148)); [apply Z.pow_nonzero; unfold E; lia|]. rewrite M2, <- Z.mul_assoc, <- Z.pow_add_r by (unfold E in *; lia). f_equal. f_equal. lia.
      - exists (Zpos p), 0. repeat split; try lia. replace (E + 2148) with (E + 1074 - k + (k + 1074)) in M2 by lia. rewrite Z.pow_add_r, Z.mul_assoc in M2 by lia.
        apply Z.mul_reg_r in M2; [|apply Z.pow_nonzero; lia]. assert (1 <= 2 ^ (E + 1074 - k)) by (apply (Z.pow_le_mono_r 2 0); lia). nia. }
    destruct J as (b & j & J1 & J2 & J3 & J4).
    destruct (round_aux_exact (xorb sx sy) p E b j J1 J2 J3 J4 Dl Du) as (m & e & R & B & Le & Vm). rewrite R. split; [exact B|].
    pose proof (bounded_range m e B) as (Re & _).
    apply Z.mul_reg_r with (2 ^ 1074); [exact P0|]. rewrite <- M1.
    assert (Q : Zpos p * 2 ^ (E + 2148) = Zpos m * 2 ^ (e + 1074) * 2 ^ 1074).
    { rewrite Vm, <- !Z.mul_assoc, <- !Z.pow_add_r by (unfold E in *; lia). f_equal. f_equal. lia. }
    change (Zneg p) with (- Zpos p). change (Zneg m) with (- Zpos m). destruct (xorb sx sy); lia.
Qed.

Lemma ofZ_exact z : Z.abs z < 2 ^ 53 -> units (f64_ofZ z) (z * 2 ^ 1074).
Proof. intro H. unfold f64_ofZ. apply (normalize_exact z 0 false); [lia|]. exists z, (0 + 1074). repeat split; try lia. Qed.
Lemma dyadic_exact z q : Z.abs z < 2 ^ 53 -> -1074 <= q <= 971 -> units (f64_dyadic z q) (z * 2 ^ (q + 1074)).
Proof. intros H Hq. apply normalize_exact; [lia|]. exists z, (q + 1074). repeat split; try lia. Qed.

(** Comparisons. *)
Lemma pos_compare m1 e1 m2 e2 : bounded 53 1024 m1 e1 = true -> bounded 53 1024 m2 e2 = true ->
  match Z.compare e1 e2 with Lt => Lt | Gt => Gt | Eq => Pos.compare_cont Eq m1 m2 end
  = Z.compare (Zpos m1 * 2 ^ (e1 + 1074)) (Zpos m2 * 2 ^ (e2 + 1074)).
Proof.
  intros B1 B2. destruct (bounded_range m1 e1 B1) as (R1 & U1 & L1). destruct (bounded_range m2 e2 B2) as (R2 & U2 & L2).
  assert (G : forall m e m' e', -1074 <= e -> Zpos m < 2 ^ 53 -> (e' = -1074 \/ 2 ^ 52 <= Zpos m') -> e < e' -> Zpos m * 2 ^ (e + 1074) < Zpos m' * 2 ^ (e' + 1074)).
  { intros m e m' e' Q1 Q2 Q3 Q4. destruct Q3 as [Q3|Q3]; [lia|].
    apply Z.lt_le_trans with (2 ^ 53 * 2 ^ (e + 1074)); [apply Z.mul_lt_mono_pos_r; [apply Z.pow_pos_nonneg; lia|exact Q2]|].
    rewrite <- Z.pow_add_r by lia. apply Z.le_trans with (2 ^ 52 * 2 ^ (e' + 1074)); [rewrite <- Z.pow_add_r by lia; apply Z.pow_le_mono_r; lia|].
    apply Z.mul_le_mono_nonneg_r; [apply Z.pow_nonneg; lia|exact Q3]. }
  destruct (Z.compare_spec e1 e2) as [->|C|C].
  - symmetry. rewrite <- (Zmult_compare_compat_r (Zpos m1) (Zpos m2)); [reflexivity|]. apply Z.lt_gt, Z.pow_pos_nonneg; lia.
  - symmetry. apply Z.compare_lt_iff. apply G; auto; lia.
  - symmetry. apply Z.compare_gt_iff. apply G; auto; lia.
Qed.
Lemma pos_units m e : bounded 53 1024 m e = true -> 0 < Zpos m * 2 ^ (e + 1074).
Proof. intro B. destruct (bounded_range m e B) as (R & _). apply Z.mul_pos_pos; [lia|]. apply Z.pow_pos_nonneg; lia. Qed.
Lemma compare_exact x y V W : units x V -> units y W -> SFcompare x y = Some (Z.compare V W).
Proof.
  intros Hx Hy. destruct x as [sx|sx| |sx mx ex]; try easy; destruct y as [sy|sy| |sy my ey]; try easy; cbn [units] in Hx, Hy; cbn [SFcompare].
  - now subst.
  - subst V. destruct Hy as [B ->]. pose proof (pos_units my ey B). change (Zneg my) with (- Zpos my). f_equal. symmetry. destruct sy; [apply Z.compare_gt_iff|apply Z.compare_lt_iff]; lia.
  - subst W. destruct Hx as [B ->]. pose proof (pos_units mx ex B). change (Zneg mx) with (- Zpos mx). f_equal. symmetry. destruct sx; [apply Z.compare_lt_iff|apply Z.compare_gt_iff]; lia.
  - destruct Hx as [Bx ->], Hy as [By ->]. pose proof (pos_units mx ex Bx). pose proof (pos_units my ey By). pose proof (pos_compare mx ex my ey Bx By) as C.
    change (Zneg mx) with (- Zpos mx). change (Zneg my) with (- Zpos my). f_equal. destruct sx, sy.
    + rewrite !Z.mul_opp_l, Z.compare_opp, (Z.compare_antisym (Zpos mx * 2 ^ (ex + 1074))). rewrite <- C. unfold Pcompare. now destruct (ex ?= ey).
    + symmetry. apply Z.compare_lt_iff. lia.
    + symmetry. apply Z.compare_gt_iff. lia.
    + exact C.
Qed.
Lemma ltb_exact x y V W : units x V -> units y W -> @nlt F64 x y = (V <? W).
Proof. intros Hx Hy. change (@nlt F64 x y) with (SFltb x y). unfold SFltb. rewrite (compare_exact x y V W Hx Hy). unfold Z.ltb. now destruct (V ?= W). Qed.
Lemma leb_exact x y V W : units x V -> units y W -> @nle F64 x y = (V <=? W).
Proof. intros Hx Hy. change (@nle F64 x y) with (SFleb x y). unfold SFleb. rewrite (compare_exact x y V W Hx Hy). unfold Z.leb. now destruct (V ?= W). Qed.

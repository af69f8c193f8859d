(** Convergence of the symplectic steppers on separable systems: the drifts and kicks are the stages of two
    Runge-Kutta methods on phase space, one for the coordinates and one for the momenta. *)
From Coq Require Import List Arith ZArith Reals Lia Lra QArith Qreals FunctionalExtensionality.
From Verif Require Import M_Num M_RK S_RK S_BSeries S_SympConv P_RKOrder P_BSeries P_Butcher P_SympR.
Import ListNotations.
Local Open Scope R_scope.
Local Notation S := Datatypes.S.

Section Method.
Variable abs : list (R * R).
Definition ca (l : nat) : R := fst (nth l abs (0, 0)).
Definition cb (l : nat) : R := snd (nth l abs (0, 0)).
Notation ss := (2 * length abs)%nat.
(** Weights of the stages: drifts have even numbers, kicks odd ones. *)
Definition wq (m : nat) : R := if Nat.even m then ca (m / 2) else 0.
Definition wp (m : nat) : R := if Nat.even m then 0 else cb (m / 2).
Definition aa (i m : nat) : R := if Nat.even i then wp m else wq m.

Section Stages.
Context {J : Type}.
Variable GG : (J -> R) -> (J -> R).
Variable v : J -> R.
Variable h : R.
(** The points where the momenta and the coordinates are those after [l] stages. *)
Fixpoint XY (l : nat) : (J -> R) * (J -> R) :=
  match l with
  | O => (v, v)
  | S l => let (X, Y) := XY l in
      let Y' := fun j => Y j + h * (ca l * GG X j) in
      (fun j => X j + h * (cb l * GG Y' j), Y')
  end.
Definition kst (i : nat) : J -> R := if Nat.even i then GG (fst (XY (i / 2))) else GG (snd (XY (S (i / 2)))).

Lemma half_even l : Nat.even (2 * l) = true /\ ((2 * l) / 2 = l)%nat.
Proof. split; [rewrite Nat.even_mul; reflexivity|]. rewrite Nat.mul_comm. apply Nat.div_mul. lia. Qed.
Lemma half_odd l : Nat.even (S (2 * l)) = false /\ ((S (2 * l)) / 2 = l)%nat.
Proof.
  split; [rewrite Nat.even_succ, <- Nat.negb_even, Nat.even_mul; reflexivity|].
  replace (S (2 * l)) with (1 + l * 2)%nat by lia. rewrite Nat.div_add by lia. reflexivity.
Qed.
Lemma XY_sums l : (forall j, fst (XY l) j = v j + h * sumn (2 * l) (fun m => wp m * kst m j))
               /\ (forall j, snd (XY l) j = v j + h * sumn (2 * l) (fun m => wq m * kst m j)).
Proof.
  induction l as [|l [IX IY]].
  - split; intro j; unfold sumn; cbn; ring.
  - destruct (half_even l) as [E1 E2]. destruct (half_odd l) as [O1 O2].
    replace (2 * S l)%nat with (S (S (2 * l))) by lia.
    assert (K1 : forall j, kst (2 * l) j = GG (fst (XY l)) j) by (intro j; unfold kst; now rewrite E1, E2).
    assert (K2 : forall j, kst (S (2 * l)) j = GG (snd (XY (S l))) j) by (intro j; unfold kst; now rewrite O1, O2).
    assert (W1 : wq (2 * l) = ca l /\ wp (2 * l) = 0) by (unfold wq, wp; now rewrite E1, E2).
    assert (W2 : wq (S (2 * l)) = 0 /\ wp (S (2 * l)) = cb l) by (unfold wq, wp; now rewrite O1, O2).
    destruct W1 as [W1 W1']. destruct W2 as [W2 W2'].
    split; intro j; rewrite !sumn_S, K1, K2, W1, W1', W2, W2' || rewrite !sumn_S, K1, K2, ?W1, ?W1', ?W2, ?W2'.
    + cbn [XY]. specialize (IX j). destruct (XY l) as [X Y]. cbn [fst snd] in *. rewrite IX. ring.
    + cbn [XY]. specialize (IY j). destruct (XY l) as [X Y]. cbn [fst snd] in *. rewrite IY. ring.
Qed.

Lemma kst_eq i j : kst i j = GG (fun j' => v j' + h * sumn i (fun m => aa i m * kst m j')) j.
Proof.
  destruct (Nat.Even_or_Odd i) as [[l ->]|[l E]].
  - destruct (half_even l) as [E1 E2]. unfold kst at 1. rewrite E1, E2. f_equal. extensionality j'.
    destruct (XY_sums l) as [IX _]. rewrite IX. f_equal. f_equal. apply sumn_ext. intros m _. unfold aa. now rewrite E1.
  - replace i with (S (2 * l)) by lia. destruct (half_odd l) as [O1 O2]. destruct (half_even l) as [E1 E2]. unfold kst at 1. rewrite O1, O2.
    f_equal. extensionality j'. destruct (XY_sums (S l)) as [_ IY]. rewrite IY.
    replace (2 * S l)%nat with (S (S (2 * l))) by lia. rewrite (sumn_S (S (2 * l))).
    replace (wq (S (2 * l))) with 0 by (unfold wq; now rewrite O1).
    rewrite Rmult_0_l, Rplus_0_r. f_equal. f_equal. apply sumn_ext. intros m _. unfold aa. now rewrite O1.
Qed.
End Stages.
End Method.

(** The stepper makes these stages. *)
Lemma firstn_last {A} (d : A) l n : (n < length l)%nat -> firstn (S n) l = firstn n l ++ [nth n l d].
Proof.
  revert n. induction l as [|x l IH]; intros [|n] H; cbn in *; try lia; [reflexivity|]. f_equal. apply IH. lia.
Qed.
Lemma applies_XY {I} abs (f g : (I -> R) -> (I -> R)) h z l : (l <= length abs)%nat ->
  let z' := applies f g h (flat (firstn l abs)) z in
  (forall i, fst z' i = snd (XY abs (separable f g) (phase z) h l) (inl i)) /\
  (forall i, snd z' i = fst (XY abs (separable f g) (phase z) h l) (inr i)).
Proof.
  induction l as [|l IH]; intros Hl z'; unfold z'; clear z'.
  - split; reflexivity.
  - specialize (IH ltac:(lia)). cbv zeta in IH. rewrite (firstn_last (0, 0) abs l) by lia. unfold flat in *. rewrite flat_map_app.
    unfold applies in *. rewrite fold_left_app. set (z1 := fold_left _ _ z) in *. cbn [XY].
    destruct (XY abs (separable f g) (phase z) h l) as [X Y]. cbn [fst snd] in IH. destruct IH as [A B].
    destruct z1 as [q p]. cbn [fst snd] in A, B.
    assert (Ep : p = fun i => X (inr i)) by (extensionality i; apply B).
    assert (Eq : q = fun i => Y (inl i)) by (extensionality i; apply A). subst p q.
    cbn [flat_map app fold_left apply fst snd]. 
    assert (E1 : (fun i => 1 * Y (inl i) + ca abs l * h * f (fun i => X (inr i)) i)
               = (fun i => Y (inl i) + h * (ca abs l * separable f g X (inl i)))).
    { extensionality i. cbn [separable]. ring. }
    unfold ca, cb in *. split; intro i; [cbn [separable]; ring|]. rewrite E1. cbn [separable]. ring.
Qed.
Lemma applies_all {I} abs (f g : (I -> R) -> (I -> R)) h z :
  let z' := applies f g h (flat abs) z in let k := kst abs (separable f g) (phase z) h in
  (forall i, fst z' i = fst z i + h * sumn (2 * length abs) (fun m => wq abs m * k m (inl i))) /\
  (forall i, snd z' i = snd z i + h * sumn (2 * length abs) (fun m => wp abs m * k m (inr i))).
Proof.
  pose proof (applies_XY abs f g h z (length abs) (le_n _)) as [A B]. rewrite firstn_all in A, B.
  destruct (XY_sums abs (separable f g) (phase z) h (length abs)) as [C D].
  split; intro i; [rewrite A, D|rewrite B, C]; reflexivity.
Qed.

(** ** The local error. *)
Lemma beta_01 : forall n t, (tsize t <= n)%nat -> 0 <= beta t <= 1.
Proof.
  induction n as [|n IH]; intros [cs] L; rewrite tsize_node in L; [lia|]. rewrite beta_node.
  assert (P : 0 <= lprod cs beta <= 1).
  { assert (L2 : forall c, In c cs -> (tsize c <= n)%nat) by (intros c Hc; pose proof (tsum_child cs c Hc); lia).
    clear L. induction cs as [|c cs IHc]; [unfold lprod; cbn; lra|]. rewrite lprod_cons.
    pose proof (IH c (L2 c (or_introl eq_refl))). specialize (IHc (fun d Hd => L2 d (or_intror Hd))). nra. }
  assert (F : 1 <= INR (fact (length cs))) by (apply (le_INR 1); pose proof (lt_O_fact (length cs)); lia).
  split.
  - apply Rmult_le_pos; [lra|]. left. apply Rinv_0_lt_compat. lra.
  - apply (Rmult_le_reg_r (INR (fact (length cs)))); [lra|]. unfold Rdiv. rewrite Rmult_assoc, Rinv_l by lra. lra.
Qed.

Lemma elem_le {J} p M (DD : list (J -> R) -> (J -> R)) : 0 <= M ->
  (forall l rs j, (length l < p)%nat -> Forall2 bnd rs l -> Rabs (DD l j) <= M * fold_right Rmult 1 rs) ->
  forall n t, (tsize t <= n)%nat -> (n <= p)%nat -> bnd (M ^ tsize t) (elemD DD t).
Proof.
  intros HM HB. induction n as [|n IH]; intros [cs] L Lp j; rewrite tsize_node in L; [lia|].
  pose proof (tsum_ge_length cs) as L2. cbn [elemD].
  eapply Rle_trans; [apply (HB _ (map (fun c => M ^ tsize c) cs)); [rewrite map_length; lia|]|].
  - assert (L3 : forall c, In c cs -> (tsize c <= n)%nat) by (intros c Hc; pose proof (tsum_child cs c Hc); lia).
    clear L L2. induction cs as [|c cs IHc]; [constructor|]. cbn [map]. constructor.
    + apply IH; [apply L3; now left|lia].
    + apply IHc. intros d Hd. apply L3. now right.
  - right. rewrite tsize_node. cbn [pow]. f_equal. clear. induction cs as [|c cs IHc]; [reflexivity|].
    cbn [map fold_right tsum]. rewrite IHc. fold (tsum cs). now rewrite pow_add.
Qed.

Section Local.
Context {I : Type}.
Variables (p : nat) (M H : R).
Hypothesis HM : 0 <= M.
Hypothesis HH : 0 <= H.
Hypothesis Hp : (1 <= p)%nat.
Variable abs : list (R * R).
Notation ss := (2 * length abs)%nat.
Variable dl : tree -> R.
Hypothesis Hq : forall t, In t (trees p) -> Rabs (sumn ss (fun m => wq abs m * ph (aa abs) t m) - / IZR (gamma t)) <= dl t.
Hypothesis Hpp : forall t, In t (trees p) -> Rabs (sumn ss (fun m => wp abs m * ph (aa abs) t m) - / IZR (gamma t)) <= dl t.

Notation insts := (@inst (I + I) p M H).
Notation hh := (fun q : insts => ih _ _ _ q).
Definition ks (m : nat) (q : insts) : I + I -> R :=
  kst abs (pG _ _ (ip _ _ _ q)) (py _ _ (ip _ _ _ q) (it _ _ _ q)) (ih _ _ _ q) m.
Lemma ks_eq : forall i q j, (i < ss)%nat ->
  ks i q j = G p M H q (fun j' => hh q * sumn i (fun m => aa abs i m * ks m q j')) j.
Proof. intros i q j _. exact (kst_eq abs _ _ _ i j). Qed.

Lemma side (w : nat -> R) : (forall t, In t (trees p) -> Rabs (sumn ss (fun m => w m * ph (aa abs) t m) - / IZR (gamma t)) <= dl t) ->
  exists E, 0 <= E /\ forall (q : insts) j,
  Rabs (py _ _ (ip _ _ _ q) (it _ _ _ q) j + hh q * sumn ss (fun m => w m * ks m q j) - py _ _ (ip _ _ _ q) (it _ _ _ q + hh q) j)
  <= E * Rabs (hh q) ^ S p + lsum (trees p) (fun t => dl t * (M * Rabs (hh q)) ^ tsize t).
Proof.
  intro Hw.
  destruct (weigh (ih p M H) H (fun q => i3 _ _ _ q) HH p M HM (G p M H) (D p M H)
    (fun q => Dlin p M H q) (fun q => Dbnd p M H q) (fun q => Drem p M H q) ss (aa abs) ks Hp ks_eq p (le_n _) ss w (le_n _)) as (C1 & P1 & B1).
  destruct (exact_series (J := I + I) p M H HM HH Hp p (le_n _)) as (C2 & P2 & B2).
  exists (C1 + C2). split; [lra|]. intros q j. specialize (B1 q j). specialize (B2 q j). cbv beta in *.
  set (Z1 := series (ih p M H) (D p M H) p (fun t => sumn ss (fun m => w m * ph (aa abs) t m)) q j) in *.
  set (Z2 := series (ih p M H) (D p M H) p (fun t => / IZR (gamma t)) q j) in *.
  assert (B3 : Rabs (Z1 - Z2) <= lsum (trees p) (fun t => dl t * (M * Rabs (ih _ _ _ q)) ^ tsize t)).
  { unfold Z1, Z2, series. replace (lsum (trees p) (fun t => ih p M H q ^ tsize t * (beta t * sumn ss (fun m => w m * ph (aa abs) t m)) * elem (D p M H) q t j)
      - lsum (trees p) (fun t => ih p M H q ^ tsize t * (beta t * / IZR (gamma t)) * elem (D p M H) q t j))
      with (lsum (trees p) (fun t => ih p M H q ^ tsize t * beta t * elem (D p M H) q t j * (sumn ss (fun m => w m * ph (aa abs) t m) - / IZR (gamma t)))).
    2:{ match goal with |- _ = ?a - ?b => replace (a - b) with (a + -1 * b) by ring end.
        rewrite <- lsum_scale, <- lsum_plus. apply lsum_ext. intros t _. ring. }
    assert (In1 : forall t, In t (trees p) -> In t (trees p)) by auto. revert In1. generalize (trees p) at 1 3 4 as l.
    induction l as [|t l IHl]; intro In1; [unfold lsum; cbn; rewrite Rabs_R0; lra|]. 
    unfold lsum in *. cbn [map rsum fold_right] in *. eapply Rle_trans; [apply Rabs_triang|]. apply Rplus_le_compat; [|apply IHl; intros; apply In1; now right].
    assert (It : In t (trees p)) by (apply In1; now left). pose proof (in_trees p t It) as St.
    rewrite !Rabs_mult, <- RPow_abs, (Rabs_pos_eq (beta t)) by apply (beta_01 _ t (le_n _)).
    pose proof (beta_01 _ t (le_n _)) as [b1 b2].
    pose proof (elem_le p M (D p M H q) HM (Dbnd p M H q) p t St (le_n _) j) as Be. fold (elem (D p M H) q t) in Be.
    rewrite Rpow_mult_distr. specialize (Hw t It).
    set (x := Rabs (ih p M H q) ^ tsize t) in *. assert (Px : 0 <= x) by (apply pow_le, Rabs_pos).
    set (e := Rabs (elem (D p M H) q t j)) in *. assert (Pe : 0 <= e) by apply Rabs_pos.
    set (d := Rabs (sumn ss (fun m => w m * ph (aa abs) t m) - / IZR (gamma t))) in *. assert (Pd : 0 <= d) by apply Rabs_pos.
    change (Rabs (elem (D p M H) q t j) <= M ^ tsize t) in Be. fold e in Be.
    replace (x * beta t * e * d) with (d * (beta t * e * x)) by ring.
    apply Rmult_le_compat; [exact Pd| |exact Hw|].
    - apply Rmult_le_pos; [apply Rmult_le_pos; lra|exact Px].
    - apply Rmult_le_compat_r; [exact Px|]. nra. }
  replace (py _ _ (ip _ _ _ q) (it _ _ _ q) j + ih _ _ _ q * sumn ss (fun m => w m * ks m q j) - py _ _ (ip _ _ _ q) (it _ _ _ q + ih _ _ _ q) j)
    with ((ih _ _ _ q * sumn ss (fun m => w m * ks m q j) - Z1) + (- (py _ _ (ip _ _ _ q) (it _ _ _ q + ih _ _ _ q) j - py _ _ (ip _ _ _ q) (it _ _ _ q) j - Z2) + (Z1 - Z2))) by ring.
  eapply Rle_trans; [apply Rabs_triang|]. eapply Rle_trans; [apply Rplus_le_compat_l, Rabs_triang|]. rewrite Rabs_Ropp. lra.
Qed.

Theorem symp_local : exists E, 0 <= E /\ forall (f g : (I -> R) -> (I -> R)) y DD (T : R -> Prop),
  (forall s u c, T s -> T u -> 0 <= c <= 1 -> T (s + c * (u - s))) ->
  taylor p M (fun v => exists t, T t /\ v = phase (y t)) (separable f g) DD -> solves T f g y ->
  forall t h, T t -> T (t + h) -> Rabs h <= H ->
  within (E * Rabs h ^ S p + lsum (trees p) (fun t => dl t * (M * Rabs h) ^ tsize t)) (applies f g h (flat abs) (y t)) (y (t + h)).
Proof.
  destruct (side (wq abs) Hq) as (E1 & P1 & B1). destruct (side (wp abs) Hpp) as (E2 & P2 & B2).
  exists (E1 + E2). split; [lra|]. intros f g y DD T Tc Tay Sol t h Ht Hth Hh i.
  assert (PS : forall t j, T t -> derivable_pt_lim (fun s => phase (y s) j) t (separable f g (phase (y t)) j)).
  { intros u [j|j] Hu; [exact (proj1 (Sol u j Hu))|exact (proj2 (Sol u j Hu))]. }
  set (P := mkProb p M T (separable f g) DD (fun t => phase (y t)) Tc Tay PS).
  set (q := mkInst p M H P t h Ht Hth Hh). specialize (B1 q (inl i)). specialize (B2 q (inr i)).
  destruct (applies_all abs f g h (y t)) as [A1 A2].
  assert (Ph : 0 <= Rabs h ^ S p) by apply pow_le, Rabs_pos.
  split; [rewrite A1|rewrite A2]; (eapply Rle_trans; [first [exact B1|exact B2]|]); (apply Rplus_le_compat_r, Rmult_le_compat_r; [exact Ph|lra]).
Qed.
End Local.

(** ** Growth of a difference. *)
Definition ops_abs (o : sop) : R := match o with Dr a => Rabs a | Kk b => Rabs b end.
Fixpoint lam (L H : R) (ops : list sop) : R :=
  match ops with [] => 0 | o :: r => lam L H r * (1 + ops_abs o * H * L) + ops_abs o * L end.
Lemma ops_abs_pos o : 0 <= ops_abs o. Proof. destruct o; apply Rabs_pos. Qed.
Lemma lam_pos L H ops : 0 <= L -> 0 <= H -> 0 <= lam L H ops.
Proof.
  intros HL HH. induction ops as [|o r IH]; cbn [lam]; [lra|]. pose proof (ops_abs_pos o) as Po.
  assert (0 <= ops_abs o * H * L) by (repeat apply Rmult_le_pos; assumption).
  assert (0 <= ops_abs o * L) by (apply Rmult_le_pos; assumption). nra.
Qed.
Lemma op_grow {I} (f g : (I -> R) -> (I -> R)) L h D z w o : 0 <= L -> 0 <= D -> lip L f -> lip L g -> within D z w ->
  within ((1 + ops_abs o * Rabs h * L) * D) (apply f g h z o) (apply f g h w o).
Proof.
  intros HL HD Lf Lg Hz i. destruct (Hz i) as [A B]. pose proof (Rabs_pos h) as Ph.
  pose proof (ops_abs_pos o) as Po.
  assert (P1 : 0 <= ops_abs o * Rabs h * L * D) by (repeat apply Rmult_le_pos; assumption).
  assert (Q : forall c x x' u u', Rabs c = ops_abs o -> Rabs (x - x') <= D -> Rabs (u - u') <= L * D ->
    Rabs (1 * x + c * h * u - (1 * x' + c * h * u')) <= (1 + ops_abs o * Rabs h * L) * D).
  { intros c x x' u u' Ec Hx Hu. replace (1 * x + c * h * u - (1 * x' + c * h * u')) with ((x - x') + c * h * (u - u')) by ring.
    eapply Rle_trans; [apply Rabs_triang|]. rewrite !Rabs_mult, Ec.
    assert (ops_abs o * Rabs h * Rabs (u - u') <= ops_abs o * Rabs h * (L * D)) by (apply Rmult_le_compat_l; [now apply Rmult_le_pos|exact Hu]). lra. }
  destruct o as [a|b]; cbn [apply fst snd]; split.
  - apply Q; [reflexivity|exact A|]. apply Lf. intro j. apply (Hz j).
  - lra.
  - lra.
  - apply Q; [reflexivity|exact B|]. apply Lg. intro j. apply (Hz j).
Qed.
Lemma ops_grow {I} (f g : (I -> R) -> (I -> R)) L H h : 0 <= L -> Rabs h <= H -> lip L f -> lip L g -> forall ops D z w, 0 <= D -> within D z w ->
  within ((1 + Rabs h * lam L H ops) * D) (applies f g h ops z) (applies f g h ops w).
Proof.
  intros HL Hh Lf Lg. pose proof (Rabs_pos h) as Ph. induction ops as [|o r IH]; intros D z w HD Hz.
  - cbn [lam applies fold_left]. rewrite Rmult_0_r, Rplus_0_r, Rmult_1_l. exact Hz.
  - pose proof (ops_abs_pos o) as Po.
    assert (P1 : 0 <= ops_abs o * Rabs h * L) by (repeat apply Rmult_le_pos; assumption).
    pose proof (op_grow f g L h D z w o HL HD Lf Lg Hz) as G1.
    assert (PD : 0 <= (1 + ops_abs o * Rabs h * L) * D) by (apply Rmult_le_pos; [lra|exact HD]). specialize (IH _ _ _ PD G1). intro i. specialize (IH i).
    pose proof (lam_pos L H r HL ltac:(lra)) as Pl.
    assert (E : (1 + Rabs h * lam L H r) * ((1 + ops_abs o * Rabs h * L) * D) <= (1 + Rabs h * lam L H (o :: r)) * D).
    { rewrite <- Rmult_assoc. apply Rmult_le_compat_r; [exact HD|]. cbn [lam].
      replace ((1 + Rabs h * lam L H r) * (1 + ops_abs o * Rabs h * L)) with (1 + Rabs h * (lam L H r * (1 + ops_abs o * Rabs h * L) + ops_abs o * L)) by ring.
      apply Rplus_le_compat_l. apply Rmult_le_compat_l; [exact Ph|]. apply Rplus_le_compat_r. apply Rmult_le_compat_l; [exact Pl|].
      apply Rplus_le_compat_l. apply Rmult_le_compat_r; [exact HL|]. apply Rmult_le_compat_l; assumption. }
    change (applies f g h (o :: r) z) with (applies f g h r (apply f g h z o)).
    change (applies f g h (o :: r) w) with (applies f g h r (apply f g h w o)).
    destruct IH as [A B]. split; lra.
Qed.

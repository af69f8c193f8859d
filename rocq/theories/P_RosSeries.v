(** Series in elementary differentials for Rosenbrock methods. *)
From Coq Require Import List Arith Reals Lia Lra FunctionalExtensionality.
From Verif Require Import S_RK S_BSeries P_RKOrder P_BSeries.
Import ListNotations.
Local Open Scope R_scope.

Section Ros.
Context {J Q : Type}.
Notation V := (J -> R).
Variable h : Q -> R.
Variable H : R.
Hypothesis Hh : forall q, Rabs (h q) <= H.
Hypothesis HH : 0 <= H.
Variable p : nat.
Variable M : R.
Hypothesis HM : 0 <= M.
Variable G : Q -> V -> V.
Variable D : Q -> list V -> V.
Hypothesis Dlin : forall q l l' a b u v j, D q (l ++ (fun i => a * u i + b * v i) :: l') j = a * D q (l ++ u :: l') j + b * D q (l ++ v :: l') j.
Hypothesis Dbnd : forall q l rs j, (length l < p)%nat -> Forall2 bnd rs l -> Rabs (D q l j) <= M * fold_right Rmult 1 rs.
Hypothesis Drem : forall q w r m j, (1 <= m <= p)%nat -> bnd r w ->
  Rabs (G q w j - sumn m (fun k => D q (repeat w k) j / INR (fact k))) <= M * r ^ m.
Hypothesis Hp : (2 <= p)%nat.
Variable gam : R.
Hypothesis Hgam : 0 <= gam.
Hypothesis Hsmall : gam * M * H <= 1 / 2.
Notation big := (big h).
Notation series := (series h D).
Notation slope := (slope h D).

Lemma halves r e : 0 < e -> exists k, r / 2 ^ k < e.
Proof.
  intro He. destruct (pow_lt_1_zero (1 / 2) ltac:(rewrite Rabs_pos_eq; lra) (e / (Rabs r + 1))) as (k & Hk).
  - apply Rdiv_lt_0_compat; [exact He|]. pose proof (Rabs_pos r). lra.
  - exists k. specialize (Hk k (le_n _)). pose proof (Rabs_pos r) as Pr.
    assert (E : (1 / 2) ^ k = / 2 ^ k) by (unfold Rdiv; rewrite Rmult_1_l, pow_inv; reflexivity).
    rewrite E in Hk. assert (P2 : 0 < / 2 ^ k) by (apply Rinv_0_lt_compat, pow_lt; lra). rewrite Rabs_pos_eq in Hk by lra.
    apply Rle_lt_trans with (Rabs r * / 2 ^ k); [apply Rmult_le_compat_r; [lra|apply RRle_abs]|].
    apply Rle_lt_trans with ((Rabs r + 1) * / 2 ^ k); [nra|].
    apply (Rmult_lt_compat_l (Rabs r + 1)) in Hk; [|lra].
    replace ((Rabs r + 1) * (e / (Rabs r + 1))) with e in Hk by (field; lra). exact Hk.
Qed.

(** u = gam h J u + R with R small: u is small. *)
Lemma absorb n (u W : Q -> V) : (forall q, exists r, bnd r (u q)) -> (forall q j, u q j = gam * (h q * D q [u q] j) + W q j) -> big n W -> big n u.
Proof.
  intros Hf E (C & PC & B). exists (2 * C). split; [lra|]. intros q.
  destruct (Hf q) as (r & Hr). set (b := C * Rabs (h q) ^ n).
  assert (Pb : 0 <= b) by (apply Rmult_le_pos; [exact PC|apply pow_le, Rabs_pos]).
  assert (K : forall k, bnd (r / 2 ^ k + 2 * b) (u q)).
  { induction k as [|k IH]; intro j.
    - cbn [pow]. specialize (Hr j). lra.
    - rewrite E. eapply Rle_trans; [apply Rabs_triang|].
      pose proof (Dbnd q [u q] [r / 2 ^ k + 2 * b] j ltac:(cbn; lia) ltac:(constructor; [exact IH|constructor])) as Q1. cbn [fold_right] in Q1.
      pose proof (Rabs_pos (u q j)) as Pu. pose proof (IH j) as Hj. set (z := r / 2 ^ k + 2 * b) in *.
      assert (E2 : r / 2 ^ Datatypes.S k + 2 * b = z / 2 + b).
      { unfold z. cbn [pow]. field. apply pow_nonzero. lra. }
      rewrite E2. specialize (B q j). fold b in B. rewrite !Rabs_mult, (Rabs_pos_eq gam) by exact Hgam.
      pose proof (Hh q) as Hq. pose proof (Rabs_pos (h q)) as Ph.
      assert (Z : gam * (Rabs (h q) * Rabs (D q [u q] j)) <= gam * (H * (M * (z * 1)))).
      { apply Rmult_le_compat_l; [exact Hgam|]. apply Rmult_le_compat; [exact Ph|apply Rabs_pos|exact Hq|exact Q1]. }
      assert (Z2 : gam * (H * (M * (z * 1))) <= z / 2) by (replace (gam * (H * (M * (z * 1)))) with (gam * M * H * z) by ring; nra). lra. }
  intro j. destruct (Rle_or_lt (Rabs (u q j)) (2 * b)) as [L|L]; [unfold b in L; lra|].
  destruct (halves r (Rabs (u q j) - 2 * b) ltac:(lra)) as (k & Hk). specialize (K k j). lra.
Qed.

(** h J applied to a series. *)
Lemma trees_S n : exists rest, trees (Datatypes.S n) = Node [] :: map (fun c => Node [c]) (trees n) ++ rest
  /\ forall t, In t rest -> exists c1 c2 cs, t = Node (c1 :: c2 :: cs).
Proof.
  destruct n as [|m]; [exists []; split; [reflexivity|intros t []]|].
  set (n := Datatypes.S m). set (T := trees n).
  exists (map Node (flat_map (fun k => filter (fun l => tsum l <=? n)%nat (tuples k T)) (seq 2 m))).
  split.
  - change (trees (Datatypes.S n)) with (map Node (flat_map (fun k => filter (fun l => tsum l <=? n)%nat (tuples k T)) (seq 0 (Datatypes.S n)))).
    unfold n at 2. cbn [seq flat_map tuples filter tsum fold_right Nat.leb map app]. f_equal. rewrite map_app. f_equal.
    assert (L : forall t, In t T -> (tsize t <= n)%nat) by apply in_trees. clearbody T.
    induction T as [|t T IH]; [reflexivity|]. cbn [flat_map map app filter]. cbn [tsum fold_right]. rewrite Nat.add_0_r.
    rewrite (proj2 (Nat.leb_le _ _) (L t (or_introl eq_refl))). cbn [map]. f_equal. apply IH. intros u Hu. apply L. now right.
  - intros t Ht. apply in_map_iff in Ht. destruct Ht as (l & <- & Ht). apply in_flat_map in Ht. destruct Ht as (k & Hk & Ht).
    apply in_seq in Hk. apply filter_In in Ht. destruct (in_tuples T k l (proj1 Ht)) as [El _].
    destruct l as [|c1 [|c2 cs]]; cbn in El; try lia. now exists c1, c2, cs.
Qed.
Definition single (psi : tree -> R) (t : tree) : R := match t with Node [c] => psi c | _ => 0 end.
Lemma D_series n psi q j : h q * D q [series n psi q] j = series (Datatypes.S n) (single psi) q j.
Proof.
  pose proof (D_lsum (J := J) D Dlin q [] [] j (trees n) (fun t => h q ^ tsize t * (beta t * psi t)) (fun t => elem D q t)) as E. cbn [app] in E.
  unfold series at 1. rewrite E. unfold series. destruct (trees_S n) as (rest & -> & Hr).
  rewrite lsum_cons, lsum_app, lsum_map. cbn [single].
  rewrite (lsum_ext rest _ (fun _ => 0 * 0)), lsum_scale.
  2:{ intros t Ht. destruct (Hr t Ht) as (c1 & c2 & cs & ->). cbn [single]. ring. }
  rewrite <- lsum_scale.
  rewrite (lsum_ext (trees n) (fun a => h q ^ tsize (Node [a]) * (beta (Node [a]) * psi a) * elem D q (Node [a]) j)
    (fun a => h q * (h q ^ tsize a * (beta a * psi a) * D q [elem D q a] j))); [ring|].
  intros t _. rewrite tsize_node, beta_node, elem_node. cbn [tsum fold_right map length lprod fact]. rewrite Nat.add_0_r.
  cbn [pow]. unfold lprod. cbn. field.
Qed.

Variable s : nat.
Variables a c : nat -> nat -> R.
Variable g : nat -> Q -> V.
Hypothesis Hfin : forall i q, (i < s)%nat -> exists r, bnd r (g i q).
Hypothesis Hg : forall i q j, (i < s)%nat -> g i q j = gam * (h q * D q [g i q] j
  + h q * G q (fun j' => sumn i (fun m => a i m * g m q j')) j + sumn i (fun m => c i m * g m q j)).
Variable rho : tree -> nat -> R.
Hypothesis Hrho : forall cs i, (i < s)%nat -> rho (Node cs) i = gam * (single (fun t => rho t i) (Node cs)
  + lprod cs (fun t => sumn i (fun m => a i m * rho t m)) + sumn i (fun m => c i m * rho (Node cs) m)).

Notation psi i := (fun t => sumn i (fun m => a i m * rho t m)).

Lemma stage_small i : (i < s)%nat -> big 1 (g i).
Proof.
  induction i as [i IH] using (well_founded_induction lt_wf). intro Hi.
  set (W := fun q j' => sumn i (fun m => a i m * g m q j')).
  assert (BW : big 1 W) by (apply (big_sumn h 1 (le_n 1) 1 i (a i) g); intros m Hm; apply IH; lia).
  assert (BG : big 0 (fun q j => G q (W q) j)).
  { apply (big_ext h 0 (fun q j => (G q (W q) j - slope 1 (fun _ => 0) q j) + slope 1 (fun _ => 0) q j)); [intros; ring|].
    apply big_add; [|apply (slope_big h H Hh HH p M HM D Dbnd); lia]. apply (big_weak h H Hh HH 0 1); [lia|].
    apply (compose h H Hh HH p M HM G D Dlin Dbnd Drem 0 (fun _ => 0) W); [lia|]. apply (big_ext h 1 W); [|exact BW]. intros q j. unfold P_BSeries.series, lsum. cbn. ring. }
  apply (absorb 1 (g i) (fun q j => gam * (h q * G q (W q) j + sumn i (fun m => c i m * g m q j)))).
  - intro q. now apply Hfin.
  - intros q j. rewrite (Hg i q j Hi) at 1. fold (W q). ring.
  - apply big_scal. apply big_add; [now apply (big_h1 h 0 (fun q j => G q (W q) j))|].
    apply (big_sumn h 1 (le_n 1) 1 i (c i) g). intros m Hm. apply IH; lia.
Qed.

Lemma series_sum n k (w : nat -> R) q j : sumn k (fun m => w m * series n (fun t => rho t m) q j) = series n (fun t => sumn k (fun m => w m * rho t m)) q j.
Proof.
  rewrite <- lsum_sumn. unfold P_BSeries.series.
  rewrite (lsum_ext (seq 0 k) _ (fun m => lsum (trees n) (fun t => w m * (h q ^ tsize t * (beta t * rho t m) * elem D q t j)))) by (intros m _; now rewrite lsum_scale).
  rewrite lsum_swap. apply lsum_ext. intros t _. rewrite <- lsum_sumn.
  replace (h q ^ tsize t * (beta t * lsum (seq 0 k) (fun m => w m * rho t m)) * elem D q t j)
    with ((h q ^ tsize t * beta t * elem D q t j) * lsum (seq 0 k) (fun m => w m * rho t m)) by ring.
  rewrite <- lsum_scale. apply lsum_ext. intros m _. ring.
Qed.

Lemma series_rho n i q j : (i < s)%nat -> series (Datatypes.S n) (fun t => rho t i) q j
  = gam * (h q * D q [series n (fun t => rho t i) q] j + h q * slope (Datatypes.S n) (psi i) q j + sumn i (fun m => c i m * series (Datatypes.S n) (fun t => rho t m) q j)).
Proof.
  intro Hi. rewrite D_series, series_sum. unfold P_BSeries.series, P_BSeries.slope. rewrite <- (lsum_scale _ (h q)), <- !lsum_plus, <- lsum_scale.
  apply lsum_ext. intros [cs] _. rewrite (Hrho cs i Hi). cbn [over]. rewrite tsize_node. cbn [pred pow]. ring.
Qed.

Theorem ros_series : forall n, (n <= p)%nat -> forall i, (i < s)%nat -> big (Datatypes.S n) (fun q j => g i q j - series n (fun t => rho t i) q j).
Proof.
  induction n as [|n IH]; intros Lp.
  - intros i Hi. apply (big_ext h 1 (g i)); [intros q j; unfold P_BSeries.series, lsum; cbn; ring|]. now apply stage_small.
  - induction i as [i IHi] using (well_founded_induction lt_wf). intro Hi.
    set (W := fun q j' => sumn i (fun m => a i m * g m q j')).
    assert (BW : big (Datatypes.S n) (fun q j => W q j - series n (psi i) q j)).
    { apply (big_ext h _ (fun q j => sumn i (fun m => a i m * (g m q j - series n (fun t => rho t m) q j)))).
      - intros q j. unfold W. rewrite <- series_sum.
        replace (sumn i (fun m => a i m * (g m q j - series n (fun t => rho t m) q j)))
          with (sumn i (fun m => a i m * g m q j) + -1 * sumn i (fun m => a i m * series n (fun t => rho t m) q j)); [ring|].
        rewrite <- sumn_scale, <- sumn_plus. apply sumn_ext. intros m _. ring.
      - apply (big_sumn h 1 (le_n 1) _ i (a i) (fun m q j => g m q j - series n (fun t => rho t m) q j)). intros m Hm. apply IH; lia. }
    apply (compose h H Hh HH p M HM G D Dlin Dbnd Drem n (psi i) W Lp) in BW.
    assert (BJ : big (Datatypes.S n) (fun q => D q [fun j => g i q j - series n (fun t => rho t i) q j])).
    { pose proof (big_D h p M HM D Dbnd [(Datatypes.S n, fun q j => g i q j - series n (fun t => rho t i) q j)]) as B. cbn [length map fst snd fold_right] in B.
      rewrite Nat.add_0_r in B. apply B; [lia|]. intros nu [<-|[]]. apply IH; lia. }
    apply (big_ext h _ (fun q j => gam * (h q * D q [fun j => g i q j - series n (fun t => rho t i) q j] j
      + h q * (G q (W q) j - slope (Datatypes.S n) (psi i) q j)
      + sumn i (fun m => c i m * (g m q j - series (Datatypes.S n) (fun t => rho t m) q j))))).
    + intros q j. rewrite (series_rho n i q j Hi), (Hg i q j Hi) at 1. fold (W q).
      replace (fun j => g i q j - series n (fun t => rho t i) q j) with (fun j => 1 * g i q j + -1 * series n (fun t => rho t i) q j) by (extensionality k; ring).
      pose proof (Dlin q [] [] 1 (-1) (g i q) (series n (fun t => rho t i) q) j) as E. cbn [app] in E. rewrite E.
      replace (sumn i (fun m => c i m * (g m q j - series (Datatypes.S n) (fun t => rho t m) q j)))
        with (sumn i (fun m => c i m * g m q j) + -1 * sumn i (fun m => c i m * series (Datatypes.S n) (fun t => rho t m) q j)); [ring|].
      rewrite <- sumn_scale, <- sumn_plus. apply sumn_ext. intros m _. ring.
    + apply big_scal. apply big_add; [apply big_add|].
      * now apply (big_h1 h (Datatypes.S n) (fun q => D q [fun j => g i q j - series n (fun t => rho t i) q j])).
      * now apply (big_h1 h (Datatypes.S n) (fun q j => G q (W q) j - slope (Datatypes.S n) (psi i) q j)).
      * apply (big_sumn h 1 (le_n 1) _ i (c i) (fun m q j => g m q j - series (Datatypes.S n) (fun t => rho t m) q j)). intros m Hm. apply IHi; lia.
Qed.

Theorem ros_weigh n (w : nat -> R) : (n <= p)%nat ->
  big (Datatypes.S n) (fun q j => sumn s (fun m => w m * g m q j) - series n (fun t => sumn s (fun m => w m * rho t m)) q j).
Proof.
  intro Lp. apply (big_ext h _ (fun q j => sumn s (fun m => w m * (g m q j - series n (fun t => rho t m) q j)))).
  - intros q j. rewrite <- series_sum.
    replace (sumn s (fun m => w m * (g m q j - series n (fun t => rho t m) q j)))
      with (sumn s (fun m => w m * g m q j) + -1 * sumn s (fun m => w m * series n (fun t => rho t m) q j)); [ring|].
    rewrite <- sumn_scale, <- sumn_plus. apply sumn_ext. intros m _. ring.
  - apply (big_sumn h 1 (le_n 1) _ s w (fun m q j => g m q j - series n (fun t => rho t m) q j)). intros m Hm. now apply ros_series.
Qed.
End Ros.

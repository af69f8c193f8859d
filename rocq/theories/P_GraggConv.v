(** Consistency of the modified midpoint method and of its extrapolation along smooth solutions. *)
From Coq Require Import List Arith Bool ZArith Reals Lia Lra FunctionalExtensionality.
From Verif Require Import M_Num M_Run M_RK M_Midpoint S_RK S_BSeries S_Conv S_Midpoint P_R P_RK P_RKOrder P_Midpoint P_BSInd P_Neville P_Trees P_BSeries P_Butcher P_Extrap P_EvenPoly P_PolyQuad P_Gragg.
Import ListNotations.
Local Open Scope R_scope.
Local Ltac toR := match goal with |- @eq _ ?l ?r => change (@eq R l r) end.

(** ** Weights of the extrapolation. *)
Definition ew (s : nat -> R) (k m j : nat) : R := nv s (fun l => if (l =? j)%nat then 1 else 0) k m.
Lemma sum_delta K k (g : nat -> R) : (k <= K)%nat -> sumn (S K) (fun j => (if (k =? j)%nat then 1 else 0) * g j) = g k.
Proof.
  induction K as [|K IH]; intro Hk; rewrite sumn_S.
  - replace k with O by lia. unfold sumn. cbn. ring.
  - destruct (Nat.eq_dec k (S K)) as [->|Q].
    + rewrite Nat.eqb_refl. rewrite (sumn_ext (S K) _ (fun _ => 0 * 0)); [rewrite sumn_scale; ring|].
      intros j Hj. replace (S K =? j)%nat with false by (symmetry; apply Nat.eqb_neq; lia). ring.
    + rewrite IH by lia. replace (k =? S K)%nat with false by (symmetry; apply Nat.eqb_neq; lia). ring.
Qed.
Lemma nv_ew s K g : forall m k, (k <= K)%nat -> nv s g k m = sumn (S K) (fun j => ew s k m j * g j).
Proof.
  induction m as [|m IH]; intros k Hk; [symmetry; exact (sum_delta K k g Hk)|].
  cbn [nv]. rewrite (IH k), (IH (k - 1)%nat) by lia.
  set (a := s (k - 1 - m)%nat). set (b := s k).
  rewrite (sumn_ext (S K) (fun j => ew s k (S m) j * g j) (fun j => (a / (a - b)) * (ew s k m j * g j) + (- b / (a - b)) * (ew s (k - 1) m j * g j))).
  - rewrite sumn_plus, !sumn_scale. unfold Rdiv. ring.
  - intros j _. unfold ew. cbn [nv]. fold a b. unfold Rdiv. ring.
Qed.

(** ** The method. *)
Section Num.
Variable eps : R.
Notation NN := (RNum eps).
Variable p : nat.
Hypothesis Hp : (1 <= p)%nat.
Context {I : Type}.
Variables M H : R.
Hypothesis HM : 0 <= M.
Hypothesis HH : 0 <= H.

Record minst := mkM {
  mq : @inst (option I) p M H;
  mf : (I -> R) -> R -> (I -> R);
  my : R -> I -> R;
  mG : pG _ _ (ip _ _ _ mq) = autonomous mf;
  mY : py _ _ (ip _ _ _ mq) = (fun t => point (my t) t)
}.
Notation hh := (fun q => ih _ _ _ (mq q)).
Definition mz (n : nat) (q : minst) (m : nat) : I -> R :=
  gz (N := NN) (mf q) (my q (it _ _ _ (mq q))) (mf q (my q (it _ _ _ (mq q))) (it _ _ _ (mq q))) (it _ _ _ (mq q)) (ih _ _ _ (mq q) / INR n)%R m.
Definition mk_ (n m : nat) (q : minst) : option I -> R :=
  fun j => match j with None => 1 | Some i => mf q (mz n q m) (it _ _ _ (mq q) + INR m * (ih _ _ _ (mq q) / INR n)) i end.

Lemma mz_sum n q i : (1 <= n)%nat -> forall m, mz n q m i = my q (it _ _ _ (mq q)) i + ih _ _ _ (mq q) * sumn m (fun l => mma n m l * mk_ n l q (Some i)).
Proof.
  intro Hn. assert (Pn : INR n <> 0) by (apply not_0_INR; lia).
  intro m. enough (G : forall m, mz n q m i = my q (it _ _ _ (mq q)) i + ih _ _ _ (mq q) * sumn m (fun l => mma n m l * mk_ n l q (Some i))
    /\ mz n q (S m) i = my q (it _ _ _ (mq q)) i + ih _ _ _ (mq q) * sumn (S m) (fun l => mma n (S m) l * mk_ n l q (Some i))) by apply G.
  clear m. induction m as [|m [IH1 IH2]].
  - split; [unfold mz, gz, sumn; cbn; ring|]. rewrite (row_1 n (fun l => mk_ n l q (Some i))). unfold mk_, mz, gz. cbn [gpair fst INR nadd nmul nofZ RNum].
    replace (it p M H (mq q) + 0 * (ih p M H (mq q) / INR n)) with (it p M H (mq q)) by ring. toR. field. exact Pn.
  - split; [exact IH2|]. rewrite (row_SS n m (fun l => mk_ n l q (Some i))). 
    unfold mz at 1. rewrite gz_SS. fold (mz n q m) (mz n q (S m)). rewrite gth_R. cbn [nadd nmul nofZ RNum]. rewrite IH1. unfold mk_ at 3.
    toR. field. exact Pn.
Qed.

Lemma mstage n : (1 <= n)%nat -> forall i q j, (i < S n)%nat ->
  mk_ n i q j = G p M H (mq q) (fun j' => hh q * sumn i (fun m => mma n i m * mk_ n m q j')) j.
Proof.
  intros Hn i q j _. unfold G. rewrite mG, mY. destruct j as [j|]; [|reflexivity]. cbn [autonomous point mk_].
  f_equal; [f_equal|].
  - extensionality i0. apply (mz_sum n q i0 Hn).
  - rewrite (row_sum n i Hn). unfold Rdiv. ring.
Qed.

Lemma mseries n : (1 <= n)%nat -> big hh (S p) (fun q j => hh q * sumn (S n) (fun m => wS n m * mk_ n m q j)
  - series hh (fun q => D p M H (mq q)) p (fun t => sumn (S n) (fun m => wS n m * ph (mma n) t m)) q j).
Proof.
  intro Hn. exact (weigh hh H (fun q => i3 _ _ _ (mq q)) HH p M HM (fun q => G p M H (mq q)) (fun q => D p M H (mq q))
    (fun q => Dlin p M H (mq q)) (fun q => Dbnd p M H (mq q)) (fun q => Drem p M H (mq q)) (S n) (mma n) (mk_ n) Hp (mstage n Hn) p (le_n _) (S n) (wS n) (le_n _)).
Qed.

Lemma mm_val_sum n q i : (1 <= n)%nat ->
  mm_val (N := NN) (mf q) n (my q (it _ _ _ (mq q))) (mf q (my q (it _ _ _ (mq q))) (it _ _ _ (mq q))) (it _ _ _ (mq q)) (ih _ _ _ (mq q)) i
  = my q (it _ _ _ (mq q)) i + ih _ _ _ (mq q) * sumn (S n) (fun m => wS n m * mk_ n m q (Some i)).
Proof.
  intro Hn. unfold mm_val, smoothed. rewrite nofnat_R. cbn [ndiv RNum]. fold (mz n q (n - 1)) (mz n q n). rewrite gth_R.
  rewrite !(mz_sum n q i Hn). rewrite (wS_sum n (fun m => mk_ n m q (Some i)) Hn). cbn [nadd nmul nofZ RNum].
  change (mk_ n n q (Some i)) with (mf q (mz n q n) (it _ _ _ (mq q) + INR n * (ih _ _ _ (mq q) / INR n)) i). toR. field. apply not_0_INR. lia.
Qed.

Section Extra.
Variable sq : nat -> nat.
Variable K : nat.
Hypothesis Hq : forall i j, (i < j <= K)%nat -> (0 < sq i < sq j)%nat.
Hypothesis Hq1 : forall i, (i <= K)%nat -> (1 <= sq i)%nat.
Variables k m : nat.
Hypothesis Hkm : (m <= k <= K)%nat.
Notation s := (hsq sq 1).
(** The weights of the trees come out right. *)
Hypothesis Hw : forall t, (tsize t <= p)%nat ->
  sumn (S K) (fun j => ew s k m j * sumn (S (sq j)) (fun l => wS (sq j) l * ph (mma (sq j)) t l)) = / IZR (gamma t).

Lemma xseries : big hh (S p) (fun q j => hh q * sumn (S K) (fun l => ew s k m l * sumn (S (sq l)) (fun a => wS (sq l) a * mk_ (sq l) a q j))
  - series hh (fun q => D p M H (mq q)) p (fun t => / IZR (gamma t)) q j).
Proof.
  pose proof (big_sumn hh p Hp (S p) (S K) (fun l => ew s k m l) (fun l q j => hh q * sumn (S (sq l)) (fun a => wS (sq l) a * mk_ (sq l) a q j)
    - series hh (fun q => D p M H (mq q)) p (fun t => sumn (S (sq l)) (fun a => wS (sq l) a * ph (mma (sq l)) t a)) q j)) as B.
  eapply big_ext; [|apply B; intros l Hl; apply mseries, Hq1; lia]. intros q j. cbv beta.
  set (hq := ih p M H (mq q)).
  rewrite (sumn_ext (S K) _ (fun l => hq * (ew s k m l * sumn (S (sq l)) (fun a => wS (sq l) a * mk_ (sq l) a q j))
    + -1 * (ew s k m l * series hh (fun q => D p M H (mq q)) p (fun t => sumn (S (sq l)) (fun a => wS (sq l) a * ph (mma (sq l)) t a)) q j)))
    by (intros; ring).
  rewrite sumn_plus, !sumn_scale. unfold Rminus. f_equal.
  transitivity (-1 * series hh (fun q => D p M H (mq q)) p (fun t => / IZR (gamma t)) q j); [|ring]. f_equal.
  unfold series. rewrite <- lsum_sumn.
  rewrite (lsum_ext (seq 0 (S K)) _ (fun l => lsum (trees p) (fun t => ew s k m l * (hq ^ tsize t * (beta t * sumn (S (sq l)) (fun a => wS (sq l) a * ph (mma (sq l)) t a)) * elem (fun q => D p M H (mq q)) q t j))))
    by (intros l _; now rewrite lsum_scale).
  rewrite lsum_swap. apply lsum_ext. intros t Ht. apply in_trees in Ht.
  rewrite <- (Hw t Ht). rewrite <- lsum_sumn. 
  rewrite (lsum_ext _ _ (fun l => hq ^ tsize t * beta t * elem (fun q => D p M H (mq q)) q t j * (ew s k m l * sumn (S (sq l)) (fun a => wS (sq l) a * ph (mma (sq l)) t a)))) by (intros; ring).
  rewrite lsum_scale. fold hq. ring.
Qed.

Lemma ew_one : sumn (S K) (ew s k m) = 1.
Proof.
  transitivity (sumn (S K) (fun l => ew s k m l * 1)); [apply sumn_ext; intros; ring|].
  rewrite <- (nv_ew s K (fun _ => 1) m k) by lia.
  rewrite (nv_poly s K (hsq_distinct sq 1 ltac:(lra) K Hq) [1] m k (fun _ => 1)); [cbn; ring|lia|cbn; lia|]. intros; cbn; ring.
Qed.

Theorem gragg_consistent : exists E, 0 <= E /\ forall (f : (I -> R) -> R -> (I -> R)) y DD (T : R -> Prop),
  (forall s u c, T s -> T u -> 0 <= c <= 1 -> T (s + c * (u - s))) ->
  taylor p M (fun v => exists t, T t /\ v = point (y t) t) (autonomous f) DD -> solution T f y ->
  forall t h, T t -> T (t + h) -> Rabs h <= H ->
  forall i, Rabs (nev (N := NN) sq (fun l => mm_val (N := NN) f (sq l) (y t) (f (y t) t) t h) k m i - y (t + h) i) <= E * Rabs h ^ S p.
Proof.
  destruct xseries as (C1 & P1 & B1).
  destruct (exact_series (J := option I) p M H HM HH Hp p (le_n _)) as (C2 & P2 & B2).
  exists (C1 + C2). split; [lra|]. intros f y DD T Tc Tay Sol t h Ht Hth Hh i.
  assert (PS : forall t j, T t -> derivable_pt_lim (fun s => point (y s) s j) t (autonomous f (point (y t) t) j)).
  { intros u [j|] Hu; [exact (Sol u j Hu)|exact (derivable_pt_lim_id u)]. }
  set (P := mkProb p M T (autonomous f) DD (fun t => point (y t) t) Tc Tay PS).
  set (q := mkInst p M H P t h Ht Hth Hh).
  set (nn := mkM q f y eq_refl eq_refl). specialize (B1 nn (Some i)). specialize (B2 q (Some i)).
  set (Z := series (ih p M H) (D p M H) p (fun t0 => / IZR (gamma t0)) q (Some i)) in *.
  set (A := sumn (S K) (fun l => ew s k m l * sumn (S (sq l)) (fun a => wS (sq l) a * mk_ (sq l) a nn (Some i)))) in *.
  assert (E1 : nev (N := NN) sq (fun l => mm_val (N := NN) f (sq l) (y t) (f (y t) t) t h) k m i = y t i + h * A).
  { rewrite (nev_nv eps sq 1 ltac:(lra) K Hq _ i m k Hkm). rewrite (nv_ew s K _ m k) by lia.
    rewrite (sumn_ext (S K) _ (fun l => y t i * ew s k m l + h * (ew s k m l * sumn (S (sq l)) (fun a => wS (sq l) a * mk_ (sq l) a nn (Some i))))).
    - rewrite sumn_plus, !sumn_scale, ew_one. fold A. toR. ring.
    - intros l Hl. pose proof (mm_val_sum (sq l) nn i (Hq1 l ltac:(lia))) as E. cbn [mf my mq it ih q nn] in E. rewrite E. ring. }
  assert (B1' : Rabs (h * A - Z) <= C1 * Rabs h ^ S p) by exact B1.
  assert (B2' : Rabs (y (t + h) i - y t i - Z) <= C2 * Rabs h ^ S p) by exact B2.
  rewrite E1. replace (y t i + h * A - y (t + h) i) with ((h * A - Z) + - (y (t + h) i - y t i - Z)) by ring.
  eapply Rle_trans; [apply Rabs_triang|]. rewrite Rabs_Ropp. lra.
Qed.
End Extra.

(** Even numbers of sub-steps: column m has order 2m+2. *)
Theorem extrapolated (sq : nat -> nat) K k m : (forall i j, (i < j <= K)%nat -> (0 < sq i < sq j)%nat) ->
  (forall i, (i <= K)%nat -> (1 <= sq i)%nat /\ Nat.even (sq i) = true) -> (m <= k <= K)%nat -> (p <= 2 * m + 2)%nat ->
  exists E, 0 <= E /\ forall (f : (I -> R) -> R -> (I -> R)) y DD (T : R -> Prop),
  (forall s u c, T s -> T u -> 0 <= c <= 1 -> T (s + c * (u - s))) ->
  taylor p M (fun v => exists t, T t /\ v = point (y t) t) (autonomous f) DD -> solution T f y ->
  forall t h, T t -> T (t + h) -> Rabs h <= H ->
  forall i, Rabs (nev (N := NN) sq (fun l => mm_val (N := NN) f (sq l) (y t) (f (y t) t) t h) k m i - y (t + h) i) <= E * Rabs h ^ S p.
Proof.
  intros Hq He Hkm Hpm. apply gragg_consistent with K; [exact Hq|intros i Hi; apply He, Hi|exact Hkm|].
  intros t Ht. destruct (gragg_weight t) as (pl & L & Z & W).
  rewrite (sumn_ext (S K) _ (fun j => ew (hsq sq 1) k m j * peval pl (hsq sq 1 j))).
  - rewrite <- (nv_ew (hsq sq 1) K (fun j => peval pl (hsq sq 1 j)) m k) by lia.
    rewrite (nv_poly (hsq sq 1) K (hsq_distinct sq 1 ltac:(lra) K Hq) pl m k _ Hkm); [exact Z| |reflexivity].
    assert ((tsize t - 1) / 2 <= m)%nat; [|lia]. 
    assert (D2 : ((tsize t - 1) / 2 < m + 1)%nat) by (apply Nat.div_lt_upper_bound; lia). lia.
  - intros j Hj. destruct (He j ltac:(lia)) as [H1 H2]. f_equal. rewrite (W (sq j) H1 H2). f_equal. unfold hsq, Rdiv. f_equal. ring.
Qed.

(** Any number of sub-steps: order two. *)
Theorem midpoint_two n : (1 <= n)%nat -> (p <= 2)%nat ->
  exists E, 0 <= E /\ forall (f : (I -> R) -> R -> (I -> R)) y DD (T : R -> Prop),
  (forall s u c, T s -> T u -> 0 <= c <= 1 -> T (s + c * (u - s))) ->
  taylor p M (fun v => exists t, T t /\ v = point (y t) t) (autonomous f) DD -> solution T f y ->
  forall t h, T t -> T (t + h) -> Rabs h <= H ->
  forall i, Rabs (mm_val (N := NN) f n (y t) (f (y t) t) t h i - y (t + h) i) <= E * Rabs h ^ S p.
Proof.
  intros Hn Hp2. refine (gragg_consistent (fun _ => n) 0 ltac:(lia) (fun _ _ => Hn) 0 0 ltac:(lia) _).
  intros t Ht. unfold sumn at 1. cbn [seq map rsum fold_right ew nv Nat.eqb]. rewrite (gragg_two n t Hn ltac:(lia)). ring.
Qed.
End Num.

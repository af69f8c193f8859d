(** Series of the modified midpoint method: even in the number of sub-steps; extrapolation. *)
From Coq Require Import List Arith Bool ZArith Reals Lia Lra FunctionalExtensionality.
From Verif Require Import M_Num M_Run M_RK M_Midpoint S_RK S_BSeries S_Conv S_Midpoint P_R P_RK P_RKOrder P_Midpoint P_BSInd P_Neville P_Trees P_BSeries P_Butcher P_EvenPoly P_PolyQuad.
Import ListNotations.
Local Open Scope R_scope.

(** ** More about even polynomials. *)
Lemma ep_mult n m F G : ep n F -> ep m G -> ep (n + m) (fun x h => F x h * G x h).
Proof.
  intros E EG. induction E as [|c i l Hi|F F' _ IF _ IF'|F F' _ IF He].
  - refine (ep_ext _ _ _ (ep_zero _) _). intros; ring.
  - refine (ep_ext _ _ _ (ep_scale _ _ c (ep_shift m G i l (n + m) ltac:(lia) EG)) _). intros; ring.
  - refine (ep_ext _ _ _ (ep_add _ _ _ IF IF') _). intros; ring.
  - refine (ep_ext _ _ _ IF _). intros. now rewrite He.
Qed.
Lemma ep_at a n F : ep n F -> ep n (fun _ h => F a h).
Proof.
  intro E. induction E as [|c i l Hi|F F' _ IF _ IF'|F F' _ IF He].
  - apply ep_zero.
  - refine (ep_ext _ _ _ (ep_mono n (c * a ^ i) 0 l ltac:(lia)) _). intros; cbn [pow]; ring.
  - exact (ep_add _ _ _ IF IF').
  - refine (ep_ext _ _ _ IF _). intros. apply He.
Qed.
Lemma cdiff_shift F G (g : R -> R) : cdiff F G -> cdiff (fun x h => F x h + g h) G.
Proof.
  intros [A B]. split; [intros x h; specialize (A x h); lra|]. intro x. replace (G x 0) with (G x 0 + 0) by ring.
  apply (derivable_pt_lim_plus (fun z => F z 0) (fun _ => g 0)); [apply B|apply derivable_pt_lim_const].
Qed.

(** ** The tableau: row i of the midpoint sequence with n sub-steps. *)
Definition mma (n i m : nat) : R := if Nat.odd (i - m) then (if (m =? 0)%nat then 1 else 2) / INR n else 0.

Lemma row_0 n (g : nat -> R) : sumn 0 (fun m => mma n 0 m * g m) = 0. Proof. reflexivity. Qed.
Lemma row_1 n (g : nat -> R) : sumn 1 (fun m => mma n 1 m * g m) = / INR n * g O.
Proof. unfold sumn, mma. cbn. unfold Rdiv. ring. Qed.
Lemma row_SS n i (g : nat -> R) : sumn (S (S i)) (fun m => mma n (S (S i)) m * g m) = sumn i (fun m => mma n i m * g m) + 2 * / INR n * g (S i).
Proof.
  rewrite !sumn_S. rewrite (sumn_ext i _ (fun m => mma n i m * g m)).
  - assert (E1 : mma n (S (S i)) (S i) = 2 * / INR n) by (unfold mma; replace (S (S i) - S i)%nat with 1%nat by lia; reflexivity).
    assert (E2 : mma n (S (S i)) i = 0) by (unfold mma; replace (S (S i) - i)%nat with 2%nat by lia; reflexivity).
    rewrite E1, E2. ring.
  - intros m Hm. unfold mma. replace (S (S i) - m)%nat with (S (S (i - m))) by lia. reflexivity.
Qed.
Lemma row_sum n i : (1 <= n)%nat -> sumn i (fun m => mma n i m * 1) = INR i * / INR n.
Proof.
  intro Hn. enough (G : sumn i (fun m => mma n i m * 1) = INR i * / INR n /\ sumn (S i) (fun m => mma n (S i) m * 1) = INR (S i) * / INR n) by apply G.
  induction i as [|i [IH1 IH2]]; [split; [cbn; unfold sumn; cbn; ring|rewrite row_1; cbn; ring]|].
  split; [exact IH2|]. rewrite (row_SS n i (fun _ => 1)), IH1, !S_INR. ring.
Qed.

Definition psi (n i : nat) (t : tree) : R := sumn i (fun m => mma n i m * ph (mma n) t m).
Definition sel (i : nat) (E O : R -> R -> R) : R -> R -> R := if Nat.even i then E else O.

Definition fgood (cs : list tree) (FE FO : R -> R -> R) : Prop :=
  ep (tsum cs) FE /\ ep (tsum cs) FO
  /\ (forall x, FE x 0 = x ^ tsum cs * lprod cs (fun c => / IZR (gamma c)) /\ FO x 0 = x ^ tsum cs * lprod cs (fun c => / IZR (gamma c)))
  /\ forall n i, (1 <= n)%nat -> ph (mma n) (Node cs) i = sel i FE FO (INR i * / INR n) (/ INR n).
Definition tgood (t : tree) (E O : R -> R -> R) : Prop :=
  ep (tsize t) E /\ ep (tsize t) O
  /\ (forall x, E x 0 = x ^ tsize t * / IZR (gamma t) /\ O x 0 = x ^ tsize t * / IZR (gamma t))
  /\ (forall h, E 0 h = 0) /\ (forall h, O h h + O (- h) h = 0)
  /\ forall n i, (1 <= n)%nat -> psi n i t = sel i E O (INR i * / INR n) (/ INR n).

Lemma tree_step cs FE FO : fgood cs FE FO -> exists E O, tgood (Node cs) E O /\ cdiff E FO /\ cdiff O FE.
Proof.
  intros (E1 & E2 & Hx & Hp).
  destruct (ep_sum _ _ E2) as (Q & Q1 & Q2). destruct (ep_sum _ _ E1) as (P & P1 & P2).
  destruct (ep_cavg _ _ P1) as (A & A1 & A2 & A3).
  set (E := fun x h => Q x h + - Q 0 h). set (O := fun x h => P x h + - A 0 h).
  assert (DE : cdiff E FO) by (apply (cdiff_shift Q FO (fun h => - Q 0 h) Q2)).
  assert (DO : cdiff O FE) by (apply (cdiff_shift P FE (fun h => - A 0 h) P2)).
  assert (Z1 : forall h, E 0 h = 0) by (intro h; unfold E; ring).
  assert (Z2 : forall h, O h h + O (- h) h = 0).
  { intro h. unfold O. pose proof (A2 0 h) as B. rewrite Rplus_0_l, Rminus_0_l in B. lra. }
  exists E, O. split; [|split; assumption]. unfold tgood. rewrite tsize_node.
  split; [|split; [|split; [|split; [exact Z1|split; [exact Z2|]]]]].
  - apply ep_add; [exact Q1|]. refine (ep_ext _ _ _ (ep_scale _ _ (-1) (ep_at 0 _ _ Q1)) _). intros; ring.
  - apply ep_add; [exact P1|]. refine (ep_ext _ _ _ (ep_scale _ _ (-1) (ep_at 0 _ _ A1)) _). intros; ring.
  - assert (L : lprod cs (fun c => / IZR (gamma c)) = INR (S (tsum cs)) * / IZR (gamma (Node cs))).
    { pose proof (gamma_over (Node cs)) as Q0. rewrite tsize_node in Q0. rewrite Q0. reflexivity. }
    assert (DP : forall s, derivable_pt_lim (fun x => / IZR (gamma (Node cs)) * x ^ S (tsum cs)) s (s ^ tsum cs * lprod cs (fun c => / IZR (gamma c)))).
    { intro s. rewrite L. replace (s ^ tsum cs * (INR (S (tsum cs)) * / IZR (gamma (Node cs)))) with (/ IZR (gamma (Node cs)) * (INR (S (tsum cs)) * s ^ pred (S (tsum cs)))) by (cbn [pred]; ring).
      apply (derivable_pt_lim_scal (fun x => x ^ S (tsum cs))). apply derivable_pt_lim_pow. }
    intro x. split.
    + assert (D1 : forall s, derivable_pt_lim (fun x => E x 0) s (s ^ tsum cs * lprod cs (fun c => / IZR (gamma c)))).
      { intro s. rewrite <- (proj2 (Hx s)). apply (proj2 DE). }
      pose proof (same_deriv _ _ _ D1 DP 0 x) as B. cbv beta in B. rewrite Z1, pow_ne_zero in B by lia. lra.
    + assert (D1 : forall s, derivable_pt_lim (fun x => O x 0) s (s ^ tsum cs * lprod cs (fun c => / IZR (gamma c)))).
      { intro s. rewrite <- (proj1 (Hx s)). apply (proj2 DO). }
      pose proof (same_deriv _ _ _ D1 DP 0 x) as B. cbv beta in B. pose proof (Z2 0) as Z3. rewrite Ropp_0 in Z3.
      rewrite pow_ne_zero in B by lia. lra.
  - intros n i Hn. set (h := / INR n).
    enough (G : psi n i (Node cs) = sel i E O (INR i * h) h /\ psi n (S i) (Node cs) = sel (S i) E O (INR (S i) * h) h) by apply G.
    induction i as [|i [IH1 IH2]].
    + split; [unfold psi, sel; cbn [Nat.even INR]; rewrite Rmult_0_l, Z1; reflexivity|].
      unfold psi. rewrite row_1, (Hp n 0%nat Hn). unfold sel. cbn [Nat.even INR]. fold h. rewrite Rmult_0_l, Rmult_1_l.
      pose proof (proj1 DO 0 h) as B. rewrite Rplus_0_l, Rminus_0_l in B. specialize (Z2 h). lra.
    + split; [exact IH2|]. unfold psi. rewrite row_SS. fold (psi n i (Node cs)). rewrite IH1, (Hp n (S i) Hn). fold h.
      assert (X1 : INR (S (S i)) * h = INR (S i) * h + h) by (rewrite (S_INR (S i)); ring).
      assert (X2 : INR i * h = INR (S i) * h - h) by (rewrite (S_INR i); ring).
      rewrite X1, X2. unfold sel. change (Nat.even (S (S i))) with (Nat.even i). rewrite (Nat.even_succ i), <- Nat.negb_even.
      destruct (Nat.even i); cbn [negb].
      * pose proof (proj1 DE (INR (S i) * h) h) as B. clearbody h. clear -B. lra.
      * pose proof (proj1 DO (INR (S i) * h) h) as B. clearbody h. clear -B. lra.
Qed.

Lemma forest_good : forall cs, exists FE FO, fgood cs FE FO.
Proof.
  apply (forest_ind (fun cs => exists FE FO, fgood cs FE FO)).
  - exists (fun _ _ => 1), (fun _ _ => 1). assert (Z : ep 0 (fun _ _ => 1)) by (refine (ep_ext _ _ _ (ep_mono 0 1 0 0 ltac:(lia)) _); intros; cbn; ring).
    split; [exact Z|]. split; [exact Z|]. split; [intro x; cbn; split; ring|]. intros n i Hn. unfold sel. now destruct (Nat.even i).
  - intros cs r (FE & FO & H1) (GE & GO & H2).
    destruct (tree_step cs FE FO H1) as (E & O & (T1 & T2 & T3 & _ & _ & T4) & _). destruct H2 as (G1 & G2 & G3 & G4).
    exists (fun x h => E x h * GE x h), (fun x h => O x h * GO x h). unfold fgood.
    change (tsum (Node cs :: r)) with (tsize (Node cs) + tsum r)%nat.
    split; [now apply ep_mult|]. split; [now apply ep_mult|]. split.
    + intro x. rewrite lprod_cons, pow_add. destruct (T3 x) as [-> ->]. destruct (G3 x) as [-> ->]. split; ring.
    + intros n i Hn. cbn [ph fold_right]. specialize (T4 n i Hn). specialize (G4 n i Hn). cbn [ph] in G4. rewrite G4.
      unfold psi in T4. cbn [ph] in T4. rewrite T4. unfold sel. now destruct (Nat.even i).
Qed.

(** The weights of the result. *)
Definition wS (n m : nat) : R := / 2 * ((if (m <? n - 1)%nat then mma n (n - 1) m else 0) + (if (m <? n)%nat then mma n n m else 0) + (if (m =? n)%nat then / INR n else 0)).
Lemma sum_cut (a b : nat) (g : nat -> R) : (a <= b)%nat -> sumn b (fun m => if (m <? a)%nat then g m else 0) = sumn a g.
Proof.
  induction b as [|b IH]; intro H; [replace a with O by lia; reflexivity|]. rewrite sumn_S.
  destruct (Nat.eq_dec a (S b)) as [->|Q].
  - rewrite sumn_S. replace (b <? S b)%nat with true by (symmetry; apply Nat.ltb_lt; lia). f_equal. apply sumn_ext. intros m Hm.
    replace (m <? S b)%nat with true by (symmetry; apply Nat.ltb_lt; lia). reflexivity.
  - rewrite IH by lia. replace (b <? a)%nat with false by (symmetry; apply Nat.ltb_ge; lia). ring.
Qed.
Lemma wS_sum n (g : nat -> R) : (1 <= n)%nat -> sumn (S n) (fun m => wS n m * g m)
  = / 2 * (sumn (n - 1) (fun m => mma n (n - 1) m * g m) + sumn n (fun m => mma n n m * g m) + / INR n * g n).
Proof.
  intro Hn. rewrite <- (sum_cut (n - 1) (S n)) by lia. rewrite <- (sum_cut n (S n) (fun m => mma n n m * g m)) by lia.
  replace (/ INR n * g n) with (sumn (S n) (fun m => if (m =? n)%nat then / INR n * g m else 0)).
  - rewrite <- !sumn_plus, <- sumn_scale. apply sumn_ext. intros m _. unfold wS.
    destruct (m <? n - 1)%nat, (m <? n)%nat, (m =? n)%nat; ring.
  - rewrite sumn_S, Nat.eqb_refl. rewrite (sumn_ext n _ (fun _ => 0 * 0)).
    + rewrite sumn_scale. ring.
    + intros m Hm. replace (m =? n)%nat with false by (symmetry; apply Nat.eqb_neq; lia). ring.
Qed.

(** For an even number of sub-steps the weight of a tree is a polynomial in 1/n^2 with 1/gamma as value at zero. *)
Theorem gragg_weight t : exists p, (length p <= S ((tsize t - 1) / 2))%nat /\ peval p 0 = / IZR (gamma t)
  /\ forall n, (1 <= n)%nat -> Nat.even n = true -> sumn (S n) (fun m => wS n m * ph (mma n) t m) = peval p (Rsqr (/ INR n)).
Proof.
  destruct t as [cs]. destruct (forest_good cs) as (FE & FO & F). pose proof F as (_ & _ & _ & Hph).
  destruct (tree_step cs FE FO F) as (E & O & (T1 & T2 & T3 & T4 & T5 & T6) & DE & DO).
  destruct (ep_cavg _ _ T2) as (A & A1 & A2 & A3).
  set (W := fun x h => / 2 * (E x h + A x h)).
  assert (EW : ep (S (tsum cs)) W) by (rewrite <- (tsize_node cs); apply ep_scale, ep_add; assumption).
  destruct (ep_eval_diff (tsum cs) W 1 0 EW) as (p & Lp & Ep). exists p.
  assert (W0 : forall h, W 0 h = 0).
  { intro h. unfold W. rewrite T4. pose proof (A2 0 h) as B. rewrite Rplus_0_l, Rminus_0_l in B. rewrite T5 in B. lra. }
  split; [rewrite tsize_node; replace (S (tsum cs) - 1)%nat with (tsum cs) by lia; exact Lp|]. split.
  - replace 0 with (Rsqr 0) by (unfold Rsqr; ring). rewrite <- Ep, W0. unfold W. rewrite A3. destruct (T3 1) as [-> ->]. rewrite pow1. lra.
  - intros n Hn Hev. rewrite <- Ep, W0. rewrite wS_sum by exact Hn. fold (psi n (n - 1) (Node cs)) (psi n n (Node cs)).
    rewrite !T6 by exact Hn. rewrite (Hph n n Hn). unfold sel. rewrite Hev.
    replace (Nat.even (n - 1)) with false.
    2:{ destruct n as [|n]; [lia|]. replace (S n - 1)%nat with n by lia. rewrite Nat.even_succ in Hev. rewrite <- Nat.negb_odd, Hev. reflexivity. }
    assert (Pn : INR n <> 0) by (apply not_0_INR; lia). set (h := / INR n).
    assert (X1 : INR n * h = 1) by (unfold h; field; exact Pn). rewrite X1.
    assert (X2 : INR (n - 1) * h = 1 - h) by (rewrite minus_INR by lia; cbn [INR]; unfold h; field; exact Pn). rewrite X2.
    unfold W. pose proof (proj1 DO 1 h). pose proof (A2 1 h). lra.
Qed.

(** Order two for every number of sub-steps. *)
Lemma psi_leaf n i : (1 <= n)%nat -> psi n i (Node []) = INR i * / INR n.
Proof. intro Hn. unfold psi. rewrite <- (row_sum n i Hn). apply sumn_ext. intros. reflexivity. Qed.
Lemma psi_two n i : (1 <= n)%nat -> psi n i (Node [Node []]) = (Rsqr (INR i * / INR n) - (if Nat.even i then 0 else Rsqr (/ INR n))) / 2.
Proof.
  intro Hn. assert (P : forall k, ph (mma n) (Node [Node []]) k = INR k * / INR n).
  { intro k. cbn [ph fold_right]. rewrite Rmult_1_r. exact (psi_leaf n k Hn). }
  enough (G : psi n i (Node [Node []]) = (Rsqr (INR i * / INR n) - (if Nat.even i then 0 else Rsqr (/ INR n))) / 2
     /\ psi n (S i) (Node [Node []]) = (Rsqr (INR (S i) * / INR n) - (if Nat.even (S i) then 0 else Rsqr (/ INR n))) / 2) by apply G.
  induction i as [|i [IH1 IH2]].
  - split; [unfold psi, sumn, Rsqr; cbn; lra|]. unfold psi. rewrite row_1, P. unfold Rsqr. cbn. lra.
  - split; [exact IH2|]. unfold psi. rewrite row_SS. fold (psi n i (Node [Node []])). rewrite IH1, P.
    change (Nat.even (S (S i))) with (Nat.even i). destruct (Nat.even i); unfold Rsqr; rewrite !S_INR; field; apply not_0_INR; lia.
Qed.
Lemma gragg_two n t : (1 <= n)%nat -> (tsize t <= 2)%nat -> sumn (S n) (fun m => wS n m * ph (mma n) t m) = / IZR (gamma t).
Proof.
  intros Hn Ht. rewrite wS_sum by exact Hn. fold (psi n (n - 1) t) (psi n n t).
  assert (Pn : INR n <> 0) by (apply not_0_INR; lia).
  assert (X2 : INR (n - 1) = INR n - 1) by (rewrite minus_INR by lia; reflexivity).
  destruct t as [cs]. destruct cs as [|[cs1] cs].
  - rewrite !psi_leaf by exact Hn. rewrite X2. cbn. field. exact Pn.
  - rewrite tsize_node in Ht. cbn [tsum fold_right] in Ht. fold (tsum cs) in Ht. rewrite tsize_node in Ht.
    assert (cs = []) by (destruct cs as [|[u] cs]; [reflexivity|cbn [tsum fold_right] in Ht; rewrite tsize_node in Ht; lia]). subst cs.
    assert (cs1 = []) by (destruct cs1 as [|[u] cs1]; [reflexivity|cbn [tsum fold_right] in Ht; rewrite tsize_node in Ht; lia]). subst cs1.
    rewrite !psi_two by exact Hn. cbn [ph fold_right]. rewrite Rmult_1_r. fold (psi n n (Node [])).
    change (sumn n (fun m : nat => mma n n m * 1)) with (psi n n (Node [])). rewrite psi_leaf by exact Hn. rewrite X2.
    replace (IZR (gamma (Node [Node []]))) with 2 by reflexivity.
    destruct n as [|n]; [lia|]. replace (S n - 1)%nat with n by lia. rewrite Nat.even_succ, <- Nat.negb_even. unfold Rsqr.
    destruct (Nat.even n); cbn [negb]; field; exact Pn.
Qed.

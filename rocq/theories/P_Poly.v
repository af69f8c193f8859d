(** Polynomials, Taylor shift, and exactness of quadrature rules whose moments
    are right. *)
From Coq Require Import ZArith List Bool Lia Arith Reals Lra.
From Verif Require Import M_Num M_RK S_RK.
Import ListNotations.
Local Open Scope R_scope.

Fixpoint padd (p q : list R) : list R :=
  match p, q with
  | [], _ => q
  | _, [] => p
  | a :: p', b :: q' => a + b :: padd p' q'
  end.

Lemma peval_padd : forall p q s, peval (padd p q) s = peval p s + peval q s.
Proof.
  induction p as [|a p IH]; intros [|b q] s; simpl; try ring. rewrite IH. ring.
Qed.
Lemma peval_scale : forall c p s, peval (map (Rmult c) p) s = c * peval p s.
Proof. induction p; intros; simpl; [ring|rewrite IHp; ring]. Qed.

Lemma pder_from_S : forall p k s, peval (pder_from (S k) p) s = peval (pder_from k p) s + peval p s.
Proof.
  induction p as [|a p IH]; intros k s; cbn [pder_from peval]; [ring|].
  rewrite IH, S_INR. ring.
Qed.
Lemma pder_cons : forall a p s, peval (pder (a :: p)) s = peval p s + s * peval (pder p) s.
Proof.
  intros a p s. unfold pder at 1. rewrite pder_from_S. destruct p as [|b q]; simpl; ring.
Qed.
Lemma pder_from_padd : forall p q k s,
  peval (pder_from k (padd p q)) s = peval (pder_from k p) s + peval (pder_from k q) s.
Proof.
  induction p as [|a p IH]; intros [|b q] k s; cbn [padd pder_from peval]; try ring.
  rewrite IH. ring.
Qed.
Lemma pder_padd : forall p q s, peval (pder (padd p q)) s = peval (pder p) s + peval (pder q) s.
Proof.
  intros [|a p] [|b q] s; simpl padd; unfold pder; try (simpl; ring). apply pder_from_padd.
Qed.
Lemma pder_from_scale : forall c p k s,
  peval (pder_from k (map (Rmult c) p)) s = c * peval (pder_from k p) s.
Proof.
  induction p as [|a p IH]; intros k s; cbn [map pder_from peval]; [ring|]. rewrite IH. ring.
Qed.
Lemma pder_scale : forall c p s, peval (pder (map (Rmult c) p)) s = c * peval (pder p) s.
Proof. intros c [|a p] s; simpl map; unfold pder; [simpl; ring|]. apply pder_from_scale. Qed.

(** The polynomial [s |-> p(t+s)]. *)
Fixpoint tshift (t : R) (p : list R) : list R :=
  match p with
  | [] => []
  | a :: p' => let e := tshift t p' in padd (a :: e) (map (Rmult t) e)
  end.

Lemma padd_length : forall p q, length (padd p q) = Nat.max (length p) (length q).
Proof. induction p; intros [|b q]; simpl; auto. Qed.
Lemma tshift_length : forall t p, length (tshift t p) = length p.
Proof.
  induction p; cbn [tshift]; auto. cbv zeta. rewrite padd_length.
  simpl length. rewrite map_length, IHp. lia.
Qed.
Lemma tshift_eval : forall t p s, peval (tshift t p) s = peval p (t + s).
Proof.
  induction p as [|a p IH]; intros s; cbn [tshift]; [reflexivity|]. cbv zeta.
  rewrite peval_padd, peval_scale. cbn [peval]. rewrite IH. ring.
Qed.
Lemma tshift_der : forall t p s, peval (pder (tshift t p)) s = peval (pder p) (t + s).
Proof.
  induction p as [|a p IH]; intros s; cbn [tshift]; [reflexivity|]. cbv zeta.
  rewrite pder_padd, pder_scale, !pder_cons, tshift_eval, IH. ring.
Qed.

(** [sum_i w_i g(theta_i)]. *)
Definition qsum (w th : list R) (g : R -> R) : R :=
  rsum (map (fun p => fst p * g (snd p)) (combine w th)).

Lemma qsum_ext : forall w th g h, (forall z, g z = h z) -> qsum w th g = qsum w th h.
Proof. intros. unfold qsum. f_equal. apply map_ext. intros; now rewrite H. Qed.
Lemma qsum_plus : forall w th g h, qsum w th (fun z => g z + h z) = qsum w th g + qsum w th h.
Proof.
  unfold qsum. induction w as [|a w IH]; intros [|z th] g h; simpl; try ring. rewrite IH. ring.
Qed.
Lemma qsum_scale : forall w th c g, qsum w th (fun z => c * g z) = c * qsum w th g.
Proof.
  unfold qsum. induction w as [|a w IH]; intros [|z th] c g; simpl; try ring. rewrite IH. ring.
Qed.

(** The rule integrates [s^k] on [0,1] exactly, for all k < n. *)
Definition moments (w th : list R) (n : nat) : Prop :=
  forall k, (k < n)%nat -> qsum w th (fun z => z ^ k) = / INR (S k).

Lemma quad_from : forall w th n dt, moments w th n -> forall q k, (k + length q <= n)%nat ->
  dt * qsum w th (fun z => (z * dt) ^ k * peval (pder_from (S k) q) (z * dt))
  = dt ^ (S k) * peval q dt.
Proof.
  intros w th n dt Hm. induction q as [|a q IH]; intros k Hk.
  - cbn [pder_from peval].
    rewrite (qsum_ext _ _ _ (fun z => 0 * 0)) by (intro; ring). rewrite qsum_scale. ring.
  - simpl in Hk. cbn [pder_from peval].
    rewrite (qsum_ext _ _ _ (fun z => (INR (S k) * a * dt ^ k) * z ^ k
               + (z * dt) ^ (S k) * peval (pder_from (S (S k)) q) (z * dt))).
    2: { intro z. rewrite Rpow_mult_distr. cbn [pow]. rewrite Rpow_mult_distr. ring. }
    rewrite qsum_plus, qsum_scale, Rmult_plus_distr_l, (IH (S k)) by lia.
    rewrite Hm by lia. cbn [pow]. field. apply not_0_INR. lia.
Qed.

Lemma peval_0 : forall p, peval p 0 = match p with [] => 0 | a :: _ => a end.
Proof. destruct p; simpl; ring. Qed.

Theorem quadrature_exact : forall w th n, moments w th n ->
  forall P, (length P <= S n)%nat -> forall t dt,
  dt * qsum w th (fun z => peval (pder P) (t + z * dt)) = peval P (t + dt) - peval P t.
Proof.
  intros w th n Hm P HP t dt.
  set (e := tshift t P).
  rewrite (qsum_ext _ _ _ (fun z => (z * dt) ^ 0 * peval (pder e) (z * dt)))
    by (intro z; unfold e; rewrite tshift_der; simpl; ring).
  rewrite <- (tshift_eval t P dt). replace (peval P t) with (peval e 0)
    by (unfold e; rewrite tshift_eval, Rplus_0_r; reflexivity).
  fold e. assert (He : (length e <= S n)%nat) by (unfold e; now rewrite tshift_length).
  destruct e as [|a q].
  - cbn [pder peval]. rewrite (qsum_ext _ _ _ (fun z => 0 * 0)) by (intro; simpl; ring).
    rewrite qsum_scale. ring.
  - unfold pder. rewrite (quad_from w th n dt Hm q 0) by (simpl in *; lia).
    rewrite peval_0. cbn [pow peval]. ring.
Qed.

(** [pder] is the derivative. *)
Lemma peval_derivable : forall p s, derivable_pt_lim (peval p) s (peval (pder p) s).
Proof.
  induction p as [|a p IH]; intro s.
  - apply (derivable_pt_lim_const 0 s).
  - rewrite pder_cons.
    replace (peval p s + s * peval (pder p) s) with (0 + (1 * peval p s + s * peval (pder p) s)) by ring.
    apply (derivable_pt_lim_plus (fun _ => a) (fun z => z * peval p z)).
    + apply derivable_pt_lim_const.
    + apply (derivable_pt_lim_mult id (peval p) s 1 (peval (pder p) s)).
      * apply derivable_pt_lim_id.
      * apply IH.
Qed.

(** Adams formulas over the reals. *)
From Coq Require Import ZArith List Bool Arith Lia Reals Lra.
From Verif Require Import M_Num M_Run M_RK M_Midpoint M_Adams S_RK S_Adams P_R P_Poly P_Adams.
Import ListNotations.
Local Open Scope R_scope.

Section R.
Variable eps : R.
Notation NN := (RNum eps).
Context {I : Type}.

Lemma lmm_R (dt : R) (coef : list R) (x : I -> R) ds i :
  lmm (N := NN) dt coef x ds i = x i + dt * rsum (map (fun p => fst p * snd p i) (combine coef ds)).
Proof.
  unfold lmm. rnum.
  assert (G : forall l a, fold_left (fun (a : R) (p : R * (I -> R)) => a + dt * fst p * snd p i) l a = a + dt * rsum (map (fun p => fst p * snd p i) l)).
  { induction l as [|p l IH]; intro a; cbn [fold_left map]; [cbn; ring|]. rewrite IH. unfold rsum. cbn [fold_right]. ring. }
  etransitivity; [apply G|]. ring.
Qed.

(** The nodes 0,-1,..,-(k-1) and 1,0,..,2-k. *)
Definition ab_nodes (k : nat) : list R := map (fun i => - INR i) (seq 0 k).
Definition am_nodes (k : nat) : list R := map (fun i => 1 - INR i) (seq 0 k).

Lemma ab_moments k : (1 <= k <= 8)%nat -> moments (ab_coef (N := NN) k) (ab_nodes k) k.
Proof.
  intros Hk j Hj. assert (K : (k = 1 \/ k = 2 \/ k = 3 \/ k = 4 \/ k = 5 \/ k = 6 \/ k = 7 \/ k = 8)%nat) by lia.
  assert (J : (j = 0 \/ j = 1 \/ j = 2 \/ j = 3 \/ j = 4 \/ j = 5 \/ j = 6 \/ j = 7)%nat) by lia.
  clear Hk. unfold qsum, ab_nodes, ab_coef, nfrac, nfrac_neg, rsum.
  repeat destruct K as [K|K]; subst k; repeat destruct J as [J|J]; subst j; try lia; rnum;
    cbn [seq map combine fold_right fst snd]; simpl (INR _); simpl (_ ^ _); lra.
Qed.
Lemma am_moments k : (1 <= k <= 8)%nat -> moments (am_coef (N := NN) k) (am_nodes k) k.
Proof.
  intros Hk j Hj. assert (K : (k = 1 \/ k = 2 \/ k = 3 \/ k = 4 \/ k = 5 \/ k = 6 \/ k = 7 \/ k = 8)%nat) by lia.
  assert (J : (j = 0 \/ j = 1 \/ j = 2 \/ j = 3 \/ j = 4 \/ j = 5 \/ j = 6 \/ j = 7)%nat) by lia.
  clear Hk. unfold qsum, am_nodes, am_coef, nfrac, nfrac_neg, rsum.
  repeat destruct K as [K|K]; subst k; repeat destruct J as [J|J]; subst j; try lia; rnum;
    cbn [seq map combine fold_right fst snd]; simpl (INR _); simpl (_ ^ _); lra.
Qed.
(** The k-th moment of the Moulton weights is wrong. *)
Lemma am_moment_k k : (1 <= k <= 8)%nat -> qsum (am_coef (N := NN) k) (am_nodes k) (fun z => z ^ k) <> / INR (S k).
Proof.
  intros Hk. assert (K : (k = 1 \/ k = 2 \/ k = 3 \/ k = 4 \/ k = 5 \/ k = 6 \/ k = 7 \/ k = 8)%nat) by lia.
  clear Hk. unfold qsum, am_nodes, am_coef, nfrac, nfrac_neg, rsum.
  repeat destruct K as [K|K]; subst k; rnum;
    cbn [seq map combine fold_right fst snd]; simpl (INR _); simpl (_ ^ _); lra.
Qed.
Lemma ab_coef_length k : (1 <= k <= 8)%nat -> length (ab_coef (N := NN) k) = k.
Proof. intro H. do 9 (destruct k as [|k]; [try lia; reflexivity|]). lia. Qed.
Lemma am_coef_length k : (1 <= k <= 8)%nat -> length (am_coef (N := NN) k) = k.
Proof. intro H. do 9 (destruct k as [|k]; [try lia; reflexivity|]). lia. Qed.

(** A formula applied to samples of a function. *)
Lemma rule_samples (w th : list R) (g : R -> R) : forall (ds : list (I -> R)) i, length ds = length th ->
  (forall j z d, nth_error th j = Some z -> nth_error ds j = Some d -> d i = g z) ->
  rsum (map (fun p => fst p * snd p i) (combine w ds)) = qsum w th g.
Proof.
  unfold qsum. revert th. induction w as [|a w IH]; intros [|z th] [|d ds] i L H; cbn [combine map]; try reflexivity; try discriminate L.
  unfold rsum in *. cbn [fold_right fst snd]. rewrite (IH th ds i).
  - f_equal. f_equal. exact (H 0%nat z d eq_refl eq_refl).
  - now injection L.
  - intros j z' d' H1 H2. exact (H (S j) z' d' H1 H2).
Qed.

Lemma rule_exact (w th : list R) k P (t dt : R) (ds : list (I -> R)) (x : I -> R) i : moments w th k -> (length P <= S k)%nat -> length ds = length th ->
  (forall j z d, nth_error th j = Some z -> nth_error ds j = Some d -> d i = peval (pder P) (t + z * dt)) ->
  lmm (N := NN) dt w x ds i = x i + (peval P (t + dt) - peval P t).
Proof.
  intros M HP L H. refine (eq_trans (lmm_R dt w x ds i) _). apply f_equal.
  refine (eq_trans (f_equal (Rmult dt) (rule_samples w th (fun z => peval (pder P) (t + z * dt)) ds i L H)) _).
  exact (quadrature_exact w th k M P HP t dt).
Qed.

Lemma nth_error_nodes (h : nat -> R) k j z : nth_error (map h (seq 0 k)) j = Some z -> (j < k)%nat /\ z = h j.
Proof.
  intro H. assert (L : (j < k)%nat). { assert (Q : nth_error (map h (seq 0 k)) j <> None) by congruence. apply nth_error_Some in Q. rewrite map_length, seq_length in Q. exact Q. }
  split; [exact L|]. rewrite (map_nth_error h j (seq 0 k) (d := j)) in H; [now injection H|].
  rewrite (nth_error_nth' _ 0%nat) by (rewrite seq_length; exact L). now rewrite seq_nth by exact L.
Qed.
End R.

Lemma nth_error_firstn_lt {A} (l : list A) : forall n j, (j < n)%nat -> nth_error (firstn n l) j = nth_error l j.
Proof. induction l as [|a l IH]; intros [|n] [|j] H; try lia; try reflexivity. cbn. apply IH. lia. Qed.

(** Exactness of single steps and of runs. *)
Section Exact.
Variable eps : R.
Notation NN := (RNum eps).
Context {I IS : Type}.
Variable k : nat.
Hypothesis Hk : (1 <= k <= 8)%nat.
Variable P : I -> list R.
Hypothesis HP : forall i, (length (P i) <= S k)%nat.

(** [l] are samples of P' at t-dt, t-2dt, ... *)
Definition samples (l : list (I -> R)) (t dt : R) : Prop :=
  forall j d, nth_error l j = Some d -> forall i, d i = peval (pder (P i)) (t - INR (S j) * dt).

Lemma ab_exact l t dt (x dx : I -> R) i : samples l t dt -> (k - 1 <= length l)%nat -> dx i = peval (pder (P i)) t ->
  lmm (N := NN) dt (ab_coef (N := NN) k) x (dx :: firstn (k - 1) l) i = x i + (peval (P i) (t + dt) - peval (P i) t).
Proof.
  intros Hl L Hd. apply (rule_exact eps _ (ab_nodes k) k); [now apply ab_moments|apply HP| |].
  - unfold ab_nodes. rewrite map_length, seq_length. cbn [length]. rewrite firstn_length. lia.
  - intros j z d Hz Hj. apply nth_error_nodes in Hz. destruct Hz as [Lj ->]. destruct j as [|j].
    + cbn in Hj. injection Hj as <-. rewrite Hd. f_equal. cbn [INR]. ring.
    + cbn [nth_error] in Hj. assert (Hj' : nth_error l j = Some d).
      { rewrite <- Hj. rewrite nth_error_firstn_lt by lia. reflexivity. }
      rewrite (Hl j d Hj' i). f_equal. ring.
Qed.
Lemma am_exact l t dt (x dx dx1 : I -> R) i : samples l t dt -> (k - 1 <= length l)%nat -> dx i = peval (pder (P i)) t ->
  dx1 i = peval (pder (P i)) (t + dt) ->
  lmm (N := NN) dt (am_coef (N := NN) k) x (dx1 :: firstn (k - 1) (dx :: l)) i = x i + (peval (P i) (t + dt) - peval (P i) t).
Proof.
  intros Hl L Hd Hd1. apply (rule_exact eps _ (am_nodes k) k); [now apply am_moments|apply HP| |].
  - unfold am_nodes. rewrite map_length, seq_length. cbn [length]. rewrite firstn_length. cbn [length]. lia.
  - intros j z d Hz Hj. apply nth_error_nodes in Hz. destruct Hz as [Lj ->]. destruct j as [|j].
    + cbn in Hj. injection Hj as <-. rewrite Hd1. f_equal. cbn [INR]. ring.
    + cbn [nth_error] in Hj. assert (Hj' : nth_error (dx :: l) j = Some d).
      { rewrite <- Hj. rewrite nth_error_firstn_lt by lia. reflexivity. }
      destruct j as [|j].
      * cbn in Hj'. injection Hj' as <-. rewrite Hd. f_equal. cbn [INR]. ring.
      * cbn [nth_error] in Hj'. rewrite (Hl j d Hj' i). f_equal. rewrite !S_INR. ring.
Qed.

Variable sys : (I -> R) -> R -> (I -> R).
Hypothesis Hsol : forall x s, (forall i, x i = peval (P i) s) -> forall i, sys x s i = peval (pder (P i)) s.
Variable istep : ((I -> R) -> R -> (I -> R)) -> IS -> bool -> (I -> R) -> (I -> R) -> R -> R -> res (IS * (I -> R)).
Variable dt : R.
Hypothesis Hist : forall is io x t, (forall i, x i = peval (P i) t) ->
  exists is' out, istep sys is io x (sys x t) t dt = Ok (is', out) /\ forall i, out i = peval (P i) (t + dt).

Lemma samples_cons l t dx : samples l t dt -> (forall i, dx i = peval (pder (P i)) t) -> samples (dx :: l) (t + dt) dt.
Proof.
  intros Hl Hd [|j] d Hj i; cbn [nth_error] in Hj.
  - injection Hj as <-. rewrite Hd. f_equal. cbn [INR]. ring.
  - rewrite (Hl j d Hj i). f_equal. rewrite !S_INR. ring.
Qed.

Lemma ab_run_exact io : forall n (s : ab NN I IS) l x t, ab_hist k s l -> samples l t dt -> (forall i, x i = peval (P i) t) ->
  exists s' x', iterate (N := NN) (ab_do_step (N := NN) k sys (istep sys) false io) n s x t dt = Ok (s', x')
    /\ forall i, x' i = peval (P i) (t + INR n * dt).
Proof.
  induction n as [|n IH]; intros s l x t Hh Hl Hx; cbn [iterate].
  - exists s, x. split; [reflexivity|]. intro i. rewrite Hx. f_equal. cbn [INR]. ring.
  - assert (Hd : forall i, sys x t i = peval (pder (P i)) t) by (now apply Hsol).
    assert (St : exists s' out log, ab_do_step (N := NN) k sys (istep sys) false io s x t dt = Ok (s', out, log)
      /\ ab_hist k s' (sys x t :: l) /\ forall i, out i = peval (P i) (t + dt)).
    { pose proof (ab_call (N := NN) k ltac:(lia) istep sys io s l x t dt Hh) as C.
      destruct (Nat.ltb (ab_init s + 1) k) eqn:Q.
      - destruct (Hist (ab_is s) io x t Hx) as (is' & out & E & Ho).
        rewrite E in C. destruct C as (s' & E' & Hh' & _). exists s', out, [(x, t)]. auto.
      - destruct C as (s' & E' & Hh' & _). eexists s', _, _. split; [exact E'|]. split; [exact Hh'|].
        intro i. destruct Hh as (_ & _ & Hc). rewrite Q in Hc. refine (eq_trans (ab_exact l t dt x (sys x t) i Hl Hc (Hd i)) _). rewrite Hx. match goal with |- @eq _ ?l ?r => change (@eq R l r) end. ring. }
    destruct St as (s' & out & log & E & Hh' & Ho). rewrite E. cbn [rbind].
    destruct (IH s' (sys x t :: l) out (t + dt) Hh' (samples_cons l t (sys x t) Hl Hd) Ho) as (s2 & x2 & E2 & H2).
    exists s2, x2. split; [exact E2|]. intro i. rewrite H2. f_equal. rewrite S_INR. match goal with |- @eq _ ?l ?r => change (@eq R l r) end. ring.
Qed.

Lemma abm_run_exact io : forall n (s : abm NN I IS) l x t, ab_hist k (abm_ab s) l -> samples l t dt -> (forall i, x i = peval (P i) t) ->
  exists s' x', iterate (N := NN) (abm_do_step (N := NN) k sys (istep sys) false io) n s x t dt = Ok (s', x')
    /\ forall i, x' i = peval (P i) (t + INR n * dt).
Proof.
  induction n as [|n IH]; intros s l x t Hh Hl Hx; cbn [iterate].
  - exists s, x. split; [reflexivity|]. intro i. rewrite Hx. f_equal. cbn [INR]. ring.
  - assert (Hd : forall i, sys x t i = peval (pder (P i)) t) by (now apply Hsol).
    assert (St : exists s' out log, abm_do_step (N := NN) k sys (istep sys) false io s x t dt = Ok (s', out, log)
      /\ ab_hist k (abm_ab s') (sys x t :: l) /\ forall i, out i = peval (P i) (t + dt)).
    { destruct (Nat.ltb (ab_init (abm_ab s) + 1) k) eqn:Q.
      - pose proof (ab_call (N := NN) k ltac:(lia) istep sys io (abm_ab s) l x t dt Hh) as C. rewrite Q in C.
        destruct (Hist (ab_is (abm_ab s)) io x t Hx) as (is' & out & E & Ho). rewrite E in C. destruct C as (a & E' & Hh' & _).
        unfold abm_do_step, ab_is_initialized. apply Nat.ltb_lt in Q.
        destruct (Nat.leb_spec (k - 1) (ab_init (abm_ab s))) as [Q2|_]; [lia|]. rewrite E'. cbn [rbind].
        eexists _, _, _. split; [reflexivity|]. split; [exact Hh'|exact Ho].
      - pose proof Hh as (_ & _ & Hc). rewrite Q in Hc.
        destruct (abm_step (N := NN) k ltac:(lia) istep sys io s l x t dt Hh Hc) as (s' & E & Hh').
        eexists s', _, _. split; [exact E|]. split; [exact Hh'|]. intro i.
        set (p := lmm (N := NN) dt (ab_coef (N := NN) k) x (sys x t :: firstn (k - 1) l)).
        assert (Hp : forall i, p i = peval (P i) (t + dt)).
        { intro j. unfold p. refine (eq_trans (ab_exact l t dt x (sys x t) j Hl Hc (Hd j)) _). rewrite Hx. match goal with |- @eq _ ?l ?r => change (@eq R l r) end. ring. }
        refine (eq_trans (am_exact l t dt x (sys x t) (sys p (t + dt)) i Hl Hc (Hd i) (Hsol p (t + dt) Hp i)) _). rewrite Hx. match goal with |- @eq _ ?l ?r => change (@eq R l r) end. ring. }
    destruct St as (s' & out & log & E & Hh' & Ho). rewrite E. cbn [rbind].
    destruct (IH s' (sys x t :: l) out (t + dt) Hh' (samples_cons l t (sys x t) Hl Hd) Ho) as (s2 & x2 & E2 & H2).
    exists s2, x2. split; [exact E2|]. intro i. rewrite H2. f_equal. rewrite S_INR. match goal with |- @eq _ ?l ?r => change (@eq R l r) end. ring.
Qed.
End Exact.

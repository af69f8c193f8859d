(** Linear invariants of the midpoint, extrapolation and Adams steppers. *)
From Coq Require Import ZArith List Bool Arith Lia Reals Lra FunctionalExtensionality.
From Verif Require Import M_Num M_Run M_RK M_Midpoint M_Adams S_RK S_Midpoint S_Adams S_Inv P_R P_RKAll P_Midpoint P_Adams P_AdamsR.
Import ListNotations.
Local Open Scope R_scope.

Section Lin.
Variable eps : R.
Notation NN := (RNum eps).
Context {I : Type}.
Variable l : (I -> R) -> R.
Hypothesis Hl : linear_functional l.
Variable f : (I -> R) -> R -> (I -> R).
Hypothesis Hf : forall u s, l (f u s) = 0.

Lemma lin_ext u v : (forall i, u i = v i) -> l u = l v.
Proof. intro H. apply f_equal. extensionality i. apply H. Qed.
Lemma lin_comb a b u v w : (forall i, w i = a * u i + b * v i) -> l w = a * l u + b * l v.
Proof. intro H. rewrite <- Hl. now apply lin_ext. Qed.

(** modified_midpoint *)
Lemma gz_lin x dx t h : l dx = 0 -> forall m, l (gz (N := NN) f x dx t h m) = l x /\ l (gz (N := NN) f x dx t h (S m)) = l x.
Proof.
  intros Hd. pose proof (gz_gragg (N := NN) f x dx t h) as [_ _ Z0 Z1 ZS]. induction m as [|m [A B]].
  - split; [now rewrite Z0|]. rewrite (lin_comb 1 h x dx); [rewrite Hd; ring|]. intro i. exact (Z1 i).
  - split; [exact B|]. rewrite (lin_comb 1 (2 * h) (gz (N := NN) f x dx t h m) (f (gz (N := NN) f x dx t h (S m)) (gth (N := NN) t h (S m)))).
    + rewrite A, Hf. ring.
    + intro i. exact (ZS m i).
Qed.
Lemma mm_lin m n x dx t dt : (1 <= n)%nat -> l dx = 0 -> l (snd (mm_step (N := NN) f m n x dx t dt)) = l x.
Proof.
  intros Hn Hd. rewrite (mm_step_val (N := NN) f m n x dx t dt Hn). unfold mm_val, smoothed. rnum.
  set (h := dt / nofnat (N := NN) n). set (z := gz (N := NN) f x dx t h).
  rewrite (lin_comb 1 (1 / 2 * h) (fun i => 1 / 2 * z (n - 1)%nat i + 1 / 2 * z n i) (f (z n) (gth (N := NN) t h n))).
  - rewrite Hf, Hl. unfold z. destruct n as [|n]; [lia|]. replace (S n - 1)%nat with n by lia.
    destruct (gz_lin x dx t h Hd n) as [-> ->]. field.
  - intro i. change (dt / nofnat (N := NN) n) with h. fold z. ring.
Qed.

(** extrapolation_stepper *)
Lemma ex_comb_lin c a b L : l a = L -> l b = L -> l (ex_comb (N := NN) c a b) = L.
Proof.
  intros A B. rewrite (lin_comb (1 + c) (- c) a b); [rewrite A, B; ring|]. intro i. unfold ex_comb. cbn [scale_sum fold_left fst snd]. rnum. ring.
Qed.
Definition fresh (L : R) (k : nat) (table : list (vec NN I)) : Prop := forall j v, (j < k)%nat -> nth_error table j = Some v -> l v = L.
Lemma vset_nth {A} (v : list A) : forall k a v', vset v k a = Ok v' -> forall j b, nth_error v' j = Some b -> (j = k /\ b = a) \/ (j <> k /\ nth_error v j = Some b).
Proof.
  induction v as [|c v IH]; intros [|k] a v' E j b H; cbn [vset] in E; try discriminate E.
  - injection E as <-. destruct j as [|j]; cbn in H; [injection H as <-; auto|]. right. split; [lia|exact H].
  - destruct (vset v k a) as [v1| | |] eqn:E1; cbn [rbind] in E; try discriminate E. injection E as <-.
    destruct j as [|j]; cbn in H; [right; split; [lia|exact H]|]. destruct (IH k a v1 E1 j b H) as [[-> ->]|[Q1 Q2]]; [auto|right; split; [lia|exact Q2]].
Qed.
Lemma fresh_set L k (a : vec NN I) (table table' : list (vec NN I)) : fresh L k table -> l a = L -> forall j, vset table j a = Ok table' -> (j < S k)%nat -> (k <= j \/ j < k)%nat ->
  fresh L (if Nat.leb k j then S k else k) table'.
Proof.
  intros F Ha j E Hj _ i v Hi Hn. destruct (vset_nth table j a table' E i v Hn) as [[-> ->]|[Q1 Q2]]; [exact Ha|].
  apply (F i v); [|exact Q2]. destruct (Nat.leb_spec k j); lia.
Qed.
Lemma vget_nth {A} (v : list A) j a : vget v j = Ok a -> nth_error v j = Some a.
Proof. unfold vget. destruct (nth_error v j); [intro H; now injection H as ->|discriminate]. Qed.
Lemma ex_down_lin coeff k L : forall j (table table' : list (vec NN I)), (j < k)%nat -> fresh L k table -> ex_down (N := NN) coeff k j table = Ok table' -> fresh L k table'.
Proof.
  induction j as [|j IH]; intros table table' Hj F E; cbn [ex_down] in E; [now injection E as <-|].
  destruct (cget (N := NN) coeff k (S j)) as [c| | |]; cbn [rbind] in E; try discriminate E.
  destruct (vget table (S j)) as [a| | |] eqn:Ea; cbn [rbind] in E; try discriminate E.
  destruct (vget table j) as [b| | |] eqn:Eb; cbn [rbind] in E; try discriminate E.
  destruct (vset table j (ex_comb (N := NN) c a b)) as [t1| | |] eqn:Et; cbn [rbind] in E; try discriminate E.
  apply (IH t1 table'); [lia| |exact E].
  pose proof (fresh_set L k _ table t1 F (ex_comb_lin c a b L (F _ _ Hj (vget_nth _ _ _ Ea)) (F j _ ltac:(lia) (vget_nth _ _ _ Eb))) j Et) as Q.
  destruct (Nat.leb_spec k j); [lia|]. apply Q; lia.
Qed.
Lemma es_loop_lin order io inp dxdt t dt : l dxdt = 0 -> forall n k m table out m' table' out',
  (1 <= k)%nat -> fresh (l inp) (k - 1) table -> l out = l inp ->
  es_loop (N := NN) f order io n k m table inp dxdt t out dt = Ok (m', table', out') -> l out' = l inp.
Proof.
  intro Hd. induction n as [|n IH]; intros k m table out m' table' out' Hk F Ho E; cbn [es_loop] in E; [injection E as _ _ <-; exact Ho|].
  destruct (vget (es_seqs order) k) as [st| | |] eqn:Es; cbn [rbind] in E; try discriminate E.
  assert (Hst : (1 <= st)%nat).
  { apply vget_nth in Es. apply nth_error_In in Es. unfold es_seqs in Es. apply in_map_iff in Es. destruct Es as (q & <- & _). unfold es_seq. lia. }
  pose proof (mm_lin m st (if io then out else inp) dxdt t dt Hst Hd) as Hm.
  destruct (mm_step (N := NN) f m st (if io then out else inp) dxdt t dt) as [m1 y]. cbn [snd] in Hm.
  assert (Hy : l y = l inp) by (destruct io; congruence). clear Hm.
  destruct (vset table (k - 1) y) as [t1| | |] eqn:Et; cbn [rbind] in E; try discriminate E.
  pose proof (fresh_set (l inp) (k - 1) y table t1 F Hy (k - 1) Et ltac:(lia) ltac:(lia)) as F1. rewrite Nat.leb_refl in F1.
  replace (S (k - 1)) with k in F1 by lia.
  unfold extrapolate in E. destruct (ex_down (N := NN) (es_coeff order) k (k - 1) t1) as [t2| | |] eqn:Ed; cbn [rbind] in E; try discriminate E.
  destruct (cget (N := NN) (es_coeff order) k 0) as [c| | |]; cbn [rbind] in E; try discriminate E.
  destruct (vget t2 0) as [a| | |] eqn:Ea; cbn [rbind] in E; try discriminate E.
  pose proof (ex_down_lin _ k (l inp) (k - 1) t1 t2 ltac:(lia) F1 Ed) as F2.
  apply (IH (S k) m1 t2 (ex_comb (N := NN) c a out) m' table' out'); [lia|now replace (S k - 1)%nat with k by lia| |exact E].
  apply ex_comb_lin; [|exact Ho]. apply (F2 0%nat a); [lia|now apply vget_nth].
Qed.
Lemma es_lin order io s x dxdt t dt s' out : l dxdt = 0 ->
  es_impl (N := NN) f order io s x dxdt t dt = Ok (s', out) -> l out = l x.
Proof.
  intros Hd E. unfold es_impl in E.
  destruct (vget (es_seqs order) 0) as [st| | |] eqn:Es; cbn [rbind] in E; try discriminate E.
  assert (Hst : (1 <= st)%nat).
  { apply vget_nth in Es. apply nth_error_In in Es. unfold es_seqs in Es. apply in_map_iff in Es. destruct Es as (q & <- & _). unfold es_seq. lia. }
  pose proof (mm_lin (es_mm s) st x dxdt t dt Hst Hd) as Hm.
  destruct (mm_step (N := NN) f (es_mm s) st x dxdt t dt) as [m1 y]. cbn [snd] in Hm.
  destruct (es_loop (N := NN) f order io (es_kmax order) 1 m1 (es_table s) x dxdt t y dt) as [[[m2 tb] o]| | |] eqn:El; cbn [rbind] in E; try discriminate E.
  injection E as _ <-. refine (es_loop_lin order io x dxdt t dt Hd _ 1 m1 (es_table s) y m2 tb o ltac:(lia) _ Hm El).
  intros j v Hj. lia.
Qed.

(** Adams *)
Lemma lmm_lin (dt : R) (coef : list R) (x : I -> R) (ds : list (I -> R)) : Forall (fun d => l d = 0) ds -> l (lmm (N := NN) dt coef x ds) = l x.
Proof.
  intro F. rewrite (lin_comb 1 dt x (fun i => rsum (map (fun p => fst p * snd p i) (combine coef ds)))).
  2:{ intro i. refine (eq_trans (lmm_R eps dt coef x ds i) _). now rewrite Rmult_1_l. }
  assert (G : l (fun i => rsum (map (fun p => fst p * snd p i) (combine coef ds))) = 0); [|rewrite G; ring].
  revert ds F. induction coef as [|c coef IH]; intros ds F.
  - cbn [combine map]. rewrite (lin_comb 0 0 x x); [ring|]. intro i. cbn. ring.
  - destruct ds as [|d ds]; cbn [combine map].
    + rewrite (lin_comb 0 0 x x); [ring|]. intro i. cbn. ring.
    + inversion F as [|? ? F1 F2]; subst. rewrite (lin_comb c 1 d (fun i => rsum (map (fun p => fst p * snd p i) (combine coef ds)))).
      * rewrite F1, (IH ds F2). ring.
      * intro i. unfold rsum. cbn [fold_right fst snd]. ring.
Qed.

Context {IS : Type}.
Variable istep : ((I -> R) -> R -> (I -> R)) -> IS -> bool -> (I -> R) -> (I -> R) -> R -> R -> res (IS * (I -> R)).
Hypothesis Hist : forall is io x t dt is' out, istep f is io x (f x t) t dt = Ok (is', out) -> l out = l x.
Variable k : nat.
Hypothesis Hk : (0 < k)%nat.

Definition lin_hist (s : ab NN I IS) : Prop := exists h, ab_hist k s h /\ Forall (fun d => l d = 0) h.
Lemma Forall_firstn {A} (Q : A -> Prop) : forall n h, Forall Q h -> Forall Q (firstn n h).
Proof. induction n as [|n IH]; intros h F; [constructor|]. destruct F; cbn; constructor; auto. Qed.

Lemma ab_step_lin io s x t dt s' out log : lin_hist s -> ab_do_step (N := NN) k f (istep f) false io s x t dt = Ok (s', out, log) ->
  lin_hist s' /\ l out = l x.
Proof.
  intros (h & Hh & F) E. pose proof (ab_call (N := NN) k Hk istep f io s h x t dt Hh) as C.
  assert (F' : Forall (fun d => l d = 0) (f x t :: h)) by (constructor; [apply Hf|exact F]).
  destruct (Nat.ltb (ab_init s + 1) k).
  - destruct (istep f (ab_is s) io x (f x t) t dt) as [[is' o]| | |] eqn:Ei; try (rewrite E in C; discriminate C).
    destruct C as (s1 & E1 & H1 & _). rewrite E in E1. injection E1 as <- <- _. split; [now exists (f x t :: h)|]. exact (Hist _ _ _ _ _ _ _ Ei).
  - destruct C as (s1 & E1 & H1 & _). rewrite E in E1. injection E1 as <- -> _. split; [now exists (f x t :: h)|].
    apply lmm_lin. constructor; [apply Hf|now apply Forall_firstn].
Qed.
Lemma abm_step_lin io s x t dt s' out log : lin_hist (abm_ab s) -> abm_do_step (N := NN) k f (istep f) false io s x t dt = Ok (s', out, log) ->
  lin_hist (abm_ab s') /\ l out = l x.
Proof.
  intros H E. unfold abm_do_step in E. destruct (ab_is_initialized k (abm_ab s)) eqn:Q.
  - destruct H as (h & Hh & F). pose proof Hh as (_ & _ & Hc). unfold ab_is_initialized in Q. apply Nat.leb_le in Q.
    destruct (Nat.ltb_spec (ab_init (abm_ab s) + 1) k) as [Q1|Q1]; [lia|].
    destruct (abm_step (N := NN) k Hk istep f io s h x t dt Hh Hc) as (s1 & E1 & H1).
    unfold abm_do_step, ab_is_initialized in E1. destruct (Nat.leb_spec (k - 1) (ab_init (abm_ab s))) as [_|Q2]; [|lia].
    rewrite E in E1. injection E1 as <- -> _. split; [exists (f x t :: h); split; [exact H1|constructor; [apply Hf|exact F]]|].
    apply lmm_lin. constructor; [apply Hf|]. apply Forall_firstn. constructor; [apply Hf|exact F].
  - destruct (ab_do_step (N := NN) k f (istep f) false io (abm_ab s) x t dt) as [[[a o] lg]| | |] eqn:Ea; cbn [rbind] in E; try discriminate E.
    injection E as <- <- _. cbn [abm_ab]. exact (ab_step_lin _ _ _ _ _ _ _ _ H Ea).
Qed.
End Lin.

(** Proofs about implicit_euler. *)
From Coq Require Import Reals Arith Bool Lia Lra List FunctionalExtensionality.
From Verif Require Import M_Num M_Sign M_RK M_CtrlRK M_LU M_Implicit S_LU S_Implicit P_R P_LU.
Import ListNotations.
Local Open Scope R_scope.

Section IE.
Variable eps : R.
Notation N := (RNum eps).
Notation mat := (nat -> nat -> R).
Notation v := (nat -> R).

Lemma norm_2_sum : forall n (b : v),
  norm_2 (N := N) n sqrt b = sqrt (sigma n (fun i => b i * b i)).
Proof.
  intros n b. unfold norm_2. f_equal.
  assert (G : forall k i (a : R), fold_left (fun s i => nadd (n := N) s (nmul (n := N) (nabs (n := N) (b i)) (nabs (n := N) (b i))))
              (seq i k) a = a + sigma k (fun j => b (i + j)%nat * b (i + j)%nat)).
  { induction k; intros i a; cbn [seq fold_left]; [simpl; lra|].
    rewrite IHk. cbn [nadd nmul nabs RNum].
    replace (Rabs (b i) * Rabs (b i)) with (b i * b i) by (rewrite <- Rabs_mult, Rabs_pos_eq; [ring|nra]).
    assert (S1 : forall k (g : nat -> R), sigma (S k) g = g 0%nat + sigma k (fun j => g (S j))).
    { clear. induction k; intros g; [simpl; lra|]. cbn [sigma]. cbn [sigma] in IHk. rewrite IHk. lra. }
    rewrite S1. replace (i + 0)%nat with i by lia.
    rewrite (sigma_ext k (fun j => b (S i + j)%nat * b (S i + j)%nat) (fun j => b (i + S j)%nat * b (i + S j)%nat)).
    - lra.
    - intros c _. replace (S i + c)%nat with (i + S c)%nat by lia. reflexivity. }
  cbv zeta. rewrite G. simpl. rewrite Rplus_0_l. reflexivity.
Qed.

Lemma norm_2_zero : forall n (b : v), veq n b (fun _ => 0) -> norm_2 (N := N) n sqrt b = 0.
Proof.
  intros n b H. rewrite norm_2_sum, sigma_0; [apply sqrt_0|]. intros c Hc. rewrite H by exact Hc. ring.
Qed.

(** The matrix handed to the first solve is dt J - I. *)
Lemma euler_nonsingular : forall n dt (A : mat), nonsingular n (euler_matrix dt A) ->
  nonsingular n (fun r c => A r c * dt - ident r c).
Proof.
  intros n dt A H x Hx. apply H. intros r Hr. pose proof (Hx r Hr) as Q. cbv beta in *. unfold mvec in *.
  rewrite (sigma_ext n _ (fun c => (-1) * ((A r c * dt - ident r c) * x c))).
  - rewrite sigma_scal, Q. ring.
  - intros c _. unfold euler_matrix. ring.
Qed.

Lemma mvec_ident : forall n (x : v) r, (r < n)%nat -> mvec n ident x r = x r.
Proof.
  intros n x r Hr. unfold mvec.
  assert (G : forall k, sigma k (fun c => ident r c * x c) = if (r <? k)%nat then x r else 0).
  { induction k; [reflexivity|]. cbn [sigma]. rewrite IHk. unfold ident.
    destruct (Nat.ltb_spec r k), (Nat.ltb_spec r (S k)), (Nat.eqb_spec r k); try lia; subst; lra. }
  rewrite G. destruct (Nat.ltb_spec r n); [reflexivity|lia].
Qed.

Lemma mvec_sub : forall n (A B : mat) (x : v) r, mvec n (fun r c => A r c - B r c) x r = mvec n A x r - mvec n B x r.
Proof.
  intros. unfold mvec. rewrite (sigma_ext n _ (fun c => A r c * x c + (-1) * (B r c * x c))) by (intros; ring).
  rewrite sigma_plus, sigma_scal. ring.
Qed.
Lemma mvec_scal : forall n (A : mat) a (x : v) r, mvec n (fun r c => A r c * a) x r = a * mvec n A x r.
Proof. intros. unfold mvec. rewrite <- sigma_scal. apply sigma_ext. intros; ring. Qed.
Lemma mvec_minus : forall n (A : mat) (x y : v) r, mvec n A (fun i => x i - y i) r = mvec n A x r - mvec n A y r.
Proof.
  intros. unfold mvec. rewrite (sigma_ext n _ (fun c => A r c * x c + (-1) * (A r c * y c))) by (intros; ring).
  rewrite sigma_plus, sigma_scal. ring.
Qed.
Lemma mvec_veq : forall n (A : mat) (x y : v) r, veq n x y -> mvec n A x r = mvec n A y r.
Proof. intros. unfold mvec. apply sigma_ext. intros c Hc. rewrite H by exact Hc. reflexivity. Qed.

Lemma ie_matrix_R : forall (jac : v -> R -> mat) x t dt,
  ie_matrix (N := N) jac x t dt = (fun r c => jac x t r c * dt - ident r c).
Proof.
  intros. extensionality r. extensionality c. unfold ie_matrix, ident. simpl.
  destruct (Nat.eqb r c); reflexivity.
Qed.

Section Linear.
Variables (n : nat) (A : mat) (g : R -> v) (f : v -> R -> v) (jac : v -> R -> mat) (epsilon : R).
Hypothesis Hf : affine n A g f.
Hypothesis Hj : forall x t, jac x t = A.
Hypothesis Heps : 0 <= epsilon.

(** The factors left in m_jacobi by the first solve. *)
Definition first_lu (x : v) (t dt : R) : lu_state N :=
  lu_factorize (N := N) n (ie_matrix (N := N) jac x (t + dt)%R dt) (fun k => k).

Lemma ie_linear : forall fuel (x : v) t dt, nonsingular n (euler_matrix dt A) ->
  match snd (ie_do_step (N := N) n sqrt f jac epsilon (S fuel) x t dt) with
  | IDone x1 => implicit_euler_eq n f x t dt x1
  | IExit => lu_res (lu_factorize (N := N) n (lu_m (first_lu x t dt)) (lu_pm (first_lu x t dt))) <> 0%nat
  | IFuel => False
  end.
Proof.
  intros fuel x t dt HA. unfold ie_do_step.
  set (t1 := nadd (n := N) t dt). change (nadd (n := N) t dt) with (t + dt) in t1.
  unfold ie_solve at 1. fold (first_lu x t dt).
  assert (HM : nonsingular n (fun r c => A r c * dt - ident r c)) by (apply euler_nonsingular; exact HA).
  assert (EM : ie_matrix (N := N) jac x t1 dt = (fun r c => A r c * dt - ident r c)).
  { rewrite ie_matrix_R, Hj. reflexivity. }
  change (lu_factorize n (ie_matrix (N := N) jac x t1 dt) (fun k => k)) with (first_lu x t dt).
  assert (R1 : lu_res (first_lu x t dt) = 0%nat).
  { unfold first_lu. change (t + dt) with t1. rewrite EM. apply lu_nonsingular; [intros k _; reflexivity|exact HM]. }
  rewrite R1. cbn [Nat.eqb].
  set (b := fun i => nmul (n := N) dt (f x t1 i)).
  assert (S1 : solves n (fun r c => A r c * dt - ident r c)
                 (lu_substitute (N := N) n (lu_m (first_lu x t dt)) (lu_pm (first_lu x t dt)) b) b).
  { rewrite <- EM. unfold first_lu. change (t + dt) with t1.
    apply (lu_solves eps n _ (fun k => k)); [intros k _; reflexivity|]. exact R1. }
  set (b1 := lu_substitute (N := N) n (lu_m (first_lu x t dt)) (lu_pm (first_lu x t dt)) b) in *.
  set (m1 := lu_m (first_lu x t dt)) in *. set (pm1 := lu_pm (first_lu x t dt)) in *.
  assert (P1 : forall k, (k < n)%nat -> (pm1 k < n)%nat).
  { intros k Hk. unfold pm1, first_lu, lu_factorize. apply lu_pm_range; auto. }
  set (mx := fun i => nsub (n := N) (x i) (b1 i)).
  assert (Sol : implicit_euler_eq n f x t dt mx).
  { intros r Hr. pose proof (S1 r Hr) as Q. rewrite (mvec_sub n (fun r c => A r c * dt) ident), mvec_scal, mvec_ident in Q by exact Hr.
    change (b r) with (dt * f x t1 r) in Q. rewrite Hf in Q by exact Hr. rewrite Hf by exact Hr.
    unfold mx at 2. change (fun i => nsub (n := N) (x i) (b1 i)) with (fun i => x i - b1 i).
    rewrite mvec_minus. change (t + dt) with t1. change (mx r) with (x r - b1 r). lra. }
  assert (Res0 : veq n (fun i => nadd (n := N) (nsub (n := N) (x i) (mx i)) (nmul (n := N) dt (f mx t1 i))) (fun _ => 0)).
  { intros r Hr. pose proof (Sol r Hr) as Q. change (t + dt) with t1 in Q.
    change (x r - mx r + dt * f mx t1 r = 0). lra. }
  (* the loop *)
  cbn [ie_loop].
  destruct (nlt (n := N) epsilon (norm_2 (N := N) n sqrt b1)) eqn:E1; [|exact Sol].
  unfold ie_solve. fold m1 pm1.
  destruct (Nat.eqb_spec (lu_res (lu_factorize (N := N) n m1 pm1)) 0) as [R2|R2]; [|exact R2].
  set (lu2 := lu_factorize (N := N) n m1 pm1) in *.
  match goal with |- context [lu_substitute n (lu_m lu2) (lu_pm lu2) ?bb] =>
    assert (Z2 : veq n (lu_substitute (N := N) n (lu_m lu2) (lu_pm lu2) bb) (fun _ => 0)) end.
  { apply lu_zero; [|exact Res0]. intros k Hk. unfold lu2, lu_factorize. apply lu_pm_range; auto. }
  match type of Z2 with veq n ?bb _ => set (b2 := bb) in * end.
  destruct fuel as [|fuel]; cbn [ie_loop];
    rewrite (norm_2_zero n b2 Z2);
    (replace (nlt (n := N) epsilon 0) with false by (symmetry; apply Rltb_false; exact Heps)); cbn [snd].
  all: intros r Hr; rewrite (Hf _ _ _ Hr), (mvec_veq n A _ mx), <- (Hf _ _ _ Hr);
    [change (mx r - b2 r = x r + dt * f mx (t + dt) r); rewrite (Z2 r Hr), <- (Sol r Hr); lra|].
  all: intros q Hq; change (mx q - b2 q = mx q); rewrite (Z2 q Hq); lra.
Qed.
End Linear.

(** ** Dimension one: re-factorising changes nothing. *)
Lemma lu_one : forall (m : mat) pm, m 0%nat 0%nat <> 0 -> pm 0%nat = 0%nat ->
  lu_res (lu_factorize (N := N) 1 m pm) = 0%nat /\ lu_m (lu_factorize (N := N) 1 m pm) 0%nat 0%nat = m 0%nat 0%nat /\
  lu_pm (lu_factorize (N := N) 1 m pm) 0%nat = 0%nat.
Proof.
  intros m pm H Hp. unfold lu_factorize. cbn [lu_loop].
  destruct (pivot_spec eps 1 m 0 (Nat.lt_0_succ _)) as [Hr _]. cbv zeta in Hr.
  assert (E : pivot (N := N) 1 m 0 = 0%nat) by lia.
  pose proof (stage_entries eps 1 0 (mkLu (N := N) m pm 0)) as Q.
  pose proof (stage_pm eps 1 0 (mkLu (N := N) m pm 0)) as Q'. cbn [lu_m lu_pm lu_res] in Q, Q'.
  rewrite E in Q, Q'. destruct (Q' H Hp) as (_ & P & R0).
  split; [exact R0|]. split; [|exact P].
  rewrite (Q H). reflexivity.
Qed.

Lemma lu_one_sub : forall (m : mat) pm (b : v), m 0%nat 0%nat <> 0 -> pm 0%nat = 0%nat ->
  m 0%nat 0%nat * lu_substitute (N := N) 1 (lu_m (lu_factorize (N := N) 1 m pm)) (lu_pm (lu_factorize (N := N) 1 m pm)) b 0%nat = b 0%nat.
Proof.
  intros m pm b H Hp. destruct (lu_one m pm H Hp) as (R0 & _ & _).
  assert (I1 : pm_id 1 pm) by (intros k Hk; replace k with 0%nat by lia; exact Hp).
  pose proof (lu_solves eps 1 m pm b I1 R0 0%nat (Nat.lt_0_succ _)) as Q.
  unfold mvec in Q. cbn [sigma] in Q. rewrite Rplus_0_l in Q. exact Q.
Qed.

Lemma ie_loop_one : forall (f : v -> R -> v) epsilon a fuel (x : v) t dt (mx b : v) (m : mat) pm,
  m 0%nat 0%nat = a -> a <> 0 -> pm 0%nat = 0%nat ->
  let r := ie_loop (N := N) 1 sqrt f epsilon fuel x t dt mx b m pm in
  snd r <> IExit /\ Forall (fun p => a * snd p 0%nat = fst p 0%nat) (fst r).
Proof.
  intros f epsilon a. induction fuel; intros x t dt mx b m pm Hm Ha Hp.
  - cbn [ie_loop]. destruct (nlt (n := N) _ _); split; try discriminate; constructor.
  - cbn [ie_loop]. destruct (nlt (n := N) _ _); [|split; [discriminate|constructor]].
    unfold ie_solve. subst a. destruct (lu_one m pm Ha Hp) as (R0 & M0 & P0). rewrite R0. cbn [Nat.eqb].
    match goal with |- context [ie_loop 1 sqrt f epsilon fuel x t dt ?mx2 ?b2 ?m2 ?pm2] =>
      destruct (IHfuel x t dt mx2 b2 m2 pm2 M0 Ha P0) as [H1 H2];
      destruct (ie_loop (N := N) 1 sqrt f epsilon fuel x t dt mx2 b2 m2 pm2) as [tr o] end.
    cbn [fst snd] in *. split; [exact H1|]. constructor; [|exact H2]. cbn [fst snd].
    apply lu_one_sub; assumption.
Qed.

Lemma ie_one : forall (f : v -> R -> v) (jac : v -> R -> mat) epsilon fuel (x : v) t dt,
  jac x (t + dt) 0%nat 0%nat * dt - 1 <> 0 ->
  let r := ie_do_step (N := N) 1 sqrt f jac epsilon fuel x t dt in
  snd r <> IExit /\
  Forall (fun p => (jac x (t + dt) 0%nat 0%nat * dt - 1) * snd p 0%nat = fst p 0%nat) (fst r).
Proof.
  intros f jac epsilon fuel x t dt Ha. unfold ie_do_step, ie_solve.
  change (nadd (n := N) t dt) with (t + dt). rewrite ie_matrix_R.
  set (m := fun r c : nat => jac x (t + dt) r c * dt - ident r c).
  assert (Hm : m 0%nat 0%nat = jac x (t + dt) 0%nat 0%nat * dt - 1) by reflexivity.
  rewrite <- Hm in *. destruct (lu_one m (fun k => k) Ha eq_refl) as (R0 & M0 & P0).
  rewrite R0. cbn [Nat.eqb].
  match goal with |- context [ie_loop 1 sqrt f epsilon fuel x ?t1 dt ?mx2 ?b2 ?m2 ?pm2] =>
    destruct (ie_loop_one f epsilon (m 0%nat 0%nat) fuel x t1 dt mx2 b2 m2 pm2 M0 Ha P0) as [H1 H2];
    destruct (ie_loop (N := N) 1 sqrt f epsilon fuel x t1 dt mx2 b2 m2 pm2) as [tr o] end.
  cbn [fst snd] in *. split; [exact H1|]. constructor; [|exact H2]. cbn [fst snd].
  apply lu_one_sub; [assumption|reflexivity].
Qed.

(** ** Two by two matrices with the pivot in place. *)
Lemma lu_two : forall (m : mat) pm, m 0%nat 0%nat <> 0 -> Rabs (m 1%nat 0%nat) <= Rabs (m 0%nat 0%nat) ->
  pm 0%nat = 0%nat -> pm 1%nat = 1%nat ->
  let s := lu_factorize (N := N) 2 m pm in
  let l := m 1%nat 0%nat * (1 / m 0%nat 0%nat) in
  let u := m 1%nat 1%nat - l * m 0%nat 1%nat in
  lu_m s 0%nat 0%nat = m 0%nat 0%nat /\ lu_m s 0%nat 1%nat = m 0%nat 1%nat /\
  lu_m s 1%nat 0%nat = l /\ lu_m s 1%nat 1%nat = u /\
  lu_pm s 0%nat = 0%nat /\ lu_pm s 1%nat = 1%nat /\ (lu_res s = 0%nat <-> u <> 0).
Proof.
  intros m pm H00 Hle Hp0 Hp1. unfold lu_factorize. cbn [lu_loop]. cbv zeta.
  assert (E : pivot (N := N) 2 m 0 = 0%nat).
  { unfold pivot. cbn [Nat.sub pivot_from]. cbv zeta.
    change (@nlt N (@nofZ N 0%Z) (@nabs N (m 0%nat 0%nat))) with (Rltb 0 (Rabs (m 0%nat 0%nat))).
    replace (Rltb 0 (Rabs (m 0%nat 0%nat))) with true by (symmetry; apply Rltb_true, Rabs_pos_lt, H00).
    change (@nlt N (@nabs N (m 0%nat 0%nat)) (@nabs N (m 1%nat 0%nat))) with (Rltb (Rabs (m 0%nat 0%nat)) (Rabs (m 1%nat 0%nat))).
    replace (Rltb (Rabs (m 0%nat 0%nat)) (Rabs (m 1%nat 0%nat))) with false by (symmetry; apply Rltb_false; lra).
    reflexivity. }
  pose proof (stage_entries eps 2 0 (mkLu (N := N) m pm 0)) as Q.
  pose proof (stage_pm eps 2 0 (mkLu (N := N) m pm 0)) as Q'. cbn [lu_m lu_pm lu_res] in Q, Q'.
  rewrite E in Q, Q'. destruct (Q' H00 Hp0) as (P & P' & R0). specialize (Q H00).
  set (s1 := lu_stage (N := N) 2 0 (mkLu (N := N) m pm 0)) in *.
  assert (A00 : lu_m s1 0%nat 0%nat = m 0%nat 0%nat) by (rewrite Q; reflexivity).
  assert (A01 : lu_m s1 0%nat 1%nat = m 0%nat 1%nat) by (rewrite Q; reflexivity).
  assert (A10 : lu_m s1 1%nat 0%nat = m 1%nat 0%nat * (1 / m 0%nat 0%nat)) by (rewrite Q; reflexivity).
  assert (A11 : lu_m s1 1%nat 1%nat = m 1%nat 1%nat - m 1%nat 0%nat * (1 / m 0%nat 0%nat) * m 0%nat 1%nat)
    by (rewrite Q; reflexivity).
  assert (B0 : lu_pm s1 0%nat = 0%nat) by exact P'.
  assert (B1 : lu_pm s1 1%nat = 1%nat) by (rewrite P by lia; exact Hp1).
  clear Q Q' P P'.
  destruct (pivot_spec eps 2 (lu_m s1) 1 (Nat.lt_succ_diag_r _)) as [Hr _]. cbv zeta in Hr.
  assert (E1 : pivot (N := N) 2 (lu_m s1) 1 = 1%nat) by lia.
  destruct (Req_dec (lu_m s1 1%nat 1%nat) 0) as [Z|Z].
  - unfold lu_stage at 1 2 3 4 5 6 7. cbv zeta. rewrite E1. cbn [lu_m lu_pm lu_res].
    replace (nneq (N := N) (lu_m s1 1%nat 1%nat) (nofZ (n := N) 0%Z)) with false
      by (symmetry; apply nneq_R_false; exact Z).
    cbn [Nat.ltb Nat.leb andb]. rewrite R0. cbn [Nat.eqb]. cbn.
    repeat split; try assumption; [intros D; discriminate D|].
    intros D. exfalso. apply D. rewrite <- A11. exact Z.
  - pose proof (stage_entries eps 2 1 s1) as Q.
    pose proof (stage_pm eps 2 1 s1) as Q'. cbv zeta in Q, Q'.
    rewrite E1 in Q, Q'. destruct (Q' Z B1) as (P & P' & R1). specialize (Q Z).
    rewrite !Q, P, P', R1 by lia. cbn [Nat.ltb Nat.leb]. unfold swap_rows, swapi. cbn [Nat.eqb].
    repeat split; try assumption; intros _; [rewrite <- A11; exact Z|exact R0].
Qed.
End IE.

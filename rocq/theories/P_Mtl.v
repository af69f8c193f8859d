(** Proofs about M_Mtl. *)
From Coq Require Import ZArith List Bool Arith Lia Reals Lra.
From Verif Require Import M_Num M_RK M_LU M_Mtl S_Back.
Import ListNotations.
Local Open Scope R_scope.

Section P.
Variable eps : R.
Notation NN := (RNum eps).
Variable n : nat.

Lemma fold_shift (g : nat -> R) r a l :
  (r < a)%nat ->
  fold_right Rplus 0 (map (fun c => (if Nat.eqb r c then 1 else 0) * g c) (seq a l)) = 0.
Proof.
  revert a. induction l as [|l IH]; intros a H; simpl; [reflexivity|].
  rewrite IH by lia. replace (Nat.eqb r a) with false by (symmetry; apply Nat.eqb_neq; lia). ring.
Qed.

Lemma fold_id (g : nat -> R) r : forall a l, (a <= r < a + l)%nat ->
  fold_right Rplus 0 (map (fun c => (if Nat.eqb r c then 1 else 0) * g c) (seq a l)) = g r.
Proof.
  intros a l. revert a. induction l as [|l IH]; intros a H; simpl; [lia|].
  destruct (Nat.eqb r a) eqn:E.
  - apply Nat.eqb_eq in E. subst a. rewrite fold_shift by lia. ring.
  - apply Nat.eqb_neq in E. rewrite IH by lia. ring.
Qed.

Lemma matvec_split J (y : nat -> R) dt r : (r < n)%nat ->
  matvec n (fun r c => J r c * dt - (if Nat.eqb r c then 1 else 0)) y r = dt * matvec n J y r - y r.
Proof.
  intros H. rewrite <- (fold_id y r 0 n) by lia. unfold matvec.
  induction (seq 0 n) as [|c l IH]; simpl; [ring|]. rewrite IH. ring.
Qed.

Variable f : vec NN nat -> NN -> vec NN nat.
Variable jac : vec NN nat -> NN -> mat NN.
Variable solver : mat NN -> vec NN nat -> vec NN nat -> vec NN nat.

(** The increment solves y = dt * ( f(x) + J y ). *)
Lemma mtl_increment e (x : vec NN nat) (t dt : R) :
  (forall r, (r < n)%nat ->
     matvec n (mtl_matrix jac x (t + dt)%R dt) (solver (mtl_matrix jac x (t + dt)%R dt) x (fun i => (f x (t + dt)%R i * - dt)%R)) r
     = (f x (t + dt)%R r * - dt)%R) ->
  forall r, (r < n)%nat ->
    let y := (fun i => mtl_do_step f jac solver e x t dt i - x i) in
    @eq R (y r) (dt * (f x (t + dt)%R r + matvec n (jac x (t + dt)%R) y r)).
Proof.
  intros H r Hr y. specialize (H r Hr).
  set (s := solver (mtl_matrix jac x (t + dt)%R dt) x (fun i => (f x (t + dt)%R i * - dt)%R)) in *.
  assert (E : forall i, @eq R (y i) (s i)).
  { intros i. unfold y. change (x i + s i - x i = s i). ring. }
  assert (Em : matvec n (jac x (t + dt)%R) y r = matvec n (jac x (t + dt)%R) s r).
  { unfold matvec. f_equal. apply map_ext. intros c. now rewrite E. }
  rewrite Em, E.
  pose proof (matvec_split (jac x (t + dt)%R) s dt r Hr) as M.
  change (matvec n (mtl_matrix jac x (t + dt)%R dt) s r
    = dt * matvec n (jac x (t + dt)%R) s r - s r) in M.
  rewrite M in H. lra.
Qed.

(** The solver is exact on nonsingular matrices. *)
Hypothesis Hsol : exact_solver n solver.

Lemma mtl_affine e (A : R -> nat -> nat -> R) (g : R -> nat -> R) (x : vec NN nat) (t dt : R) :
  (forall y s r, (r < n)%nat -> @eq R (f y s r) (matvec n (A s) y r + g s r)) ->
  (forall y s r c, (r < n)%nat -> (c < n)%nat -> @eq R (jac y s r c) (A s r c)) ->
  nonsingular n (fun r c => A (t + dt) r c * dt - (if Nat.eqb r c then 1 else 0)) ->
  forall r, (r < n)%nat ->
    let x1 := mtl_do_step f jac solver e x t dt in
    @eq R (x1 r) (x r + dt * f x1 (t + dt)%R r).
Proof.
  intros Hf Hj Hn r Hr x1.
  assert (Hn' : nonsingular n (mtl_matrix jac x (t + dt)%R dt)).
  { intros b. destruct (Hn b) as [y Hy]. exists y. intros k Hk. rewrite <- Hy by exact Hk.
    unfold matvec. f_equal. apply map_ext_in. intros c Hc. apply in_seq in Hc.
    unfold mtl_matrix. rewrite Hj by lia. reflexivity. }
  pose proof (mtl_increment e x t dt (fun k Hk => Hsol _ x _ Hn' k Hk) r Hr) as E.
  cbv zeta in E. fold x1 in E.
  rewrite (Hf x1 (t + dt)%R r Hr). rewrite (Hf x (t + dt)%R r Hr) in E.
  assert (L : matvec n (jac x (t + dt)%R) (fun i => (x1 i - x i)%R) r
              = matvec n (A (t + dt)) x1 r - matvec n (A (t + dt)) x r).
  { unfold matvec. assert (S : forall c, In c (seq 0 n) -> (c < n)%nat) by (intros c Hc; apply in_seq in Hc; lia).
    induction (seq 0 n) as [|c l IH]; simpl; [ring|].
    rewrite IH by (intros c' Hc'; apply S; right; exact Hc').
    rewrite (Hj x (t + dt)%R r c Hr (S c (or_introl eq_refl))).
    change (carrier NN) with R in *. ring. }
  rewrite L in E. change (carrier NN) with R in *. lra.
Qed.

Lemma mtl_residual e K (x : vec NN nat) (t dt : R) :
  nonsingular n (mtl_matrix jac x (t + dt)%R dt) ->
  (forall (y : vec NN nat) r, (r < n)%nat ->
     Rabs (f y (t + dt)%R r - f x (t + dt)%R r
           - matvec n (jac x (t + dt)%R) (fun i => (y i - x i)%R) r)
     <= K * fold_right Rplus 0 (map (fun c => (y c - x c) * (y c - x c)) (seq 0 n))) ->
  forall r, (r < n)%nat ->
    let x1 := mtl_do_step f jac solver e x t dt in
    Rabs (x1 r - (x r + dt * f x1 (t + dt)%R r))
    <= Rabs dt * (K * fold_right Rplus 0 (map (fun c => (x1 c - x c) * (x1 c - x c)) (seq 0 n))).
Proof.
  intros Hn HK r Hr x1.
  pose proof (mtl_increment e x t dt (fun k Hk => Hsol _ x _ Hn k Hk) r Hr) as E.
  cbv zeta in E. fold x1 in E.
  specialize (HK x1 r Hr).
  set (M := matvec n (jac x (t + dt)%R) (fun i => (x1 i - x i)%R) r) in *.
  set (F1 := f x1 (t + dt)%R r) in *. set (F0 := f x (t + dt)%R r) in *.
  change (carrier NN) with R in *.
  replace (x1 r - (x r + dt * F1)) with (- (dt * (F1 - F0 - M))) by lra.
  rewrite Rabs_Ropp, Rabs_mult.
  apply Rmult_le_compat_l; [apply Rabs_pos|exact HK].
Qed.
End P.

(** f(x) = x^2 in one dimension, with an exact solver. *)
Definition sq_f (eps : R) : vec (RNum eps) nat -> RNum eps -> vec (RNum eps) nat :=
  fun x _ _ => (x 0%nat * x 0%nat)%R.
Definition sq_jac (eps : R) : vec (RNum eps) nat -> RNum eps -> mat (RNum eps) :=
  fun x _ _ _ => (2 * x 0%nat)%R.
Definition div_solver (eps : R) : mat (RNum eps) -> vec (RNum eps) nat -> vec (RNum eps) nat -> vec (RNum eps) nat :=
  fun M _ b _ => (b 0%nat / M 0%nat 0%nat)%R.

Lemma div_solver_exact eps : exact_solver 1 (div_solver eps).
Proof.
  intros M x b Hn r Hr. replace r with 0%nat by lia.
  unfold matvec, div_solver. simpl.
  assert (Hm : M 0%nat 0%nat <> 0%R).
  { intros Z. destruct (Hn (fun _ => 1)) as [y Hy]. specialize (Hy 0%nat ltac:(lia)).
    unfold matvec in Hy. simpl in Hy. rewrite Z in Hy. lra. }
  change (carrier (RNum eps)) with R in *. field. exact Hm.
Qed.

Lemma sq_step eps e (d : R) : 0 < d ->
  @eq R (mtl_do_step (sq_f eps) (sq_jac eps) (div_solver eps) e (fun _ => d) 0 (/ (4 * d)) 0%nat) (3 / 2 * d).
Proof.
  intros H. unfold mtl_do_step, mtl_matrix, sq_f, sq_jac, div_solver. simpl.
  change (carrier (RNum eps)) with R. field. lra.
Qed.

Lemma mtl_epsilon_ignored eps (e : R) : 0 < e ->
  exists (f : vec (RNum eps) nat -> RNum eps -> vec (RNum eps) nat)
    (jac : vec (RNum eps) nat -> RNum eps -> mat (RNum eps))
    (solver : mat (RNum eps) -> vec (RNum eps) nat -> vec (RNum eps) nat -> vec (RNum eps) nat)
    (x : vec (RNum eps) nat) (t dt : R),
    exact_solver 1 solver
    /\ (forall (y : vec (RNum eps) nat) (s : R), derivable_pt_lim (fun u => f (fun _ => u) s 0%nat) (y 0%nat) (jac y s 0%nat 0%nat))
    /\ nonsingular 1 (mtl_matrix jac x (t + dt)%R dt)
    /\ let x1 := mtl_do_step f jac solver e x t dt in
       Rabs (x1 0%nat - (x 0%nat + dt * f x1 (t + dt)%R 0%nat)) > e.
Proof.
  intros H. set (d := 32 * e).
  exists (sq_f eps), (sq_jac eps), (div_solver eps), (fun _ => d), 0, (/ (4 * d)).
  assert (Hd : 0 < d) by (unfold d; lra).
  split; [apply div_solver_exact|]. split; [|split].
  - intros y s. unfold sq_f, sq_jac.
    pose proof (derivable_pt_lim_mult id id (y 0%nat) 1 1 (derivable_pt_lim_id _) (derivable_pt_lim_id _)) as D.
    unfold id in D. replace (2 * y 0%nat) with (1 * y 0%nat + y 0%nat * 1) by (change (carrier (RNum eps)) with R; ring).
    exact D.
  - intros b. exists (fun _ => -2 * b 0%nat). intros r Hr. replace r with 0%nat by lia.
    unfold matvec, mtl_matrix, sq_jac. simpl. change (carrier (RNum eps)) with R. field. lra.
  - cbv zeta. unfold sq_f at 2. rewrite sq_step by exact Hd.
    replace (3 / 2 * d - (d + / (4 * d) * (3 / 2 * d * (3 / 2 * d)))) with (- (2 * e)) by (unfold d; field; lra).
    rewrite Rabs_Ropp, Rabs_right; lra.
Qed.

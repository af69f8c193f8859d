(** Theorems about the MKL operations, implicit_euler_mtl4, gsl_vector and boost::multi_array
    states (C104-C111). *)
From Coq Require Import ZArith QArith List Bool Arith Lia Reals Lra.
From Verif Require Import M_Num M_Run M_RK M_LU M_Mkl M_Mtl M_Gsl M_MArray S_Back P_Mkl P_Mtl P_Gsl P_MArray X_Inst.
Import ListNotations.
Local Open Scope nat_scope.

(** ** C104: steppers compiled with mkl_operations *)

(** do_step of euler, runge_kutta4 and runge_kutta4_classic with mkl_operations: same buffers, same
    system calls as with default_operations, for every aliasing of the arguments, any arithmetic. *)
Theorem C104_mkl_steppers : forall (N : Num) I (sys : vec N I -> N -> vec N I) al name (t dt : N)
    (m : rkmem N I),
  In name [rk_euler; rk_rk4; rk_rk4_classic] ->
  mkl_exec sys al (do_step_prog (rk_impl name t dt) t) m
  = Some (exec sys al (do_step_prog (rk_impl name t dt) t) m).
Proof. exact mkl_steppers. Qed.
Print Assumptions C104_mkl_steppers.

(** In place, x' = x, x = 1, dt = 1/2: the classic fourth-order value 211/128. *)
Example C104_ex :
  exists m c, mkl_exec (N := Q0) (fun (x : unit -> Q) _ => x) (mkAlias true true)
    (do_step_prog (N := Q0) (rk_impl (N := Q0) rk_rk4 0%Q (1#2)%Q) 0%Q) (fun _ _ => 1%Q) = Some (m, c)
    /\ (m LIn tt == 211 # 128)%Q /\ length c = 4.
Proof. eexists. eexists. split; [vm_compute; reflexivity|]. split; reflexivity. Qed.

(** ** C105: aliasing in mkl_operations *)

(** t1 = a1*t2 + a2*t3 with t3 the same container as t1: t3 is overwritten before it is read. *)
Theorem C105_refuted :
  exists (al : alias) (d : loc) (ts : list (Q0 * loc)) (m m' : rkmem Q0 unit),
    2 <= length ts <= 5 /\ mkl_sum al d ts m = Some m'
    /\ ~ (m' (resolve al d) tt
          == fold_right Qplus 0 (map (fun p => fst p * m (resolve al (snd p)) tt) ts))%Q.
Proof.
  exists (mkAlias false false), LOut, [(4#3, LIn); (-1#3, LOut)]%Q, (fun _ _ => 1%Q).
  eexists. split; [simpl; lia|]. split; [reflexivity|]. vm_compute. intros E. discriminate E.
Qed.
Print Assumptions C105_refuted.

(** Full statement: for every aliasing the output holds a1*t2 + a2*t3 + ... of the values before the
    call and nothing else changes.  It holds if the output is not one of the operands after the first. *)
Theorem C105_partial : forall (eps : R) I al d (ts : list (RNum eps * loc)) (m : rkmem (RNum eps) I),
  2 <= length ts <= 5 ->
  (forall p, In p (tl ts) -> resolve al d <> resolve al (snd p)) ->
  exists m', mkl_sum al d ts m = Some m'
    /\ (forall i, m' (resolve al d) i
                 = fold_right Rplus 0%R (map (fun p => (fst p * m (resolve al (snd p)) i)%R) ts))
    /\ (forall l, l <> resolve al d -> m' l = m l).
Proof. exact mkl_sum_spec. Qed.
Print Assumptions C105_partial.

Example C105_ex : exists m', mkl_sum (N := Q0) (mkAlias true false) LOut
    [(2%Q, LIn); (3%Q, LDx)] (fun l (_ : unit) => match l with LIn => 5%Q | _ => 7%Q end) = Some m'
  /\ (m' LIn tt == 31)%Q /\ (m' LDx tt == 7)%Q.
Proof. eexists. split; [reflexivity|]. split; reflexivity. Qed.

(** ** C106, C107: implicit_euler_mtl4 *)

(** f(x,t) = A(t) x + g(t) with its Jacobian, exact solver, nonsingular matrix dt*A - 1: the step
    solves the implicit Euler equation. *)
Theorem C106_affine : forall (eps : R) n (f : vec (RNum eps) nat -> RNum eps -> vec (RNum eps) nat)
    (jac : vec (RNum eps) nat -> RNum eps -> mat (RNum eps))
    (solver : mat (RNum eps) -> vec (RNum eps) nat -> vec (RNum eps) nat -> vec (RNum eps) nat),
  exact_solver n solver ->
  forall e (A : R -> nat -> nat -> R) (g : R -> nat -> R) (x : vec (RNum eps) nat) (t dt : R),
  (forall (y : vec (RNum eps) nat) (s : R) r, r < n -> f y s r = (matvec n (A s) y r + g s r)%R) ->
  (forall (y : vec (RNum eps) nat) (s : R) r c, r < n -> c < n -> jac y s r c = A s r c) ->
  nonsingular n (fun r c => A (t + dt) r c * dt - (if Nat.eqb r c then 1 else 0))%R ->
  forall r, r < n ->
    let x1 := mtl_do_step f jac solver e x t dt in
    x1 r = (x r + dt * f x1 (t + dt) r)%R.
Proof. exact mtl_affine. Qed.
Print Assumptions C106_affine.

(** x' = -3x + t in one dimension, dt = 1. *)
Example C106_ex : exact_solver 1 (div_solver 0) /\
  nonsingular 1 (fun r c => -3 * 1 - (if Nat.eqb r c then 1 else 0))%R /\
  mtl_do_step (N := RNum 0) (fun x (t : R) _ => (-3 * x 0%nat + t)%R) (fun _ _ _ _ => (-3)%R) (div_solver 0)
    0%R (fun _ => 7%R) 0%R 1%R 0 = 2%R.
Proof.
  split; [apply div_solver_exact|]. split.
  - intros b. exists (fun _ => (- b 0%nat / 4)%R). intros r Hr. replace r with 0 by lia.
    unfold matvec. simpl. field.
  - unfold mtl_do_step, mtl_matrix, div_solver. simpl. field.
Qed.

(** The tolerance given to the constructor has no effect: for every epsilon there is a right-hand
    side with exact derivative for which the implicit equation is missed by more. *)
Theorem C107_refuted : forall (eps e : R), (0 < e)%R ->
  exists (f : vec (RNum eps) nat -> RNum eps -> vec (RNum eps) nat)
    (jac : vec (RNum eps) nat -> RNum eps -> mat (RNum eps))
    (solver : mat (RNum eps) -> vec (RNum eps) nat -> vec (RNum eps) nat -> vec (RNum eps) nat)
    (x : vec (RNum eps) nat) (t dt : R),
    exact_solver 1 solver
    /\ (forall (y : vec (RNum eps) nat) (s : R),
          derivable_pt_lim (fun u => f (fun _ => u) s 0) (y 0) (jac y s 0 0))
    /\ nonsingular 1 (mtl_matrix jac x (t + dt)%R dt)
    /\ let x1 := mtl_do_step f jac solver e x t dt in
       (Rabs (x1 0%nat - (x 0%nat + dt * f x1 (t + dt) 0%nat)) > e)%R.
Proof. exact mtl_epsilon_ignored. Qed.
Print Assumptions C107_refuted.

(** Full statement: the implicit equation holds up to epsilon.  What holds: it is missed by at most
    |dt| * K * |x1 - x|^2 if f has a second-order remainder bounded by K. *)
Theorem C107_partial : forall (eps : R) n (f : vec (RNum eps) nat -> RNum eps -> vec (RNum eps) nat)
    (jac : vec (RNum eps) nat -> RNum eps -> mat (RNum eps))
    (solver : mat (RNum eps) -> vec (RNum eps) nat -> vec (RNum eps) nat -> vec (RNum eps) nat),
  exact_solver n solver ->
  forall e K (x : vec (RNum eps) nat) (t dt : R),
  nonsingular n (mtl_matrix jac x (t + dt)%R dt) ->
  (forall (y : vec (RNum eps) nat) r, r < n ->
     (Rabs (f y (t + dt)%R r - f x (t + dt)%R r
            - matvec n (jac x (t + dt)%R) (fun i => (y i - x i)%R) r)
      <= K * fold_right Rplus 0 (map (fun c => (y c - x c) * (y c - x c)) (seq 0 n)))%R) ->
  forall r, r < n ->
    let x1 := mtl_do_step f jac solver e x t dt in
    (Rabs (x1 r - (x r + dt * f x1 (t + dt) r))
     <= Rabs dt * (K * fold_right Rplus 0 (map (fun c => (x1 c - x c) * (x1 c - x c)) (seq 0 n))))%R.
Proof. exact mtl_residual. Qed.
Print Assumptions C107_partial.

(** x^2 has remainder constant 1. *)
Example C107_ex : forall (y x : nat -> R) t,
  (Rabs (sq_f 0 y t 0%nat - sq_f 0 x t 0%nat
         - matvec 1 (sq_jac 0 x t) (fun i => y i - x i) 0%nat)
   <= 1 * fold_right Rplus 0 (map (fun c => (y c - x c) * (y c - x c)) (seq 0 1)))%R.
Proof.
  intros y x t. unfold sq_f, sq_jac, matvec. simpl.
  replace (y 0%nat * y 0%nat - x 0%nat * x 0%nat - (2 * x 0%nat * (y 0%nat - x 0%nat) + 0))%R
    with ((y 0%nat - x 0%nat) * (y 0%nat - x 0%nat))%R by ring.
  rewrite Rabs_right; [lra|]. apply Rle_ge. apply Rle_0_sqr.
Qed.

(** ** C108: gsl_vector iterators *)

(** The element loop over a strided gsl_vector ends after size steps and visits element 0, 1, ... in
    order; advance(n) is n increments. *)
Theorem C108_gsl_iterator : forall V (g : gvec V), 0 < g_stride g ->
  (forall i, i < g_size g -> g_data g + i * g_stride g < length (g_block g)) ->
  exists vs, g_loop (g_size g) g (g_begin g) (g_end g) = Ok vs
    /\ map Some vs = strided (g_block g) (g_data g) (g_stride g) (g_size g).
Proof. exact g_loop_all. Qed.
Print Assumptions C108_gsl_iterator.

Theorem C108_gsl_advance : forall (i : giter) n,
  g_advance i n = fold_left (fun j _ => g_incr j) (seq 0 n) i.
Proof. exact g_advance_iter. Qed.
Print Assumptions C108_gsl_advance.

Example C108_ex : g_loop 3 (mkGvec [1;2;3;4;5;6;7] 1 3 2) (1, 2) (7, 2) = Ok [2;4;6].
Proof. reflexivity. Qed.

(** ** C109: copies of state_wrapper< gsl_vector* > *)

(** The copy constructor always frees an indeterminate pointer. *)
Theorem C109_copy_refuted : forall V (junk : V) (x : gptr) (h : gheap V), w_copy junk x h = UB.
Proof. exact w_copy_ub. Qed.
Print Assumptions C109_copy_refuted.

(** Assigning one new wrapper to another and destroying both frees a vector twice. *)
Theorem C109_assign_refuted : forall V (junk : V) (h : gheap V),
  (forall c, h_next h <= c -> h_at h c = None) ->
  let (w1, h1) := w_default junk h in
  let (w2, h2) := w_default junk h1 in
  exists h3, w_destroy w2 h2 = Ok h3 /\ w_destroy (w_assign w1 w2) h3 = UB
             /\ exists v, g_read w1 h3 = Ok v.
Proof.
  intros V junk h Hn. simpl.
  unfold w_destroy, g_free, w_assign, g_read, h_set, g_alloc. simpl. rewrite Nat.eqb_refl.
  eexists. split; [reflexivity|]. simpl. rewrite Nat.eqb_refl. split; [reflexivity|].
  assert (E : (h_next h =? h_next h) = true) by apply Nat.eqb_refl.
  destruct (S (h_next h) =? h_next h) eqn:E2; [apply Nat.eqb_eq in E2; lia|].
  exists (repeat junk 1).
  destruct (h_next h) as [|k]; simpl in *; rewrite ?E2, ?E; simpl; rewrite ?Nat.eqb_refl; reflexivity.
Qed.
Print Assumptions C109_assign_refuted.

(** Full statement: default construction, copy construction, assignment, adjust_size and destruction
    in any order have no undefined behaviour and no leak.  Missing (false): copy construction and
    assignment.  What holds: adjust_size gives a buffer of the right size, frees the old one, keeps
    everything else. *)
Theorem C109_partial : forall V (junk : V) (h : gheap V) a b u v,
  h_at h a = Some u -> h_at h b = Some v -> (forall c, h_next h <= c -> h_at h c = None) ->
  exists r w h', w_adjust junk (Some a) (Some b) h = Ok (r, w, h')
    /\ (exists l, g_read w h' = Ok l /\ length l = length v)
    /\ g_read (Some b) h' = Ok v
    /\ (forall c, Some c <> w -> c <> a -> h_at h' c = h_at h c)
    /\ (w <> Some a -> h_at h' a = None)
    /\ (forall c, h_next h' <= c -> h_at h' c = None)
    /\ r = negb (length u =? length v).
Proof. exact w_adjust_ok. Qed.
Print Assumptions C109_partial.

Example C109_ex :
  let h := mkHeap 2 (fun a => match a with 0 => Some [1] | 1 => Some [5;6;7] | _ => None end) in
  exists h', w_adjust 0 (Some 0) (Some 1) h = Ok (true, Some 2, h') /\ g_read (Some 2) h' = Ok [0;0;0]
             /\ h_at h' 0 = None.
Proof. eexists. split; [reflexivity|]. split; reflexivity. Qed.

(** ** C110, C111: boost::multi_array states *)

(** resize makes the arrays equal in shape and index bases, which same_size confirms; same_size is
    true for no other pair. *)
Theorem C110_resize : forall (N : Num) fill (x1 x2 : marray N), ma_wf x2 ->
  let y := ma_resize fill x1 x2 in
  ma_wf y /\ ma_same_size y x2 = true /\ ma_shape y = ma_shape x2 /\ ma_bases y = ma_bases x2
  /\ length (ma_data y) = length (ma_data x2).
Proof. exact @ma_resize_ok. Qed.
Print Assumptions C110_resize.

Theorem C110_same_size : forall (N : Num) (x1 x2 : marray N), ma_wf x1 -> ma_wf x2 ->
  length (ma_shape x1) = length (ma_shape x2) ->
  (ma_same_size x1 x2 = true <-> ma_shape x1 = ma_shape x2 /\ ma_bases x1 = ma_bases x2).
Proof.
  intros N x1 x2 [W1 _] [W2 _] L. apply ma_same_size_refl_iff; congruence.
Qed.
Print Assumptions C110_same_size.

Example C110_ex :
  ma_same_size (N := Q0) (ma_default (N := Q0) 2) (mkMarray (N := Q0) [2;2] [-1;5]%Z c_order [1;2;3;4]%Q) = false
  /\ ma_bases (ma_resize (N := Q0) (fun _ _ _ => 0%Q) (ma_default (N := Q0) 2) (mkMarray (N := Q0) [2;2] [-1;5]%Z c_order [1;2;3;4]%Q))
     = [-1;5]%Z.
Proof. split; reflexivity. Qed.

(** for_eachN with scale_sumN on arrays of one shape and storage order acts index by index. *)
Theorem C111_for_each : forall (N : Num) (s1 : marray N) (ts : list (N * marray N)),
  Forall (fun p => ma_like s1 (snd p)) ts ->
  exists s, ma_for_each s1 ts = Some s
    /\ ma_shape s = ma_shape s1 /\ ma_bases s = ma_bases s1 /\ ma_order s = ma_order s1
    /\ forall idx r, zero_based (ma_shape s1) (ma_bases s1) idx = Some r ->
       forall vs, Forall2 (fun p v => ma_get (snd p) idx = Some v) ts vs ->
       ma_get s idx = Some (scale_sum (combine (map fst ts) vs)).
Proof. exact @ma_for_each_get. Qed.
Print Assumptions C111_for_each.

(** A state with Fortran storage order: the derivative buffer of the stepper has C order, the step
    adds the transposed derivative. *)
Theorem C111_refuted :
  exists (sys : marray Q0 -> Q0 -> list Z -> Q0) (x y : marray Q0) (idx : list Z) (v w : Q),
    ma_wf x /\ ma_euler (N := Q0) (fun _ _ _ => 0%Q) sys x 0%Q 1%Q = Some y
    /\ ma_get x idx = Some v /\ ma_get y idx = Some w
    /\ ~ (w == v + 1 * sys x 0%Q idx)%Q.
Proof.
  exists (fun _ _ idx => match idx with [0; 1]%Z => 1%Q | _ => 0%Q end),
    (mkMarray (N := Q0) [2;2] [0;0]%Z fortran_order [0;0;0;0]%Q).
  eexists. exists [0;1]%Z. eexists. eexists.
  split; [split; reflexivity|]. split; [vm_compute; reflexivity|].
  split; [vm_compute; reflexivity|]. split; [vm_compute; reflexivity|].
  vm_compute. intros E. discriminate E.
Qed.
Print Assumptions C111_refuted.

(** Full statement: an euler step adds dt times the derivative index by index for every array.  It
    holds for C storage order (any number of dimensions, extents and index bases). *)
Theorem C111_partial : forall (N : Num) fill sys (x : marray N) t dt, ma_wf x -> ma_order x = c_order ->
  exists y, ma_euler fill sys x t dt = Some y
    /\ ma_shape y = ma_shape x /\ ma_bases y = ma_bases x /\ ma_order y = ma_order x
    /\ forall idx v, ma_get x idx = Some v ->
         ma_get y idx = Some (nadd (nmul (nofZ 1) v) (nmul dt (sys x t idx))).
Proof. exact @ma_euler_c. Qed.
Print Assumptions C111_partial.

Example C111_ex :
  exists y v, ma_euler (N := Q0) (fun _ _ _ => 0%Q) (fun _ _ idx => inject_Z (fold_right Z.add 0%Z idx))
     (mkMarray (N := Q0) [2;3] [-1;0]%Z c_order [1;2;3;4;5;6]%Q) 0%Q (1#2)%Q = Some y
   /\ ma_get y [0;2]%Z = Some v /\ (v == 7)%Q.
Proof. eexists. eexists. split; [vm_compute; reflexivity|]. split; [vm_compute; reflexivity|]. reflexivity. Qed.

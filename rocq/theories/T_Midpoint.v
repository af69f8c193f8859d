(** Theorems about modified_midpoint, the extrapolation tables and extrapolation_stepper
    (C39, C40, C49, C50). *)
From Coq Require Import ZArith List Bool Lia Arith Reals Lra QArith.
From Verif Require Import M_Num M_Run M_RK M_Midpoint M_BS S_Midpoint S_CtrlRK P_RK P_Midpoint P_BS P_BSInd P_Neville P_Extrap.
Import ListNotations.
Local Open Scope res_scope.

(** ** C50: modified_midpoint with [n] sub-steps is Gragg's scheme with smoothing, in any arithmetic
    and for any aliasing of the buffers; it evaluates the system exactly n+1 times, at (x,t) and at
    the nodes of the scheme. *)
Theorem C50_gragg : forall (N : Num) (I : Type) (f : vec N I -> N -> vec N I) al n t dt (m : rkmem N I),
  (1 <= n)%nat ->
  let h := ndiv dt (nofnat n) in
  exists m' z th,
    gragg f (m LIn) (f (m LIn) t) t h z th
    /\ run_step f al (mm_prog n t dt) t m = (m', map (fun j => (z j, th j)) (seq 0 (S n)))
    /\ m' (resolve al LOut) = smoothed f h z th n.
Proof.
  intros N I f al n t dt m Hn h. destruct (mm_do_step f al n t dt m Hn) as (m' & E & O).
  exists m', (gz f (m LIn) (f (m LIn) t) t h), (gth t h). split; [apply gz_gragg|]. split; [exact E|exact O].
Qed.
Print Assumptions C50_gragg.

(** The scheme is determined by its equations, so the theorem fixes the result. *)
Theorem C50_unique : forall (N : Num) (I : Type) (f : vec N I -> N -> vec N I) x dx t h z th z' th',
  gragg f x dx t h z th -> gragg f x dx t h z' th' -> forall m, z m = z' m /\ th m = th' m.
Proof.
  intros N I f x dx t h z th z' th' H1 H2 m.
  destruct (gragg_unique f x dx t h z th H1) as [A1 A2]. destruct (gragg_unique f x dx t h z' th' H2) as [B1 B2].
  split; congruence.
Qed.
Print Assumptions C50_unique.

(** Exact for right-hand sides linear in t. *)
Theorem C50_linear : forall (eps : R) (I : Type) (a b : I -> R) al n t dt (m : rkmem (RNum eps) I), (1 <= n)%nat ->
  let f := fun (_ : I -> R) (s : R) (i : I) => (a i + b i * s)%R in
  forall i, fst (run_step (N := RNum eps) f al (mm_prog (N := RNum eps) n t dt) t m) (resolve al LOut) i
    = (m LIn i + a i * dt + b i * (t * dt + dt * dt / 2))%R.
Proof.
  intros eps I a b al n t dt m Hn f i. destruct (mm_do_step (N := RNum eps) f al n t dt m Hn) as (m' & E & O).
  rewrite E. cbn [fst]. rewrite O. rewrite P_R.nofnat_R. exact (mm_lin eps a b n (m LIn) t dt i Hn).
Qed.
Print Assumptions C50_linear.

(** x' = 2t from x = 1 at t = 3 to t = 5 with 3 sub-steps, in place: 1 + 25 - 9 = 17. *)
Example C50_example :
  let f := fun (_ : unit -> Q) (s : Q) (_ : unit) => (2 * s)%Q in
  let r := run_step (N := QNum 0) f (mkAlias true false) (mm_prog (N := QNum 0) 3 3%Q 2%Q) 3%Q (fun _ _ => 1%Q) in
  fst r LIn tt = 17%Q /\ length (snd r) = 4%nat.
Proof. vm_compute. split; reflexivity. Qed.

(** ** C39 for modified_midpoint: in-place and out-of-place steps agree, in any arithmetic. *)
Theorem C39_midpoint : forall (N : Num) I (f : vec N I -> N -> vec N I) n al t dt (m : rkmem N I), (1 <= n)%nat ->
  let r := run_step f al (mm_prog n t dt) t m in
  let r0 := run_step f (mkAlias false false) (mm_prog n t dt) t m in
  fst r (resolve al LOut) = fst r0 LOut /\ snd r = snd r0.
Proof.
  intros N I f n al t dt m Hn r r0.
  destruct (mm_do_step f al n t dt m Hn) as (m1 & E1 & O1).
  destruct (mm_do_step f (mkAlias false false) n t dt m Hn) as (m2 & E2 & O2).
  subst r r0. rewrite E1, E2. cbn [fst snd]. split; [|reflexivity]. rewrite O1. symmetry. exact O2.
Qed.
Print Assumptions C39_midpoint.
Example C39_midpoint_example :
  let f := fun (x : unit -> Q) (s : Q) (i : unit) => (x i * s)%Q in
  fst (run_step (N := QNum 0) f (mkAlias true false) (mm_prog (N := QNum 0) 4 1%Q (1 # 2)%Q) 1%Q (fun _ _ => 1%Q)) LIn tt
  = fst (run_step (N := QNum 0) f (mkAlias false false) (mm_prog (N := QNum 0) 4 1%Q (1 # 2)%Q) 1%Q (fun _ _ => 1%Q)) LOut tt
  /\ Qeq_bool (fst (run_step (N := QNum 0) f (mkAlias false false) (mm_prog (N := QNum 0) 4 1%Q (1 # 2)%Q) 1%Q (fun _ _ => 1%Q)) LOut tt) 1 = false.
Proof. vm_compute. split; reflexivity. Qed.

(** ** C49: the extrapolation table.

    The loop of the extrapolation methods: the entry of round [k] goes to [table[k-1]], then
    extrapolate( k , table , coeff , out ). *)
Fixpoint feed {N : Num} {I : Type} (coeff : list (list N)) (y : nat -> vec N I) (n k : nat) (table : list (vec N I)) (out : vec N I)
  : res (list (vec N I) * vec N I) :=
  match n with
  | O => Ok (table, out)
  | S n' => let! table1 := vset table (k - 1) (y k) in
            let! (table2, out2) := extrapolate coeff k table1 out in
            feed coeff y n' (S k) table2 out2
  end.

(** For every number K of rounds, every increasing sequence of sub-step numbers, all entries
    y_0 .. y_K and every table of sufficient size: there is a polynomial of degree <= K in h^2
    through the entries, and the result is the value at 0 of every such polynomial. *)
Theorem C49_table : forall (eps : R) (I : Type) (q : nat -> nat) (h : R) (K : nat) (y : nat -> I -> R) (table : list (I -> R)),
  (forall i j, (i < j <= K)%nat -> (0 < q i < q j)%nat) -> (K <= length table)%nat -> h <> 0%R ->
  exists table' out,
    feed (N := RNum eps) (ex_coeffs (N := RNum eps) q (K + 1)) y K 1 table (y 0%nat) = Ok (table', out)
    /\ forall i, (exists p, (length p <= S K)%nat /\ forall k, (k <= K)%nat -> peval p (Rsqr (h / INR (q k))) = y k i)
       /\ forall p, (length p <= S K)%nat -> (forall k, (k <= K)%nat -> peval p (Rsqr (h / INR (q k))) = y k i) ->
          out i = peval p 0.
Proof.
  intros eps I q h K y table Hq Hl Hh.
  assert (G : forall n k table out, (n + k = K + 1)%nat -> (0 < k)%nat -> (K <= length table)%nat ->
    nev_inv (N := RNum eps) q y k table out ->
    exists table', feed (N := RNum eps) (ex_coeffs (N := RNum eps) q (K + 1)) y n k table out = Ok (table', nev (N := RNum eps) q y K K)).
  { induction n as [|n IH]; intros k tb out Hn Hk Hlt Hi.
    - exists tb. cbn [feed]. destruct (Hi Hk) as [_ ->]. do 3 f_equal; lia.
    - cbn [feed].
      destruct (extrapolate_nev (N := RNum eps) q y (K + 1) k tb out ltac:(lia) ltac:(lia) Hi) as (t1 & t2 & E1 & E2 & L2 & H2 & _).
      rewrite E1. cbn [rbind]. rewrite E2. cbn [rbind]. apply IH; try lia; try exact H2. }
  destruct (G K 1%nat table (y 0%nat) ltac:(lia) ltac:(lia) Hl) as (table' & E).
  { intros _. split; [intros j Hj; lia|reflexivity]. }
  exists table', (nev (N := RNum eps) q y K K). split; [exact E|]. intro i. split.
  - apply (interpolant_exists (hsq q h) (fun k => y k i) K). apply hsq_distinct; assumption.
  - intros p Hp Hy. apply (nev_poly eps q h Hh K Hq y i p Hp). intros k Hk. symmetry. now apply Hy.
Qed.
Print Assumptions C49_table.

(** extrapolation_stepper< Order >: the out-of-place step returns the value at 0 of the polynomial
    of degree (Order-2)/2 in h^2 through the midpoint results with 2, 4, ..., Order sub-steps. *)
Theorem C49_extrapolation_stepper : forall (eps : R) (I : Type) (f : (I -> R) -> R -> (I -> R)) order (s : es (RNum eps) I) x t dt,
  (es_kmax order <= length (es_table s))%nat -> dt <> 0%R ->
  exists s' out y,
    es_do_step_out (N := RNum eps) f order s x t dt = Ok (s', out)
    /\ mid_values (N := RNum eps) f es_seq x t dt y
    /\ forall i p, (length p <= S (es_kmax order))%nat ->
        (forall k, (k <= es_kmax order)%nat -> peval p (Rsqr (dt / INR (es_seq k))) = y k i) -> out i = peval p 0.
Proof.
  intros eps I f order s x t dt Hl Hd.
  destruct (es_impl_nev (N := RNum eps) f order s x (f x t) t dt Hl) as (s' & E & _).
  exists s', (nev (N := RNum eps) es_seq (es_y (N := RNum eps) f x (f x t) t dt) (es_kmax order) (es_kmax order)), (es_y (N := RNum eps) f x (f x t) t dt).
  split; [exact E|]. split.
  - intro k. eexists _, _. split; [apply gz_gragg|reflexivity].
  - intros i p Hp Hy. apply (nev_poly eps es_seq dt Hd (es_kmax order) (es_seq_inc _) _ i p Hp). intros k Hk. symmetry. now apply Hy.
Qed.
Print Assumptions C49_extrapolation_stepper.

(** Entries of 7 - 2 h^2 + 5 h^4 at h = 1/2, 1/4, 1/6. *)
Example C49_example :
  let y := fun k (_ : unit) => (let z := 1 # (Pos.of_nat (es_seq k * es_seq k)) in 7 - 2 * z + 5 * z * z)%Q in
  match feed (N := QNum 0) (ex_coeffs (N := QNum 0) es_seq 3) y 2 1 [y 0; y 0]%nat (y 0%nat) with
  | Ok (_, out) => Qeq_bool (out tt) 7 | _ => false end = true.
Proof. vm_compute. reflexivity. Qed.

(** ** C40.  The property is false: for x' = 1 the in-place step of extrapolation_stepper< 4 > from
    x = 0 with dt = 1 gives 7/3 (from round 1 on the midpoint steps start at the previous estimate),
    the out-of-place step gives 1. *)
Theorem C40_refuted : exists (f : (unit -> Q) -> Q -> (unit -> Q)) (s : es (QNum 0) unit) x t dt s1 s2 o1 o2,
  es_do_step_inplace (N := QNum 0) f 4 s x t dt = Ok (s1, o1)
  /\ es_do_step_out (N := QNum 0) f 4 s x t dt = Ok (s2, o2)
  /\ Qeq_bool (o1 tt) (7 # 3) = true /\ Qeq_bool (o2 tt) 1 = true.
Proof.
  exists (fun _ _ _ => 1%Q), (mkEs (N := QNum 0) (fun _ _ => 0%Q) [fun _ => 0%Q] (fun _ => 0%Q)), (fun _ => 0%Q), 0%Q, 1%Q.
  eexists _, _, _, _. split; [reflexivity|]. split; [reflexivity|]. vm_compute. split; reflexivity.
Qed.
Print Assumptions C40_refuted.

(** What does hold: do_step_dxdt with the right derivative agrees with the out-of-place step, for
    every order, whatever the members contain. *)
Theorem C40_dxdt_partial : forall (N : Num) (I : Type) (f : vec N I -> N -> vec N I) order (s1 s2 : es N I) x t dt,
  (es_kmax order <= length (es_table s1))%nat -> (es_kmax order <= length (es_table s2))%nat ->
  exists s1' s2' out, es_do_step_out f order s1 x t dt = Ok (s1', out) /\ es_do_step_dxdt f order s2 x (f x t) t dt = Ok (s2', out).
Proof. intros N I f order. exact (es_dxdt_out f order). Qed.
Print Assumptions C40_dxdt_partial.
Example C40_example : exists s',
  es_do_step_out (N := QNum 0) (fun (x : unit -> Q) s i => x i * s)%Q 4 (mkEs (N := QNum 0) (fun _ _ => 0%Q) [fun _ => 0%Q] (fun _ => 0%Q))
    (fun _ => 1%Q) 1%Q 1%Q = Ok s' /\ Qeq_bool (snd s' tt) 1 = false.
Proof. eexists. split; [reflexivity|]. vm_compute. reflexivity. Qed.

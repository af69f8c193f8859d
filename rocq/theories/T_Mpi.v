(** C138, C139: controlled steps on states distributed over MPI ranks. *)
From Coq Require Import ZArith QArith List Bool Arith Lia Permutation Reals Floats.SpecFloat.
From Verif Require Import M_Num M_Run M_Par S_Par P_Norm M_RK M_CtrlRK M_Mpi S_Mpi P_Mpi X_Inst.
Import ListNotations.
Local Open Scope nat_scope.

(** ** C138 *)

(** Whatever the caller does with the outcomes, the run of the ranks ends, every rank sees the
    outcomes (t, dt, success) of the serial run on the whole container, and is left with its part
    of the state. *)
Theorem C138_ranks : forall (N : Num) (okn : N -> Prop), norm_order N okn ->
  forall (np : nat) (sz : nat -> nat) dsys (sys : vec N (nat * nat) -> N -> vec N (nat * nat)) red,
  0 < np -> distributes np sz dsys sys -> reduces red ->
  forall next pw name error_order stepper_order (cfg : err_cfg N) max_dt xcomm n h
         (c : nat -> ck N nat (rkmem N nat)) C (x : nat -> vec N nat) X (t : N),
  (forall r, r < np -> ck_part sz r (c r) C /\ part_of sz r (x r) X) ->
  exists out : nat -> option (vec N nat * list (N * N * bool)),
    (exists n0, forall fuel, n0 <= fuel ->
       lock np dsys red fuel
         (fun r => rank_calls next (seq 0 np) pw name error_order stepper_order cfg max_dt n
                     (sz r) (xcomm r) h (c r) (x r) t) = Ok out) /\
    let (X', h') := serial_calls next pw name error_order stepper_order cfg max_dt
                      (parts_idx np sz) sys n h C X t in
    forall r, r < np -> exists x', out r = Some (x', h') /\ part_of sz r x' X'.
Proof.
  intros N okn Hord np sz dsys sys red Hnp Hsys Hred next pw name eo so cfg max_dt xcomm n h c C x X t Hp.
  destruct (good_calls okn Hord np Hnp sz dsys sys Hsys red Hred next pw name eo so cfg max_dt xcomm
              n h c C x X t _ Hp (fun r _ => eq_refl)) as (n0 & out & HQ & Hn).
  exists out. split; [exists n0; exact Hn|].
  destruct (serial_calls next pw name eo so cfg max_dt (parts_idx np sz) sys n h C X t). exact HQ.
Qed.
Print Assumptions C138_ranks.

(** Doubles and real numbers. *)
Theorem C138_f64 : forall np sz dsys sys red, 0 < np ->
  distributes (N := F64) np sz dsys sys -> reduces (N := F64) red ->
  forall next pw name error_order stepper_order cfg max_dt xcomm n
         (c : nat -> ck F64 nat (rkmem F64 nat)) C x X t,
  (forall r, r < np -> ck_part sz r (c r) C /\ part_of sz r (x r) X) ->
  exists out, (exists n0, forall fuel, n0 <= fuel ->
      lock np dsys red fuel
        (fun r => rank_calls next (seq 0 np) pw name error_order stepper_order cfg max_dt n
                    (sz r) (xcomm r) [] (c r) (x r) t) = Ok out) /\
    let (X', h') := serial_calls next pw name error_order stepper_order cfg max_dt
                      (parts_idx np sz) sys n [] C X t in
    forall r, r < np -> exists x', out r = Some (x', h') /\ part_of sz r x' X'.
Proof. intros. apply (C138_ranks F64 f64_ok norm_order_F64 np sz dsys sys red); assumption. Qed.
Print Assumptions C138_f64.

(** A chain over three components, two on rank 0 and one on rank 1: every component is driven by
    the first component of the other rank.  The maximum is taken from left to right. *)
Definition ex_sz (r : nat) : nat := match r with O => 2 | _ => 1 end.
Definition ex_sys {N : Num} (V : vec N (nat * nat)) (t : N) : vec N (nat * nat) :=
  fun i => V (1 - fst i, 0)%nat.
Definition ex_dsys {N : Num} (X : nat -> vec N nat) (T : nat -> N) : nat -> vec N nat :=
  fun r _ => X (1 - r)%nat 0%nat.
Definition ex_tree {N : Num} (l : list N) : rtree (N := N) :=
  match l with
  | [] => RLeaf (nofZ 0)
  | a :: l => fold_left (fun t v => RNode t (RLeaf v)) l (RLeaf a)
  end.
Definition ex_red {N : Num} (l : list N) : N := rcombine (ex_tree l).

Lemma ex_reduces (N : Num) : reduces (@ex_red N).
Proof.
  intros [|a l] H; [destruct (H eq_refl)|]. exists (ex_tree (a :: l)). split; [|reflexivity].
  unfold ex_tree. assert (E : forall l t, rleaves (fold_left (fun t v => RNode t (RLeaf v)) l t) = rleaves (N := N) t ++ l).
  { clear. induction l as [|v l IH]; intros t; [symmetry; apply app_nil_r|].
    cbn [fold_left]. rewrite IH. cbn [rleaves]. rewrite <- app_assoc. reflexivity. }
  rewrite E. apply Permutation_refl.
Qed.
Lemma ex_distributes (N : Num) : distributes 2 ex_sz (@ex_dsys N) ex_sys.
Proof.
  intros X T V t H r Hr j Hj. unfold ex_dsys, ex_sys. cbn [fst].
  apply H; [lia|]. destruct r as [|[|r]]; cbn; lia.
Qed.

Definition ex_ck {N : Num} {I : Type} : ck N I (rkmem N I) :=
  mkCk (fun _ _ => nofZ 0) (fun _ => nofZ 0) (fun _ => nofZ 0) (fun _ => nofZ 0).
(** The components 1, 2 and 3. *)
Definition ex_X {N : Num} : vec N (nat * nat) :=
  fun i => match i with (O, O) => nofZ 1 | (O, _) => nofZ 2 | _ => nofZ 3 end.
Definition ex_x {N : Num} (r : nat) : vec N nat := fun j => ex_X (r, j).

(** The hypotheses hold, and the run: the first call is rejected on both ranks, the second
    accepted. *)
Definition ex_cfg {N : Num} : err_cfg N :=
  mkErrCfg (nofZ 1 / nofZ 1000)%num (nofZ 1 / nofZ 1000)%num (nofZ 1) (nofZ 0).
Definition ex_next {N : Num} (h : list (N * N * bool)) : option N :=
  match h with [] => Some (nofZ 2) | (_, dt, _) :: _ => Some dt end.
Definition ex_calls {N : Num} (r : nat) : rprog N (vec N nat * list (N * N * bool)) :=
  rank_calls ex_next (seq 0 2) (fun _ _ => nofZ 1 / nofZ 2)%num rk_ck54 4 5 ex_cfg (nofZ 0) 2
    (ex_sz r) (seq 0 2) [] ex_ck (ex_x r) (nofZ 0).

(** The successes rank [r] has seen, the latest first. *)
Definition verdicts {N : Num} (o : res (nat -> option (vec N nat * list (N * N * bool)))) (r : nat)
  : option (list bool) :=
  match o with Ok out => option_map (fun p => map snd (snd p)) (out r) | _ => None end.

Example C138_example :
  distributes 2 ex_sz (@ex_dsys F64) ex_sys /\ reduces (@ex_red F64) /\
  (forall r, r < 2 -> ck_part ex_sz r (@ex_ck F64 nat) ex_ck /\ part_of ex_sz r (ex_x r) (@ex_X F64)) /\
  verdicts (lock 2 ex_dsys ex_red 20 (@ex_calls Q0)) 0 = Some [true; false] /\
  verdicts (lock 2 ex_dsys ex_red 20 (@ex_calls Q0)) 1 = Some [true; false].
Proof.
  split; [apply ex_distributes|]. split; [apply ex_reduces|]. split.
  - intros r Hr. split; [|intros j Hj; reflexivity]. repeat split; intros ? ?; try reflexivity.
  - split; vm_compute; reflexivity.
Qed.

(** ** C139 *)

(** Two processes, each with a state on a communicator of its own and a system that involves no
    other rank.  Whether the step of the first is accepted depends on the data of the second. *)
Definition alone_sys {N : Num} (X : nat -> vec N nat) (T : nat -> N) : nat -> vec N nat :=
  fun r j => (X r j * X r j)%num.
Definition alone_x (a : Q0) (r : nat) : vec Q0 nat := fun _ => match r with O => 0%Q | _ => a end.
Definition alone_calls (a : Q0) (r : nat) : rprog Q0 (vec Q0 nat * list (Q0 * Q0 * bool)) :=
  rank_calls (N := Q0) (fun _ => Some (nofZ (n := Q0) 1)) (seq 0 2) (fun _ _ => nofZ (n := Q0) 1) rk_ck54 4 5 ex_cfg (nofZ (n := Q0) 0) 1
    1 [r] [] ex_ck (alone_x a r) (nofZ (n := Q0) 0).

Theorem C139_refuted :
  (forall X X' T T' r, X r = X' r -> T r = T' r -> @alone_sys Q0 X T r = alone_sys X' T' r) /\
  exists a b : Q0,
    alone_calls a 0%nat = alone_calls b 0%nat /\
    verdicts (lock 2 alone_sys ex_red 20 (alone_calls a)) 0 = Some [true] /\
    verdicts (lock 2 alone_sys ex_red 20 (alone_calls b)) 0 = Some [false].
Proof.
  split.
  - intros X X' T T' r H _. unfold alone_sys. rewrite H. reflexivity.
  - exists 0%Q, 1%Q. split; [reflexivity|]. split; vm_compute; reflexivity.
Qed.
Print Assumptions C139_refuted.

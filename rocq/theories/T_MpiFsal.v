(** C138 for the controller around runge_kutta_dopri5, which keeps the derivative of the last
    accepted step. *)
From Coq Require Import ZArith QArith List Bool Arith Lia Permutation Reals Floats.SpecFloat.
From Verif Require Import M_Num M_Run M_Par S_Par P_Norm M_RK M_CtrlRK M_Mpi M_MpiFsal S_Mpi P_MpiFsal
  X_Inst T_Mpi.
Import ListNotations.
Local Open Scope nat_scope.

Theorem C138_fsal : forall (N : Num) (okn : N -> Prop), norm_order N okn ->
  forall (np : nat) (sz : nat -> nat) dsys (sys : vec N (nat * nat) -> N -> vec N (nat * nat)) red,
  0 < np -> distributes np sz dsys sys -> reduces red ->
  forall next pw error_order stepper_order (cfg : err_cfg N) max_dt xcomm rss h
         (c : nat -> ckf N nat (rkmem N nat)) C (x : nat -> vec N nat) X (t : N),
  (forall r, r < np -> ckf_part sz r (c r) C /\ part_of sz r (x r) X) ->
  exists out : nat -> option (vec N nat * list (N * N * bool)),
    (exists n0, forall fuel, n0 <= fuel ->
       lock np dsys red fuel
         (fun r => rank_fcalls next (seq 0 np) pw error_order stepper_order cfg max_dt rss
                     (sz r) (xcomm r) h (c r) (x r) t) = Ok out) /\
    let (X', h') := serial_fcalls next pw error_order stepper_order cfg max_dt
                      (parts_idx np sz) sys rss h C X t in
    forall r, r < np -> exists x', out r = Some (x', h') /\ part_of sz r x' X'.
Proof.
  intros N okn Hord np sz dsys sys red Hnp Hsys Hred next pw eo so cfg max_dt xcomm rss h c C x X t Hp.
  destruct (good_fcalls okn Hord np Hnp sz dsys sys Hsys red Hred pw eo so cfg max_dt xcomm next
              rss h c C x X t _ Hp (fun r _ => eq_refl)) as (n0 & out & HQ & Hn).
  exists out. split; [exists n0; exact Hn|].
  destruct (serial_fcalls next pw eo so cfg max_dt (parts_idx np sz) sys rss h C X t). exact HQ.
Qed.
Print Assumptions C138_fsal.

(** A fresh controller on two ranks: rejected, accepted, with one evaluation of the derivative
    before the first stage of both calls. *)
Definition exf_ck {N : Num} {I : Type} : ckf N I (rkmem N I) :=
  mkCkf (fun _ _ => nofZ 0) (fun _ => nofZ 0) (fun _ => nofZ 0) (fun _ => nofZ 0) (fun _ => nofZ 0) true.
Definition exf_calls {N : Num} (r : nat) : rprog N (vec N nat * list (N * N * bool)) :=
  rank_fcalls ex_next (seq 0 2) (fun _ _ => nofZ 1 / nofZ 2)%num 4 5 ex_cfg (nofZ 0) [true; false]
    (ex_sz r) (seq 0 2) [] exf_ck (ex_x r) (nofZ 0).
Example C138_fsal_example :
  distributes 2 ex_sz (@ex_dsys F64) ex_sys /\ reduces (@ex_red F64) /\
  (forall r, r < 2 -> ckf_part ex_sz r (@exf_ck F64 nat) exf_ck /\ part_of ex_sz r (ex_x r) (@ex_X F64)) /\
  verdicts (lock 2 ex_dsys ex_red 30 (@exf_calls Q0)) 0 = Some [true; false] /\
  verdicts (lock 2 ex_dsys ex_red 30 (@exf_calls Q0)) 1 = Some [true; false].
Proof.
  split; [apply ex_distributes|]. split; [apply ex_reduces|]. split.
  - intros r Hr. split; [|intros j Hj; reflexivity]. repeat split; intros ? ?; try reflexivity.
  - split; vm_compute; reflexivity.
Qed.

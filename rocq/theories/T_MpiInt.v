(** C141: integrate_adaptive on states distributed over MPI ranks. *)
From Coq Require Import ZArith QArith List Bool Arith Lia Permutation Floats.SpecFloat.
From Verif Require Import M_Num M_Run M_Par S_Par P_Norm M_RK M_CtrlRK M_Mpi M_MpiFsal M_MpiInt S_Mpi S_MpiInt
  P_Mpi P_MpiFsal P_MpiInt X_Inst T_Mpi T_MpiFsal.
Import ListNotations.
Local Open Scope nat_scope.

(** The observations on rank [r] are its parts of the observations of the serial run, at the same
    times; it ends with the same exception, or the same number of steps, end time and step width
    and its part of the final state. *)
Theorem C141_adaptive : forall (N : Num) (okn : N -> Prop), norm_order N okn ->
  forall (np : nat) (sz : nat -> nat) dsys (sys : vec N (nat * nat) -> N -> vec N (nat * nat)) red,
  0 < np -> distributes np sz dsys sys -> reduces red ->
  forall pw name error_order stepper_order (cfg : err_cfg N) max_dt xcomm fuel
         (c : nat -> ck N nat (rkmem N nat)) C (x : nat -> vec N nat) X (t0 tend dt : N),
  (forall r, r < np -> ck_part sz r (c r) C /\ part_of sz r (x r) X) ->
  exists out,
    (exists n0, forall n, n0 <= n ->
       lock np dsys red n
         (fun r => rank_ia_ck pw error_order stepper_order cfg max_dt (seq 0 np) name (sz r) (xcomm r)
                     fuel tend (c r) (x r) t0 dt 0 []) = Ok out) /\
    let run := serial_ia (ck_fun pw error_order stepper_order cfg max_dt name (parts_idx np sz) sys)
                 fuel C X t0 tend dt in
    forall r, r < np -> exists obs o, out r = Some (obs, o) /\
      Forall2 (obs_part sz r) obs (trace_of run) /\ out_part sz r o (result_of run).
Proof.
  intros N okn Hord np sz dsys sys red Hnp Hsys Hred pw name eo so cfg max_dt xcomm fuel c C x X t0 tend dt Hp.
  destruct (good_ia np Hnp sz dsys red (ck_part sz)
              (fun r => rank_try (seq 0 np) pw name eo so cfg max_dt (sz r) (xcomm r))
              (ck_fun pw eo so cfg max_dt name (parts_idx np sz) sys)
              (fun Q => good_try okn Hord np Hnp sz dsys sys Hsys red Hred Q pw name eo so cfg max_dt xcomm)
              fuel tend c C x X t0 dt 0 (fun _ => []) [] _
              (fun r Hr => conj (proj1 (Hp r Hr)) (conj (proj2 (Hp r Hr)) (Forall2_nil _)))
              (fun r _ => eq_refl)) as (n0 & out & HQ & Hn).
  exists out. split; [exists n0; exact Hn|exact HQ].
Qed.
Print Assumptions C141_adaptive.

(** The same with the controller around runge_kutta_dopri5. *)
Theorem C141_fsal : forall (N : Num) (okn : N -> Prop), norm_order N okn ->
  forall (np : nat) (sz : nat -> nat) dsys (sys : vec N (nat * nat) -> N -> vec N (nat * nat)) red,
  0 < np -> distributes np sz dsys sys -> reduces red ->
  forall pw error_order stepper_order (cfg : err_cfg N) max_dt xcomm fuel
         (c : nat -> ckf N nat (rkmem N nat)) C (x : nat -> vec N nat) X (t0 tend dt : N),
  (forall r, r < np -> ckf_part sz r (c r) C /\ part_of sz r (x r) X) ->
  exists out,
    (exists n0, forall n, n0 <= n ->
       lock np dsys red n
         (fun r => rank_ia_fsal pw error_order stepper_order cfg max_dt (seq 0 np) (sz r) (xcomm r)
                     fuel tend (c r) (x r) t0 dt 0 []) = Ok out) /\
    let run := serial_ia (ckf_fun pw error_order stepper_order cfg max_dt (parts_idx np sz) sys)
                 fuel C X t0 tend dt in
    forall r, r < np -> exists obs o, out r = Some (obs, o) /\
      Forall2 (obs_part sz r) obs (trace_of run) /\ out_part sz r o (result_of run).
Proof.
  intros N okn Hord np sz dsys sys red Hnp Hsys Hred pw eo so cfg max_dt xcomm fuel c C x X t0 tend dt Hp.
  destruct (good_ia np Hnp sz dsys red (ckf_part sz)
              (fun r => rank_ftry (seq 0 np) pw eo so cfg max_dt (sz r) (xcomm r) false)
              (ckf_fun pw eo so cfg max_dt (parts_idx np sz) sys)
              (fun Q => good_ftry okn Hord np Hnp sz dsys sys Hsys red Hred pw eo so cfg max_dt xcomm Q false)
              fuel tend c C x X t0 dt 0 (fun _ => []) [] _
              (fun r Hr => conj (proj1 (Hp r Hr)) (conj (proj2 (Hp r Hr)) (Forall2_nil _)))
              (fun r _ => eq_refl)) as (n0 & out & HQ & Hn).
  exists out. split; [exists n0; exact Hn|exact HQ].
Qed.
Print Assumptions C141_fsal.

(** On doubles, where the maximum of the errors is taken with NaN and infinities among them. *)
Theorem C141_f64 : forall np sz dsys sys red, 0 < np ->
  distributes (N := F64) np sz dsys sys -> reduces (N := F64) red ->
  forall pw error_order stepper_order cfg max_dt xcomm fuel
         (c : nat -> ckf F64 nat (rkmem F64 nat)) C x X t0 tend dt,
  (forall r, r < np -> ckf_part sz r (c r) C /\ part_of sz r (x r) X) ->
  exists out,
    (exists n0, forall n, n0 <= n ->
       lock np dsys red n
         (fun r => rank_ia_fsal pw error_order stepper_order cfg max_dt (seq 0 np) (sz r) (xcomm r)
                     fuel tend (c r) (x r) t0 dt 0 []) = Ok out) /\
    let run := serial_ia (ckf_fun pw error_order stepper_order cfg max_dt (parts_idx np sz) sys)
                 fuel C X t0 tend dt in
    forall r, r < np -> exists obs o, out r = Some (obs, o) /\
      Forall2 (obs_part sz r) obs (trace_of run) /\ out_part sz r o (result_of run).
Proof. intros. apply (C141_fsal F64 f64_ok norm_order_F64 np sz dsys sys red); assumption. Qed.
Print Assumptions C141_f64.

(** The three components of T_Mpi from t = 0 to 1 with dt = 2: the first attempts are clipped to
    the interval; the number of observations, the number of steps and whether rank [r] ends at the end time.
    With runge_kutta_dopri5 to t = 1/8. *)
Definition exi_report (tend : Q) (o : res (nat -> option (rank_result (N := Q0)))) (r : nat) : option (nat * nat * bool) :=
  match o with
  | Ok out => match out r with
              | Some (obs, Ok (_, t, _, n)) => Some (length obs, n, Qeq_bool t tend)
              | _ => None
              end
  | _ => None
  end.
Definition exi_pw (a b : Q0) : Q0 := (nofZ (n := Q0) 1 / nofZ (n := Q0) 2)%num.
Definition exi_run (r : nat) : rprog Q0 (rank_result (N := Q0)) :=
  rank_ia_ck (N := Q0) exi_pw 4 5 ex_cfg (nofZ (n := Q0) 0) (seq 0 2) rk_ck54
    (ex_sz r) (seq 0 2) 5 1%Q ex_ck (ex_x r) 0%Q 2%Q 0 [].
Definition exi_frun (r : nat) : rprog Q0 (rank_result (N := Q0)) :=
  rank_ia_fsal (N := Q0) exi_pw 4 5 ex_cfg (nofZ (n := Q0) 0) (seq 0 2)
    (ex_sz r) (seq 0 2) 5 (1 # 8)%Q exf_ck (ex_x r) 0%Q 2%Q 0 [].
Example C141_example :
  distributes 2 ex_sz (@ex_dsys F64) ex_sys /\ reduces (@ex_red F64) /\
  (forall r, r < 2 -> ck_part ex_sz r (@ex_ck F64 nat) ex_ck /\ part_of ex_sz r (ex_x r) (@ex_X F64)) /\
  (forall r, r < 2 -> ckf_part ex_sz r (@exf_ck F64 nat) exf_ck) /\
  exi_report 1 (lock 2 ex_dsys ex_red 60 exi_run) 0 = Some (2, 1, true) /\
  exi_report 1 (lock 2 ex_dsys ex_red 60 exi_run) 1 = Some (2, 1, true) /\
  exi_report (1 # 8) (lock 2 ex_dsys ex_red 60 exi_frun) 1 = Some (2, 1, true).
Proof.
  split; [apply ex_distributes|]. split; [apply ex_reduces|]. split.
  - intros r Hr. split; [|intros j Hj; reflexivity]. repeat split; intros ? ?; try reflexivity.
  - split; [intros r Hr; repeat split; intros ? ?; reflexivity|].
    split; [vm_compute; reflexivity|]. split; vm_compute; reflexivity.
Qed.

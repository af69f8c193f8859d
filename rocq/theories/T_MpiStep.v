(** C140: explicit steppers on states distributed over MPI ranks. *)
From Coq Require Import ZArith QArith List Bool Arith Lia Permutation.
From Verif Require Import M_Num M_Run M_Par M_RK M_CtrlRK M_Mpi M_MpiStep S_Mpi P_Mpi P_MpiStep X_Inst T_Mpi.
Import ListNotations.
Local Open Scope nat_scope.

(** Every rank goes through its parts of the states of the serial run, whatever the steps. *)
Theorem C140_steps : forall (N : Num) np sz dsys (sys : vec N (nat * nat) -> N -> vec N (nat * nat)) red,
  0 < np -> distributes np sz dsys sys ->
  forall name l (m : nat -> rkmem N nat) M x X,
  (forall r, r < np -> (forall b, part_of sz r (m r b) (M b)) /\ part_of sz r (x r) X) ->
  exists out,
    (exists n0, forall fuel, n0 <= fuel ->
       lock np dsys red fuel (fun r => rank_steps name l (m r) (x r) []) = Ok out) /\
    forall r, r < np -> exists v, out r = Some v /\
      Forall2 (part_of sz r) v (serial_steps name sys l M X []).
Proof.
  intros N np sz dsys sys red Hnp Hsys name l m M x X Hp.
  destruct (good_steps N np Hnp sz dsys sys red Hsys name l m M x X (fun _ => []) [] _
              (fun r Hr => conj (proj1 (Hp r Hr)) (conj (proj2 (Hp r Hr)) (Forall2_nil _)))
              (fun r _ => eq_refl)) as (n0 & out & HQ & Hn).
  exists out. split; [exists n0; exact Hn|exact HQ].
Qed.
Print Assumptions C140_steps.

(** The chain of T_Mpi: x1' = z, x2' = z on rank 0 and z' = x1 on rank 1; one step of
    runge_kutta4 with dt = 1 from (1, 2, 3) gives x2 = 2 + 3 + 1/2 + 1/2 + 1/24. *)
Definition exs_first (o : res (nat -> option (list (vec Q0 nat)))) (r j : nat) : Q :=
  match o with
  | Ok out => match out r with Some (v :: _) => v j | _ => 0%Q end
  | _ => 0%Q
  end.
Example C140_example :
  distributes 2 ex_sz (@ex_dsys Q0) ex_sys /\
  (exs_first (lock 2 ex_dsys ex_red 20
     (fun r => rank_steps rk_rk4 [(0%Q : Q0, 1%Q : Q0)] (fun _ _ => 0%Q) (ex_x r) [])) 0 1 == 145 # 24)%Q.
Proof. split; [apply ex_distributes|]. vm_compute. reflexivity. Qed.

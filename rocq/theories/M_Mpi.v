(** controlled_runge_kutta over mpi_state: every rank runs the same code on its own part of the
    container; external/mpi/mpi_state.hpp, external/mpi/mpi_nested_algebra.hpp,
    stepper/controlled_runge_kutta.hpp.

    A rank is a program that stops at each collective call: the call of the system function (user
    code that may exchange data between the ranks) and all_reduce of norm_inf.  The collective
    calls of the ranks are matched in the order in which each rank makes them, as MPI does; ranks
    that stand at different kinds of calls never continue (outcome [UB]).

    Simplified: the all_reduce inside same_size, made when the temporaries are resized at the first
    call (mpi_state.hpp:63-71), is left out; every rank makes it at the same place. *)
From Coq Require Import ZArith List Bool Arith.
From Verif Require Import M_Num M_Run M_RK M_CtrlRK.
Import ListNotations.
Local Open Scope num_scope.

Section Mpi.
Context {N : Num}.

(** What a rank does next: end with a value, call the system function on its part of the state, or
    take part in all_reduce( comm , v , maximum ), mpi_nested_algebra.hpp:45-53, on the
    communicator whose members are the ranks in [comm]. *)
(* Source: external/mpi/mpi_nested_algebra.hpp:33-53. *)
Inductive rprog (A : Type) :=
| PRet (a : A)
| PSys (x : vec N nat) (t : N) (k : vec N nat -> rprog A)
| PMax (comm : list nat) (v : N) (k : N -> rprog A).
Arguments PRet {A}.
Arguments PSys {A}.
Arguments PMax {A}.

Section Lock.
Context {A : Type}.
Variable np : nat.                     (* the size of MPI_COMM_WORLD *)
(** The system function: the parts of the state and the times the ranks pass, and the part of the
    derivative each of them gets. *)
Variable dsys : (nat -> vec N nat) -> (nat -> N) -> nat -> vec N nat.
(** The reduction by boost::mpi::maximum, in the order MPI chooses. *)
Variable red : list N -> N.

(* Source: the pending call of a rank, external/mpi/mpi_nested_algebra.hpp:33-53. *)
Definition is_ret (p : rprog A) : bool := match p with PRet _ => true | _ => false end.
(* Source: the pending call of a rank, external/mpi/mpi_nested_algebra.hpp:33-53. *)
Definition is_sys (p : rprog A) : bool := match p with PSys _ _ _ => true | _ => false end.
(* Source: the pending call of a rank, external/mpi/mpi_nested_algebra.hpp:33-53. *)
Definition is_max (p : rprog A) : bool := match p with PMax _ _ _ => true | _ => false end.
(* Source: the arguments of a pending call, external/mpi/mpi_nested_algebra.hpp:33-53. *)
Definition sys_x (p : rprog A) : vec N nat := match p with PSys x _ _ => x | _ => fun _ => nofZ 0 end.
(* Source: the arguments of a pending call, external/mpi/mpi_nested_algebra.hpp:33-53. *)
Definition sys_t (p : rprog A) : N := match p with PSys _ t _ => t | _ => nofZ 0 end.
(* Source: the arguments of a pending call, external/mpi/mpi_nested_algebra.hpp:49-52. *)
Definition max_v (p : rprog A) : N := match p with PMax _ v _ => v | _ => nofZ 0 end.
(* Source: the value of a finished rank. *)
Definition ret_v (p : rprog A) : option A := match p with PRet a => Some a | _ => None end.
(* Source: all np ranks, external/mpi/mpi_nested_algebra.hpp:33-53. *)
Definition everyone (test : rprog A -> bool) (ps : nat -> rprog A) : bool :=
  forallb (fun r => test (ps r)) (seq 0 np).

(** No counterpart in /repo: a function on the ranks as a table, so that it is evaluated once. *)
Definition table (f : nat -> rprog A) : nat -> rprog A :=
  let l := map f (seq 0 np) in
  fun r => match nth_error l r with Some p => p | None => f r end.

(** The run of all ranks together. *)
(* Source: execution of the collective calls, external/mpi/mpi_nested_algebra.hpp:33-53. *)
Fixpoint lock (fuel : nat) (ps : nat -> rprog A) : res (nat -> option A) :=
  match fuel with
  | O => Fuel
  | S fuel' =>
      if everyone is_ret ps then Ok (fun r => ret_v (ps r))
      else if everyone is_sys ps then
        let y := dsys (fun r => sys_x (ps r)) (fun r => sys_t (ps r)) in
        lock fuel' (table (fun r => match ps r with PSys _ _ k => k (y r) | p => p end))
      else if everyone is_max ps then
        lock fuel' (table (fun r => match ps r with
                                    | PMax comm _ k => k (red (map (fun q => max_v (ps q)) comm))
                                    | p => p
                                    end))
      else UB
  end.
End Lock.

(** ** The code of one rank *)
Section Rank.
Context {A : Type}.
Variable world : list nat.             (* the members of MPI_COMM_WORLD *)
Variable pw : N -> N -> N.             (* std::pow *)
Variable name : rk_name.
Variable error_order stepper_order : Z.
Variable cfg : err_cfg N.
Variable max_dt : N.
Variable sz : nat.                     (* the size of the rank's part *)
Variable xcomm : list nat.             (* the communicator of the state x *)

(** The statements of do_step_impl on the rank's part of the buffers (mpi_nested_algebra passes the
    parts to the inner algebra, mpi_nested_algebra.hpp:35-42); a call of the system is collective. *)
Fixpoint rexec (al : alias) (p : list (instr N)) (m : rkmem N nat) (k : rkmem N nat -> rprog A)
  : rprog A :=
  match p with
  | [] => k m
  | i :: p' =>
      match i with
      | ISys d s t => PSys (rd al m s) t (fun v => rexec al p' (wr al m d v) k)
      | _ => rexec al p' (fst (exec1 (fun x _ => x) al i m)) k
      end
  end.

(** The communicator of the member m_xerr.  The member is constructed by mpi_state()
    (mpi_state.hpp:48, util/state_wrapper.hpp:35-41), whose communicator is the default one,
    MPI_COMM_WORLD; resize copies only the data (mpi_state.hpp:74-82): the communicator of x does
    not reach it. *)
Definition xerr_comm (xc : list nat) : list nat := let _ := xc in world.

(** After the stepper: default_error_checker::error and the step adjuster,
    controlled_runge_kutta.hpp:79-94, 420-439, and the copy of m_xnew in version 2, 337-347. *)
Definition rank_finish (m2 : rkmem N nat) (out x dx xerr : vec N nat) (t dt : N)
  (k : ck N nat (rkmem N nat) -> vec N nat -> N -> N -> bool -> rprog A) : rprog A :=
  let (e, local) := checker_error (seq 0 sz) cfg x dx xerr dt in
  PMax (xerr_comm xcomm) local (fun err =>
    if ngt err (nofZ 1)
    then k (mkCk m2 dx e out) x t (decrease_step pw max_dt dt err error_order) false
    else k (mkCk m2 dx e out) out (t + dt) (increase_step pw max_dt dt err stepper_order) true).

(** try_step( sys , x , t , dt ) of controlled_runge_kutta, controlled_runge_kutta.hpp:280-284,
    337-347, 411-440, 477-484; [k] is the code behind the call. *)
Definition rank_try (c : ck N nat (rkmem N nat)) (x : vec N nat) (t dt : N)
  (k : ck N nat (rkmem N nat) -> vec N nat -> N -> N -> bool -> rprog A) : rprog A :=
  PSys x t (fun dx =>
    if check_step_size_limit max_dt dt then
      let al := mkAlias false false in
      match rk_err_impl name al t dt with
      | Some p => rexec al p (upd (upd (ck_st c) LIn x) LDx dx)
                    (fun m2 => rank_finish m2 (m2 LOut) x dx (m2 LErr) t dt k)
      | None => rank_finish (ck_st c) x x dx dx t dt k
      end
    else k (mkCk (ck_st c) dx (ck_xerr c) (ck_xnew c)) x t max_dt false).
End Rank.

(** A caller, such as the loop of integrate_adaptive (integrate/detail/integrate_adaptive.hpp:81-113):
    [next] looks at the outcomes (t, dt, success) so far, the latest first, and gives the step
    width of the next call, or ends. *)
Section Caller.
Variable next : list (N * N * bool) -> option N.
Variable world : list nat.
Variable pw : N -> N -> N.
Variable name : rk_name.
Variable error_order stepper_order : Z.
Variable cfg : err_cfg N.
Variable max_dt : N.

(* Source: calls of try_step, integrate/detail/integrate_adaptive.hpp:93-111, on one rank. *)
Fixpoint rank_calls (n : nat) (sz : nat) (xcomm : list nat) (h : list (N * N * bool))
  (c : ck N nat (rkmem N nat)) (x : vec N nat) (t : N)
  : rprog (vec N nat * list (N * N * bool)) :=
  match n with
  | O => PRet (x, h)
  | S n' =>
      match next h with
      | None => PRet (x, h)
      | Some dt => rank_try world pw name error_order stepper_order cfg max_dt sz xcomm c x t dt
                     (fun c' x' t' dt' ok => rank_calls n' sz xcomm ((t', dt', ok) :: h) c' x' t')
      end
  end.

(** The same calls without MPI, on the whole container. *)
(* Source: calls of try_step, integrate/detail/integrate_adaptive.hpp:93-111. *)
Fixpoint serial_calls {I : Type} (idx : list I) (sys : vec N I -> N -> vec N I) (n : nat)
  (h : list (N * N * bool)) (c : ck N I (rkmem N I)) (x : vec N I) (t : N)
  : vec N I * list (N * N * bool) :=
  match n with
  | O => (x, h)
  | S n' =>
      match next h with
      | None => (x, h)
      | Some dt =>
          let '(c', x', t', dt', ok) :=
            ck_try idx pw sys (rk_estep sys name) error_order stepper_order cfg max_dt c x t dt in
          serial_calls idx sys n' ((t', dt', ok) :: h) c' x' t'
      end
  end.
End Caller.
End Mpi.
Arguments rprog N A : clear implicits.
Arguments PRet {N A}.
Arguments PSys {N A}.
Arguments PMax {N A}.

(** controlled_runge_kutta around runge_kutta_dopri5 (the FSAL version) over mpi_state, with the
    derivative kept from call to call; stepper/controlled_runge_kutta.hpp:549-921.  The ranks are
    programs as in M_Mpi.

    [rs]: the temporaries were resized.  same_size of mpi_states is an all_reduce
    (external/mpi/mpi_state.hpp:63-71), so the ranks agree on it. *)
From Coq Require Import ZArith List Bool Arith.
From Verif Require Import M_Num M_Run M_RK M_CtrlRK M_Mpi.
Import ListNotations.
Local Open Scope num_scope.

Section MpiFsal.
Context {N : Num}.

Section Rank.
Context {A : Type}.
Variable world : list nat.             (* the members of MPI_COMM_WORLD *)
Variable pw : N -> N -> N.             (* std::pow *)
Variable error_order stepper_order : Z.
Variable cfg : err_cfg N.
Variable max_dt : N.
Variable sz : nat.                     (* the size of the rank's part *)
Variable xcomm : list nat.             (* the communicator of the state x *)

(** Version 3 with version 4 inside, controlled_runge_kutta.hpp:713-726, 752-784: [dx] is m_dxdt,
    which is overwritten by m_dxdtnew after an accepted step. *)
Definition rank_fbody (c : ckf N nat (rkmem N nat)) (x dx : vec N nat) (t dt : N)
  (k : ckf N nat (rkmem N nat) -> vec N nat -> N -> N -> bool -> rprog N A) : rprog N A :=
  if check_step_size_limit max_dt dt then
    let al := mkAlias false false in
    rexec al (dopri5_err_prog al t dt) (upd (upd (cf_st c) LIn x) LDx dx) (fun m2 =>
      let (e, local) := checker_error (seq 0 sz) cfg x dx (m2 LErr) dt in
      PMax (xerr_comm world xcomm) local (fun err =>
        if ngt err (nofZ 1)
        then k (mkCkf m2 dx e (m2 LOut) (m2 LDxOut) false) x t
               (decrease_step pw max_dt dt err error_order) false
        else k (mkCkf m2 (m2 LDxOut) e (m2 LOut) (m2 LDxOut) false) (m2 LOut) (t + dt)
               (increase_step pw max_dt dt err stepper_order) true))
  else k (mkCkf (cf_st c) dx (cf_xerr c) (cf_xnew c) (cf_dxdtnew c) false) x t max_dt false.

(** try_step( sys , x , t , dt ), controlled_runge_kutta.hpp:616-620, 895-903: the derivative is
    evaluated at the first call and after a resize, else the kept one is used. *)
Definition rank_ftry (rs : bool) (c : ckf N nat (rkmem N nat)) (x : vec N nat) (t dt : N)
  (k : ckf N nat (rkmem N nat) -> vec N nat -> N -> N -> bool -> rprog N A) : rprog N A :=
  if rs || cf_first c then PSys x t (fun dx => rank_fbody c x dx t dt k)
  else rank_fbody c x (cf_dxdt c) t dt k.
End Rank.

Section Caller.
Variable next : list (N * N * bool) -> option N.
Variable world : list nat.
Variable pw : N -> N -> N.
Variable error_order stepper_order : Z.
Variable cfg : err_cfg N.
Variable max_dt : N.

(** Calls of try_step as in M_Mpi, [rs] for each of them. *)
(* Source: calls of try_step, integrate/detail/integrate_adaptive.hpp:93-111, on one rank. *)
Fixpoint rank_fcalls (rss : list bool) (sz : nat) (xcomm : list nat) (h : list (N * N * bool))
  (c : ckf N nat (rkmem N nat)) (x : vec N nat) (t : N)
  : rprog N (vec N nat * list (N * N * bool)) :=
  match rss with
  | [] => PRet (x, h)
  | rs :: rss' =>
      match next h with
      | None => PRet (x, h)
      | Some dt => rank_ftry world pw error_order stepper_order cfg max_dt sz xcomm rs c x t dt
                     (fun c' x' t' dt' ok => rank_fcalls rss' sz xcomm ((t', dt', ok) :: h) c' x' t')
      end
  end.

(** The same calls without MPI, on the whole container. *)
(* Source: calls of try_step, integrate/detail/integrate_adaptive.hpp:93-111. *)
Fixpoint serial_fcalls {I : Type} (idx : list I) (sys : vec N I -> N -> vec N I) (rss : list bool)
  (h : list (N * N * bool)) (c : ckf N I (rkmem N I)) (x : vec N I) (t : N)
  : vec N I * list (N * N * bool) :=
  match rss with
  | [] => (x, h)
  | rs :: rss' =>
      match next h with
      | None => (x, h)
      | Some dt =>
          let '(c', x', t', dt', ok) :=
            ckf_try idx pw sys (dopri5_fstep sys (mkAlias false false)) error_order stepper_order
                    cfg max_dt rs c x t dt in
          serial_fcalls idx sys rss' ((t', dt', ok) :: h) c' x' t'
      end
  end.
End Caller.
End MpiFsal.

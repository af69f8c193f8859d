(** The points bulirsch_stoer_dense_out steps to. *)
From Coq Require Import List.
From Verif Require Import M_Num M_Run M_RK M_CtrlRK M_BSDense.
Import ListNotations.

Section Points.
Context {N : Num} {I : Type}.
Variables (idx : list I) (pw : N -> N -> N) (cfg : err_cfg N) (max_dt : N) (ctrl_interp : bool).
Variable sys : vec N I -> N -> vec N I.
(** current_state() and current_time() at the start and after each of [m] calls of do_step, up to the first that
    does not return. *)
Fixpoint bsd_points (m : nat) (s : bsd N I) : list (vec N I * N) :=
  (bd_curx s, bd_t s) ::
  match m with
  | O => []
  | S m' => match bsd_do_step idx pw cfg max_dt ctrl_interp sys s with Ok s' => bsd_points m' s' | _ => [] end
  end.
End Points.

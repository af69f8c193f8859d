(** The explicit Runge-Kutta steppers over mpi_state: do_step calls on every rank, as the fixed step
    integrate functions make them.  The ranks are programs as in M_Mpi; there is no all_reduce. *)
From Coq Require Import ZArith List Bool Arith.
From Verif Require Import M_Num M_Run M_RK M_Mpi.
Import ListNotations.

Section MpiStep.
Context {N : Num}.
Variable name : rk_name.

(** do_step( sys , x , t , dt ) on one rank's part of x for each (t, dt) of the list,
    base/explicit_stepper_base.hpp:225-231 and base/explicit_error_stepper_base.hpp:289-304, with
    mpi_nested_algebra handing the parts to the inner algebra, external/mpi/mpi_nested_algebra.hpp:35-42.
    The members of the stepper are kept.  The states after the calls, the last one first. *)
Fixpoint rank_steps (l : list (N * N)) (m : rkmem N nat) (x : vec N nat) (h : list (vec N nat))
  : rprog N (list (vec N nat)) :=
  match l with
  | [] => PRet h
  | (t, dt) :: l' =>
      rexec (mkAlias true false) (do_step_prog (rk_impl name t dt) t) (upd m LIn x)
        (fun m' => rank_steps l' m' (m' LIn) (m' LIn :: h))
  end.

(** The same calls on the whole container. *)
(* Source: base/explicit_stepper_base.hpp:225-231, base/explicit_error_stepper_base.hpp:289-304. *)
Fixpoint serial_steps {I : Type} (sys : vec N I -> N -> vec N I) (l : list (N * N)) (m : rkmem N I)
  (x : vec N I) (h : list (vec N I)) : list (vec N I) :=
  match l with
  | [] => h
  | (t, dt) :: l' =>
      let (m', x') := rk_do_step sys name m x t dt in serial_steps sys l' m' x' (x' :: h)
  end.
End MpiStep.

(** runge_kutta_dopri5 as its users call it: all overloads of do_step, reset(), initialize(), adjust_size(), states of any size. *)
From Coq Require Import ZArith List Bool Arith.
From Verif Require Import M_Num M_Run M_RK M_CtrlRK M_Resize.
Import ListNotations.
Local Open Scope num_scope.

Section F.
Context {N : Num} {I S : Type}.
(** do_step_impl with (true) and without (false) the error estimate. *)
Variable fstep : bool -> (vec N I -> N -> vec N I) -> alias -> S -> vec N I -> vec N I -> N -> N -> S * vec N I * vec N I * vec N I.
Variable rz : resizer.

(** The stepper with the size of m_dxdt and m_initialized of the resizer of the base class,
    base/explicit_error_stepper_fsal_base.hpp:349-355. *)
Record sfsal := mkSfsal { sf_obj : fsal N I S; sf_size : sizes; sf_ini : bool }.

(** do_step( sys , x , t , dt [, xerr] ), in place or not, on a state with [n] components: the resizer compares the size of m_dxdt with [n]
    and its answer decides, with m_first_call, whether the derivative is computed.
    Source: base/explicit_error_stepper_fsal_base.hpp:176-185,251-259,310-328, util/resizer.hpp:48-86. *)
Definition sfsal_do_step (we : bool) (sys : vec N I -> N -> vec N I) (alx : bool) (s : sfsal) (n : nat) (x : vec N I) (t dt : N)
  : sfsal * vec N I * vec N I :=
  let '(rs, ini, sz) := adjust rz (sf_ini s) [LDx] n (sf_size s) in
  let '(o, out, xerr) := fsal_do_step sys (fstep we sys) alx (sf_obj s) rs x t dt in
  (mkSfsal o sz ini, out, xerr).

(** A call: do_step without and with the derivative, the latter's states having the size their caller gives them; reset(); adjust_size( x ) for
    an x with [n] components; initialize( sys , x , t ); initialize( deriv ). *)
Inductive fcall :=
| CStep (we : bool) (sys : vec N I -> N -> vec N I) (alx : bool) (n : nat) (x : vec N I) (t dt : N)
| CStepD (we : bool) (sys : vec N I -> N -> vec N I) (al : alias) (x dxdt : vec N I) (t dt : N)
| CReset
| CAdjust (n : nat)
| CInit (sys : vec N I -> N -> vec N I) (n : nat) (x : vec N I) (t : N)
| CInitD (n : nat) (d : vec N I).
(** What the call hands back: the new state, the error for the overloads with xerr, the new derivative for those with dxdt; or nothing; or
    it has written behind the end of m_dxdt. *)
Inductive fres :=
| FOut (out : vec N I) (xerr : option (vec N I)) (dxdt : option (vec N I))
| FVoid
| FUB.
(* Source: base/explicit_error_stepper_fsal_base.hpp:121-299; the components m_dxdt keeps when adjust_size changes its size are those it had,
   new ones are arbitrary. *)
Definition fcall_run (s : sfsal) (c : fcall) : sfsal * fres :=
  match c with
  | CStep we sys alx n x t dt =>
      let '(s', out, xerr) := sfsal_do_step we sys alx s n x t dt in (s', FOut out (if we then Some xerr else None) None)
  | CStepD we sys al x d t dt =>
      let '(o, out, dout, xerr) := fsal_do_step_dxdt (fstep we sys) al (sf_obj s) x d t dt in
      (mkSfsal o (sf_size s) (sf_ini s), FOut out (if we then Some xerr else None) (Some dout))
  | CReset => (mkSfsal (fsal_reset (sf_obj s)) (sf_size s) (sf_ini s), FVoid)
  | CAdjust n => (mkSfsal (sf_obj s) (snd (resize_impl [LDx] n (sf_size s))) (sf_ini s), FVoid)
  | CInit sys n x t =>
      if (sf_size s LDx <? n)%nat then (s, FUB) else (mkSfsal (fsal_init sys (sf_obj s) x t) (sf_size s) (sf_ini s), FVoid)
  | CInitD n d =>
      if (sf_size s LDx <? n)%nat then (s, FUB) else (mkSfsal (fsal_init_deriv (sf_obj s) d) (sf_size s) (sf_ini s), FVoid)
  end.
(* Source: base/explicit_error_stepper_fsal_base.hpp:121-299. *)
Fixpoint fcalls_run (s : sfsal) (l : list fcall) : list fres :=
  match l with
  | [] => []
  | c :: l' => let '(s', r) := fcall_run s c in match r with FUB => [FUB] | _ => r :: fcalls_run s' l' end
  end.
End F.
Arguments sfsal N I S : clear implicits.
Arguments mkSfsal {N I S}.
Arguments fcall N I : clear implicits.
Arguments fres N I : clear implicits.

(** The two do_step_impl of runge_kutta_dopri5, stepper/runge_kutta_dopri5.hpp:90-199. *)
Definition dopri5_impl {N : Num} {I} (we : bool) (sys : vec N I -> N -> vec N I) := if we then dopri5_fstep sys else dopri5_fstep_noerr sys.

(** Concrete Bulirsch-Stoer runs on exact rationals. *)
From Coq Require Import List Arith ZArith QArith Bool.
From Verif Require Import M_Num M_Run M_RK M_CtrlRK M_Midpoint M_BS M_BSDense X_Inst.
Import ListNotations.
Local Open Scope Q_scope.

(** A rational power function: [x^(p/q)] for x > 0 by bisection, [n] halvings of
    [lo,hi] keeping [lo^q <= x^p < hi^q]. *)
Fixpoint qbisect (n : nat) (target : Q) (q : positive) (lo hi : Q) : Q :=
  match n with
  | O => lo
  | S n' => let mid := Qred ((lo + hi) / 2) in
            if Qle_bool (Qpower_positive mid q) target then qbisect n' target q mid hi
            else qbisect n' target q lo mid
  end.
Definition qroot (x : Q) (q : positive) : Q :=
  let hi := if Qle_bool x 1 then 1 else x in qbisect 12 x q 0 (Qred (hi + 1)).
Definition qpow (x y : Q) : Q :=
  let y' := Qred y in
  let r := qroot (Qred (Qpower x (Z.abs (Qnum y')))) (Qden y') in
  if Qle_bool 0 y' then r else Qred (1 / r).

(** One component, x' = f(t) where f vanishes outside finitely many times. *)
Fixpoint pulses (l : list (Q * Q)) (t : Q) : Q :=
  match l with [] => 0 | (a, v) :: l' => if Qeq_bool t a then v else pulses l' t end.
(** Over [0,1], [10,11] and [20,21] with step width 1 the error estimate falls below the
    tolerance in round 5, 7 and 8. *)
Definition bad_f : Q -> Q :=
  pulses [(1 # 2, 800000); (1 # 22, 16346); (21 # 2, 800000); (301 # 30, 3285); (41 # 2, 22000000); (681 # 34, 42235)].
Definition bad_sys (x : vec Q0 unit) (t : Q) : vec Q0 unit := fun _ => bad_f t.

Definition cfg1 : err_cfg Q0 := @mkErrCfg Q0 1 0 1 1.
Definition z0 : vec Q0 unit := fun _ => 0.
Definition bsd0 : bsd Q0 unit :=
  @mkBsd Q0 unit (repeat z0 8) (repeat z0 9) (map (repeat z0) derivs_sizes) (map (repeat z0) diffs_sizes)
    z0 z0 z0 z0 true 4 0 true false 0 0 0.
Definition bad_step (s : bsd Q0 unit) : res (bsd Q0 unit) := bsd_do_step (N := Q0) [tt] qpow cfg1 0 false bad_sys s.

(** x' = 10^12 except at t = 0: the first attempts are rejected. *)
Definition stiff_sys (x : vec Q0 unit) (t : Q) : vec Q0 unit := fun _ => if Qeq_bool t 0 then 0 else 1000000000000.

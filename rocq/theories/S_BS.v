(** Call sequences of the Bulirsch-Stoer steppers. *)
From Coq Require Import ZArith List Bool Arith.
From Verif Require Import M_Num M_Run M_RK M_CtrlRK M_Midpoint M_BS M_BSDense.
Import ListNotations.

Section BS.
Context {N : Num} {I : Type}.
Variable idx : list I.
Variable pw : N -> N -> N.
Variable cfg : err_cfg N.
Variable max_dt : N.

(** The bulirsch_stoer objects that exist in a program: constructed (with arbitrary contents of the
    members the constructor leaves alone), reset, or left by a call of one of the try_step overloads
    with any system, any resizer answer and any arguments. *)
Inductive bs_reach : bs N I -> Prop :=
| br_new m table xnew dxdt dtlast : length table = 8 -> bs_reach (bs_new m table xnew dxdt dtlast)
| br_reset s : bs_reach s -> bs_reach (bs_reset s)
| br_try sys s rs x t dt s' x' t' dt' ok : bs_reach s ->
    bs_try idx pw sys cfg max_dt s rs x t dt = Ok (s', x', t', dt', ok) -> bs_reach s'
| br_v2 sys s rs x dxdt t dt s' x' t' dt' ok : bs_reach s ->
    bs_try_v2 idx pw sys cfg max_dt s rs x dxdt t dt = Ok (s', x', t', dt', ok) -> bs_reach s'
| br_v3 sys s rs x t out dt s' x' t' dt' ok : bs_reach s ->
    bs_try_v3 idx pw sys cfg max_dt s rs x t out dt = Ok (s', x', t', dt', ok) -> bs_reach s'.

(** The results a caller sees in a sequence of calls try_step( sys , x , t , dt ) and reset().  *)
Inductive bs_call := BTry (sys : vec N I -> N -> vec N I) (rs : bool) (x : vec N I) (t dt : N) | BReset.
Fixpoint bs_results (s : bs N I) (l : list bs_call) : list (res (vec N I * N * N * bool)) :=
  match l with
  | [] => []
  | BReset :: r => bs_results (bs_reset s) r
  | BTry sys rs x t dt :: r =>
      match bs_try idx pw sys cfg max_dt s rs x t dt with
      | Ok (s', x', t', dt', ok) => Ok (x', t', dt', ok) :: bs_results s' r
      | Exc e => [Exc e] | UB => [UB] | Fuel => [Fuel]
      end
  end.

(** Dense output objects: initialized after construction, stepped, and re-initialized. *)
Variable ctrl_interp : bool.
Inductive bsd_reach (reinit : bsd N I -> Prop) : bsd N I -> Prop :=
| dr_new s x t dt : bsd_fresh s -> bsd_reach reinit (bsd_init s x t dt)
| dr_step sys s s' : bsd_reach reinit s -> bsd_do_step idx pw cfg max_dt ctrl_interp sys s = Ok s' -> bsd_reach reinit s'
| dr_init s x t dt : bsd_reach reinit s -> reinit s -> bsd_reach reinit (bsd_init s x t dt).
End BS.
Arguments BTry {N I}.
Arguments BReset {N I}.

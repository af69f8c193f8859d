(** Specification of linear multistep runs: call sequences and their history of derivatives. *)
From Coq Require Import ZArith List Bool Arith.
From Verif Require Import M_Num M_Run M_RK M_Midpoint M_Adams.
Import ListNotations.

Section Calls.
Context {N : Num} {I IS : Type}.
(** One call do_step( sys , x , t , out , dt ). *)
Record call := mkCall { c_sys : vec N I -> N -> vec N I; c_x : vec N I; c_t : N; c_dt : N; c_io : bool }.
(** The derivative at the point of the call. *)
Definition c_dx (c : call) : vec N I := c_sys c (c_x c) (c_t c).

Variable steps : nat.
Variable istep : (vec N I -> N -> vec N I) -> IS -> bool -> vec N I -> vec N I -> N -> N -> res (IS * vec N I).

(** [ab_trace s calls s']: the calls (latest first), without resizing, lead from [s] to [s']. *)
Inductive ab_trace (s : ab N I IS) : list call -> ab N I IS -> Prop :=
| at_nil : ab_trace s [] s
| at_cons c calls s1 s2 out log : ab_trace s calls s1 ->
    ab_do_step steps (c_sys c) (istep (c_sys c)) false (c_io c) s1 (c_x c) (c_t c) (c_dt c) = Ok (s2, out, log) ->
    ab_trace s (c :: calls) s2.
Inductive abm_trace (s : abm N I IS) : list call -> abm N I IS -> Prop :=
| mt_nil : abm_trace s [] s
| mt_cons c calls s1 s2 out log : abm_trace s calls s1 ->
    abm_do_step steps (c_sys c) (istep (c_sys c)) false (c_io c) s1 (c_x c) (c_t c) (c_dt c) = Ok (s2, out, log) ->
    abm_trace s (c :: calls) s2.
End Calls.
Arguments call N I : clear implicits.
Arguments mkCall {N I}.

(** A well formed rotating buffer. *)
Definition rb_wf {A} (dim : nat) (b : rb A) : Prop := length (rb_data b) = dim /\ (rb_first b < dim)%nat.

(** The formula of the methods: x_j + sum_i (dt*c_i) d_i(j), from left to right. *)
Section Formula.
Context {N : Num} {I : Type}.
Local Open Scope num_scope.
Definition lmm (dt : N) (coef : list N) (x : vec N I) (ds : list (vec N I)) : vec N I :=
  fun j => fold_left (fun a p => a + (dt * fst p) * snd p j) (combine coef ds) (nofZ 1 * x j).
End Formula.

(** [n] steps do_step( sys , x , t , dt ) of width dt in place, t advancing by dt. *)
Section Iterate.
Context {N : Num} {I S : Type}.
Variable do_step : S -> vec N I -> N -> N -> res (S * vec N I * list (vec N I * N)).
Local Open Scope res_scope.
Fixpoint iterate (n : nat) (s : S) (x : vec N I) (t dt : N) : res (S * vec N I) :=
  match n with
  | O => Ok (s, x)
  | Datatypes.S n' => let! (s1, x1, _) := do_step s x t dt in iterate n' s1 x1 (nadd t dt) dt
  end.
End Iterate.

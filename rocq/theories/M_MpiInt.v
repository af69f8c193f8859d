(** integrate_adaptive with a controlled stepper on every rank of a distributed state; the ranks
    are programs as in M_Mpi.  The observer is called on every rank with its part of the state; it
    neither throws nor communicates. *)
From Coq Require Import ZArith List Bool Arith.
From Verif Require Import M_Num M_Sign M_Run M_Checker M_RK M_CtrlRK M_Controlled M_Mpi M_MpiFsal.
Import ListNotations.
Local Open Scope num_scope.

Section MpiInt.
Context {N : Num}.

(** What a rank ends with: its calls of the observer, and the state, start_time, dt and the
    returned number of steps, or the exception. *)
(* Source: integrate/detail/integrate_adaptive.hpp:80-113. *)
Definition rank_result : Type := (list (vec N nat * N) * res (vec N nat * N * N * nat))%type.

Section Rank.
Context {C : Type}.
(** try_step( sys , x , t , dt ) of the controlled stepper on the rank, and the code behind it. *)
Variable rtry : C -> vec N nat -> N -> N ->
  (C -> vec N nat -> N -> N -> bool -> rprog N rank_result) -> rprog N rank_result.

(** The do-while loop, integrate/detail/integrate_adaptive.hpp:101-106. *)
Fixpoint rank_attempts (fuel cnt : nat) (c : C) (x : vec N nat) (t dt : N)
  (k : C -> vec N nat -> N -> N -> rprog N rank_result)
  (stop : res (vec N nat * N * N * nat) -> rprog N rank_result) : rprog N rank_result :=
  match fuel with
  | O => stop Fuel
  | S fuel' =>
      rtry c x t dt
        (fun c1 x1 t1 dt1 ok =>
           match fail_check cnt with
           | Ok cnt1 => if ok then k c1 x1 t1 dt1
                        else rank_attempts fuel' cnt1 c1 x1 t1 dt1 k stop
           | Exc e => stop (Exc e)
           | UB => stop UB
           | Fuel => stop Fuel
           end)
  end.

(** integrate_adaptive(controlled_stepper_tag), integrate/detail/integrate_adaptive.hpp:80-113;
    [tr]: the calls of the observer so far. *)
Fixpoint rank_ia (fuel : nat) (tend : N) (c : C) (x : vec N nat) (t dt : N)
  (count : nat) (tr : list (vec N nat * N)) : rprog N rank_result :=
  match fuel with
  | O => PRet (tr, Fuel)
  | S fuel' =>
      if less_with_sign t tend dt then
        let dt1 := if less_with_sign tend (t + dt) dt then tend - t else dt in
        rank_attempts (2 + default_max_steps) 0 c x t dt1
          (fun c2 x2 t2 dt2 => rank_ia fuel' tend c2 x2 t2 dt2 (S count) (tr ++ [(x, t)]))
          (fun o => PRet (tr ++ [(x, t)], o))
      else PRet (tr ++ [(x, t)], Ok (x, t, dt, count))
  end.
End Rank.

(** The two controllers; the FSAL one without a resize of its temporaries after the first call
    (a fresh one evaluates the derivative at the first call in any case). *)
Section Named.
Variable pw : N -> N -> N.
Variable error_order stepper_order : Z.
Variable cfg : err_cfg N.
Variable max_dt : N.

(* Source: controlled_runge_kutta.hpp:280-284 in integrate/detail/integrate_adaptive.hpp:80-113. *)
Definition rank_ia_ck (world : list nat) (name : rk_name) (sz : nat) (xcomm : list nat) :=
  rank_ia (rank_try world pw name error_order stepper_order cfg max_dt sz xcomm).
(* Source: controlled_runge_kutta.hpp:616-620 in integrate/detail/integrate_adaptive.hpp:80-113. *)
Definition rank_ia_fsal (world : list nat) (sz : nat) (xcomm : list nat) :=
  rank_ia (rank_ftry world pw error_order stepper_order cfg max_dt sz xcomm false).

(** The same functions in one process, on the whole container, with an observer that records. *)
(* Source: controlled_runge_kutta.hpp:280-284. *)
Definition ck_fun {I : Type} (name : rk_name) (idx : list I) (sys : vec N I -> N -> vec N I) :=
  ck_try idx pw sys (rk_estep sys name) error_order stepper_order cfg max_dt.
(* Source: controlled_runge_kutta.hpp:616-620. *)
Definition ckf_fun {I : Type} (idx : list I) (sys : vec N I -> N -> vec N I) :=
  ckf_try idx pw sys (dopri5_fstep sys (mkAlias false false)) error_order stepper_order cfg max_dt false.
End Named.

(* Source: integrate/detail/integrate_adaptive.hpp:80-113. *)
Definition serial_try {C X : Type} (f : C -> X -> N -> N -> C * X * N * N * bool)
  (c : C) (w : unit) (x : X) (t dt : N) : M (ev X N) (C * unit * X * N * N * bool) :=
  let '(c', x', t', dt', ok) := f c x t dt in ret (c', w, x', t', dt', ok).
(* Source: integrate/detail/integrate_adaptive.hpp:80-113. *)
Definition serial_ia {C X : Type} (f : C -> X -> N -> N -> C * X * N * N * bool) (fuel : nat)
  (c : C) (x : X) (t0 tend dt : N) :=
  integrate_adaptive_ctrl (serial_try f) rec_obs fuel c tt x t0 tend dt.
End MpiInt.

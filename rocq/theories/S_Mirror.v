(** Specification of time reversal (reals). *)
From Coq Require Import List Reals.
From Verif Require Import M_Num M_Run M_Dense S_Check.
Import ListNotations.
Local Open Scope R_scope.

(** The mirror image of an event: all times and step sizes negated. *)
Definition mirror_ev {X : Type} (e : ev X R) : ev X R :=
  match e with
  | EObs x t => EObs x (- t)
  | EStep x t dt => EStep x (- t) (- dt)
  | ETry x t dt ok => ETry x (- t) (- dt) ok
  | EInit x t dt => EInit x (- t) (- dt)
  | EDo a b x => EDo (- a) (- b) x
  | ECalc t x => ECalc (- t) x
  end.

(** The mirror image of a run; [h] mirrors the returned value. *)
Definition mirror {X A : Type} (h : A -> A) (m : M (ev X R) A) : M (ev X R) A :=
  (map mirror_ev (fst m), map_res h (snd m)).

Section Mirror.
Context {S W X : Type}.
(** Time-mirrors of observers and steppers. *)
Definition mirror_obs (obs : W -> X -> R -> M (ev X R) W) (w : W) (x : X) (t : R) : M (ev X R) W :=
  mirror (fun w => w) (obs w x (- t)).
Definition mirror_do (do_step : S -> W -> X -> R -> R -> M (ev X R) (S * W * X))
  (s : S) (w : W) (x : X) (t dt : R) : M (ev X R) (S * W * X) :=
  mirror (fun p => p) (do_step s w x (- t) (- dt)).
Definition mirror_try_res (p : S * W * X * R * R * bool) : S * W * X * R * R * bool :=
  let '(s, w, x, t, dt, ok) := p in (s, w, x, - t, - dt, ok).
Definition mirror_try (try_step : S -> W -> X -> R -> R -> M (ev X R) (S * W * X * R * R * bool))
  (s : S) (w : W) (x : X) (t dt : R) : M (ev X R) (S * W * X * R * R * bool) :=
  mirror mirror_try_res (try_step s w x (- t) (- dt)).
Definition mirror_dense (eps : R) (D : DenseOps (RNum eps) S W X) : DenseOps (RNum eps) S W X :=
  @Build_DenseOps (RNum eps) S W X
    (fun s x t dt => d_init D s x (- t) (- dt))
    (fun s w => mirror (fun p => p) (d_step D s w))
    (fun s t => d_calc D s (- t))
    (fun s => - d_t D s)
    (d_x D)
    (fun s => - d_dt D s).
End Mirror.

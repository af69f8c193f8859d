(** Invariants of steppers and of whole runs. *)
From Coq Require Import List.
From Verif Require Import M_Num M_Run M_Dense.
Import ListNotations.

(** All events of the run satisfy [E] (whatever the outcome: also before an
    exception) and a normal return satisfies [P]. *)
Definition run_inv {V A} (E : V -> Prop) (P : A -> Prop) (m : M V A) : Prop :=
  Forall E (fst m) /\ forall a, snd m = Ok a -> P a.

(** Every state shown to the observer satisfies [PX]. *)
Definition obs_inv {X T} (PX : X -> Prop) (e : ev X T) : Prop :=
  match e with EObs x _ => PX x | _ => True end.

Section StepperInv.
Context {N : Num} {S W X : Type}.
Notation V := (ev X (carrier N)).
Variables (PS : S -> Prop) (PX : X -> Prop).

(** The stepper keeps [PS] of the stepper object and [PX] of the state. *)
Definition step_keeps (do_step : S -> W -> X -> N -> N -> M V (S * W * X)) : Prop :=
  forall s w x t dt, PS s -> PX x ->
  run_inv (obs_inv PX) (fun '(s', _, x') => PS s' /\ PX x') (do_step s w x t dt).
Definition try_keeps (try_step : S -> W -> X -> N -> N -> M V (S * W * X * N * N * bool)) : Prop :=
  forall s w x t dt, PS s -> PX x ->
  run_inv (obs_inv PX) (fun '(s', _, x', _, _, _) => PS s' /\ PX x') (try_step s w x t dt).
Definition dense_keeps (D : DenseOps N S W X) : Prop :=
  (forall s x t dt, PS s -> PX x -> PS (d_init D s x t dt)) /\
  (forall s w, PS s -> run_inv (obs_inv PX) (fun '(s', _) => PS s') (d_step D s w)) /\
  (forall s t, PS s -> PX (d_calc D s t)) /\ (forall s, PS s -> PX (d_x D s)).
(** Observers only show the state they are given. *)
Definition obs_shows (obs : W -> X -> N -> M V W) : Prop :=
  forall w x t, PX x -> run_inv (obs_inv PX) (fun _ => True) (obs w x t).
End StepperInv.

(** What a user of an adaptive integration may rely on. *)
From Coq Require Import List Reals.
From Verif Require Import M_Num M_RK S_RK S_Real S_CtrlRK.
Import ListNotations.
Local Open Scope R_scope.

(** Every two neighbours of the list are related by [L]. *)
Fixpoint linked {A : Type} (L : A -> A -> Prop) (l : list A) : Prop :=
  match l with
  | [] => True
  | a :: r => match r with [] => True | b :: _ => L a b end /\ linked L r
  end.

(** From observation [p] = (state, time) to observation [q] one step of the Runge-Kutta method with
    tableau [tb] leads, in the direction of integration [sg], not past the end time and no longer
    than a given limit; the embedded error estimate of that step is within the tolerance. *)
Definition good_step (eps : R) {I : Type} (tb : tableau (RNum eps)) (idx : list I)
  (sys : (I -> R) -> R -> (I -> R)) (abs rel max_dt sg tend : R) (p q : (I -> R) * R) : Prop :=
  let h := snd q - snd p in
  rk_result eps tb sys (fst p) (snd p) h (fst q)
  /\ (exists e, rk_error eps tb sys (fst p) (snd p) h e
       /\ forall i, In i idx -> Rabs (e i) <= abs + rel * (Rabs (fst p i) + Rabs h * Rabs (sys (fst p) (snd p) i)))
  /\ 0 < sg * h /\ sg * (snd q - tend) <= eps
  /\ (max_dt <> 0 -> Rabs h <= Rabs max_dt + eps).

(** Uses of a velocity_verlet object in one direction. *)
From Coq Require Import List Reals.
From Verif Require Import M_Num M_RK M_Symp S_Symp.
Import ListNotations.
Local Open Scope R_scope.

(** Every step of [ops] goes in direction [sg], is not wider than [hm] and ends at a time in [T]. *)
Fixpoint directed {eps : R} {I : Type} (T : R -> Prop) (sg hm t : R) (ops : list (vv_op (RNum eps) I)) : Prop :=
  match ops with
  | [] => True
  | OStep _ dt :: r => 0 <= sg * dt <= hm /\ T (t + dt) /\ directed T sg hm (t + dt) r
  | _ :: r => directed T sg hm t r
  end.

(** The error bound at distance [a] from the start, for the initial error [D] and the rate [E]. *)
Definition vv_bound (G D E a : R) : R := exp (G * a) * (D + E * a).

(** do_step( system , x , t , dt ) as the integrate functions call it, on an object of the right size. *)
Definition vv_stp {eps : R} {I : Type} (f : (I -> R) -> (I -> R) -> R -> (I -> R)) (s : vv (RNum eps) I)
  (x : vec (RNum eps) I * vec (RNum eps) I) (t dt : RNum eps) : vv (RNum eps) I * (vec (RNum eps) I * vec (RNum eps) I) :=
  fst (vv_do_step (N := RNum eps) f s None x t dt).

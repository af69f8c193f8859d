(** Specification for the symplectic steppers and velocity_verlet: tangent maps, the
    symplectic form, the textbook velocity Verlet scheme. *)
From Coq Require Import ZArith List Bool Reals.
From Verif Require Import M_Num M_RK M_Symp.
Import ListNotations.

Section Forms.
Context {I : Type}.
Local Open Scope R_scope.
Notation vecR := (I -> R).

(** [v] is the velocity at [s] of the curve [c]. *)
Definition curve_deriv (c : R -> vecR) (s : R) (v : vecR) : Prop :=
  forall i, derivable_pt_lim (fun r => c r i) s (v i).
(** [T z] is the tangent map of [F] at [z]: the image of a curve through [z] with velocity [v]
    has the velocity [T z v]. *)
Definition tangent (F : vecR -> vecR) (T : vecR -> vecR -> vecR) : Prop :=
  forall c s v, curve_deriv c s v -> curve_deriv (fun r => F (c r)) s (T (c s) v).
(** The same in phase space. *)
Definition tangent2 (F : vecR * vecR -> vecR * vecR) (T : vecR * vecR -> vecR * vecR -> vecR * vecR) : Prop :=
  forall cq cp s u, curve_deriv cq s (fst u) -> curve_deriv cp s (snd u) ->
  curve_deriv (fun r => fst (F (cq r, cp r))) s (fst (T (cq s, cp s) u)) /\
  curve_deriv (fun r => snd (F (cq r, cp r))) s (snd (T (cq s, cp s) u)).

(** Scalar product and canonical symplectic form over the components [idx]. *)
Definition dot (idx : list I) (u v : vecR) : R := fold_right Rplus 0 (map (fun i => u i * v i) idx).
Definition omega (idx : list I) (u v : vecR * vecR) : R := dot idx (fst u) (snd v) - dot idx (snd u) (fst v).

(** The derivative of a gradient field is symmetric. *)
Definition symmetric (idx : list I) (A : vecR -> vecR -> vecR) : Prop :=
  forall z u v, dot idx (A z u) v = dot idx u (A z v).
Definition symplectic (idx : list I) (F : vecR * vecR -> vecR * vecR) : Prop :=
  exists T, tangent2 F T /\ forall z u v, omega idx (T z u) (T z v) = omega idx u v.
End Forms.

(** ** The textbook velocity Verlet scheme for a force g(q,t): both accelerations are
    evaluated in every step. *)
Section Textbook.
Context {N : Num} {I : Type}.
Local Open Scope num_scope.
Variable g : vec N I -> N -> vec N I.

Definition verlet (x : vec N I * vec N I) (t dt : N) : vec N I * vec N I :=
  let (q, p) := x in
  let a := g q t in
  let q' := fun i => nofZ 1 * q i + nofZ 1 * dt * p i + nofZ 1 / nofZ 2 * dt * dt * a i in
  let a' := g q' (t + dt) in
  (q', fun i => nofZ 1 * p i + nofZ 1 / nofZ 2 * dt * a i + nofZ 1 / nofZ 2 * dt * a' i).

(** A use of the stepper object from the point (x,t): what is called, in order. *)
Inductive vv_op :=
| OStep (rs : option (vec N I * vec N I)) (dt : N)        (* do_step at the current point *)
| OReset                                                   (* reset() *)
| OAdjust (rs : option (vec N I * vec N I))                (* adjust_size( x ) *)
| OInit (rs : option (vec N I * vec N I))                  (* initialize( system , q , p , t ) *)
| OInitAcc (rs : option (vec N I * vec N I)).              (* initialize( a ) with a = g(q,t) *)

(** The points the textbook scheme visits. *)
Fixpoint verlet_run (x : vec N I * vec N I) (t : N) (ops : list vv_op) : list (vec N I * vec N I * N) :=
  match ops with
  | [] => []
  | OStep _ dt :: r => let x' := verlet x t dt in (x', t + dt) :: verlet_run x' (t + dt) r
  | _ :: r => verlet_run x t r
  end.
End Textbook.
Arguments vv_op N I : clear implicits.

(** The same with the stepper object: the points visited and the system calls. *)
Section Object.
Context {N : Num} {I : Type}.
Local Open Scope num_scope.
Variable sys : vec N I -> vec N I -> N -> vec N I.

Fixpoint vv_run (s : vv N I) (x : vec N I * vec N I) (t : N) (ops : list (vv_op N I))
  : list (vec N I * vec N I * N) * list (vec N I * vec N I * N) :=
  match ops with
  | [] => ([], [])
  | OStep rs dt :: r =>
      let '(s', x', l) := vv_do_step sys s rs x t dt in
      let (ps, l') := vv_run s' x' (t + dt) r in ((x', t + dt) :: ps, l ++ l')
  | OReset :: r => vv_run (vv_reset s) x t r
  | OAdjust rs :: r => vv_run (vv_adjust s rs) x t r
  | OInit rs :: r => let (s', l) := vv_initialize sys s rs (fst x) (snd x) t in
                     let (ps, l') := vv_run s' x t r in (ps, l ++ l')
  | OInitAcc rs :: r => vv_run (vv_initialize_acc s rs (sys (fst x) (snd x) t)) x t r
  end.
End Object.

(** Vocabulary for dense_output_runge_kutta: what a caller can see, and sequences of steps. *)
From Coq Require Import List.
From Verif Require Import M_Num M_Run M_RK.
Import ListNotations.

Section View.
Context {N : Num} {X : Type}.

(** The public interface between two calls of do_step: current_state, current_time,
    previous_state, previous_time, current_time_step, and calc_state as a function of time. *)
Record view := mkView { v_x : X; v_t : N; v_px : X; v_pt : N; v_dt : N; v_calc : N -> X }.

(** [n] calls of do_step, up to the first exception. *)
Fixpoint do_steps {O : Type} (step : O -> O * res unit) (n : nat) (o : O) : O * res unit :=
  match n with
  | O => (o, Ok tt)
  | S n' => match step o with
            | (o1, Ok _) => do_steps step n' o1
            | (o1, r) => (o1, r)
            end
  end.

(** The attempts of one step: what the [k]-th attempt leaves, each failed one being the start of
    the next. *)
Fixpoint attempts {O : Type} (try : O -> O * bool) (k : nat) (o : O) : O * bool :=
  match k with
  | O => try o
  | S k' => attempts try k' (fst (try o))
  end.
End View.
Arguments view N X : clear implicits.

(** Specification of a fixed-step integration over prescribed observation times (reals). *)
From Coq Require Import List Reals.
From Verif Require Import S_Grid S_Real.
Import ListNotations.
Local Open Scope R_scope.

(** Every step goes in the direction of dt and is not longer than dt. *)
Definition good_widths (dt : R) (l : list (R * R)) : Prop :=
  Forall (fun td => 0 < dir dt * snd td /\ Rabs (snd td) <= Rabs dt) l.

(** Observe at each given time, in order, exactly once; between t and the next time t'
    make adjacent steps from t to some b, not beyond t' and within eps of t'. *)
Inductive times_schedule (eps dt : R) : list R -> list (cmd R) -> Prop :=
| ts_one t : times_schedule eps dt [t] [CObs t]
| ts_cons t t' rest l b cs :
    chain t l b ->
    0 <= dir dt * (t' - b) <= eps ->
    good_widths dt l ->
    times_schedule eps dt (t' :: rest) cs ->
    times_schedule eps dt (t :: t' :: rest) (CObs t :: map (fun td => CStep (fst td) (snd td)) l ++ cs).

(** Number of steps in a schedule. *)
Fixpoint count_steps {T} (cs : list (cmd T)) : nat :=
  match cs with
  | [] => O
  | CStep _ _ :: r => S (count_steps r)
  | CObs _ :: r => count_steps r
  end.

(** Times in the direction of dt (repetitions allowed). *)
Fixpoint monotone (sg : R) (l : list R) : Prop :=
  match l with
  | [] => True
  | a :: r => match r with [] => True | b :: _ => 0 <= sg * (b - a) end /\ monotone sg r
  end.

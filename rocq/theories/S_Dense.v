(** Specification vocabulary for runs with dense output steppers (reals). *)
From Coq Require Import List Reals.
From Verif Require Import M_Run S_Grid S_Real.
Import ListNotations.
Local Open Scope R_scope.

(** Contract of a dense output stepper: initialize sets state, time and step size; do_step moves
    current_time in the direction of current_time_step by at most that much and keeps the
    direction. *)
Record dense_contract {S X : Type} (init : S -> X -> R -> R -> S) (step : S -> S)
  (ct : S -> R) (cx : S -> X) (cdt : S -> R) : Prop := {
  dc_t  : forall s x t dt, ct (init s x t dt) = t;
  dc_x  : forall s x t dt, cx (init s x t dt) = x;
  dc_dt : forall s x t dt, cdt (init s x t dt) = dt;
  dc_adv : forall s, cdt s <> 0 -> 0 < dir (cdt s) * (ct (step s) - ct s) <= Rabs (cdt s);
  dc_dir : forall s, cdt s <> 0 -> 0 < dir (cdt s) * cdt (step s)
}.

(** Every calc_state(t) happens after at least one do_step since the last initialize, and t lies
    in the last step interval (previous_time, current_time), up to [slack]. *)
Fixpoint valid_calcs {X : Type} (sg slack : R) (iv : option (R * R)) (tr : list (ev X R)) : Prop :=
  match tr with
  | [] => True
  | EInit _ _ _ :: r => valid_calcs sg slack None r
  | EDo a b _ :: r => valid_calcs sg slack (Some (a, b)) r
  | ECalc t _ :: r =>
      match iv with
      | None => False
      | Some (a, b) => - slack <= sg * (t - a) /\ sg * (t - b) <= slack
      end /\ valid_calcs sg slack iv r
  | _ :: r => valid_calcs sg slack iv r
  end.

(** The last step interval after a trace. *)
Fixpoint interval_after {X : Type} (iv : option (R * R)) (tr : list (ev X R)) : option (R * R) :=
  match tr with
  | [] => iv
  | EInit _ _ _ :: r => interval_after None r
  | EDo a b _ :: r => interval_after (Some (a, b)) r
  | _ :: r => interval_after iv r
  end.

(** Every observation shows exactly what calc_state wrote immediately before, for the same time,
    and every calc_state is followed by its observation. *)
Fixpoint paired {X T : Type} (tr : list (ev X T)) : Prop :=
  match tr with
  | [] => True
  | ECalc t x :: r => match r with EObs x' t' :: r' => x' = x /\ t' = t /\ paired r' | _ => False end
  | EObs _ _ :: _ => False
  | _ :: r => paired r
  end.

(** States and times reached by the do_step calls, in order. *)
Definition reached_of {X T : Type} (tr : list (ev X T)) : list (X * T) :=
  flat_map (fun e => match e with EDo _ b x => [(x, b)] | _ => [] end) tr.

(** Step intervals adjacent to each other, each non-empty in direction [sg], leading from a to b. *)
Fixpoint adjacent (sg a : R) (l : list (R * R)) (b : R) : Prop :=
  match l with
  | [] => a = b
  | (p, q) :: r => p = a /\ 0 < sg * (q - p) /\ adjacent sg q r b
  end.

(** Consecutive times at least [gap] apart in direction [sg] (more than [gap]). *)
Fixpoint spaced (sg gap : R) (l : list R) : Prop :=
  match l with
  | [] => True
  | a :: r => match r with [] => True | b :: _ => gap < sg * (b - a) end /\ spaced sg gap r
  end.

(** Rational version of the contract for forward integration, used by the counterexamples. *)
From Coq Require Import QArith.
Definition forward_contract_Q {S X : Type} (init : S -> X -> Q -> Q -> S) (step : S -> S)
  (ct : S -> Q) (cx : S -> X) (cdt : S -> Q) : Prop :=
  (forall s x t dt, ct (init s x t dt) = t /\ cx (init s x t dt) = x /\ cdt (init s x t dt) = dt) /\
  (forall s, (0 < cdt s)%Q -> (ct s < ct (step s))%Q /\ (ct (step s) <= ct s + cdt s)%Q /\ (0 < cdt (step s))%Q).

(** Specification vocabulary for runs with controlled steppers. *)
From Coq Require Import List Reals.
From Verif Require Import M_Run S_Grid S_Real.
Import ListNotations.

(** The trace of a run that observes at tm 0, tm 1, ..., tm (length segs): [segs] lists the
    observed states and the events between two observations; [xN] is the last observed state. *)
Fixpoint grid_trace {X T : Type} (tm : nat -> T) (k : nat) (segs : list (X * list (ev X T))) (xN : X)
  : list (ev X T) :=
  match segs with
  | [] => [EObs xN (tm k)]
  | (x, seg) :: r => EObs x (tm k) :: seg ++ grid_trace tm (S k) r xN
  end.

(** Only step attempts. *)
Definition only_tries {X T : Type} (seg : list (ev X T)) : Prop :=
  Forall (fun e => match e with ETry _ _ _ _ => True | _ => False end) seg.

(** Number of consecutive rejected attempts at the end of a trace. *)
Definition reject_run {X T : Type} (tr : list (ev X T)) : nat :=
  fold_left (fun n e => match e with ETry _ _ _ false => S n | ETry _ _ _ true => O | _ => n end) tr O.

Local Open Scope R_scope.

(** The try_step contract: success advances the time by exactly the attempted step and keeps the
    direction; failure leaves state and time alone and proposes a step of the same direction that
    is not longer. *)
Definition try_contract {S X : Type} (f : S -> X -> R -> R -> S * X * R * R * bool) : Prop :=
  forall s x t dt, dt <> 0 ->
  let '(s', x', t', dt', ok) := f s x t dt in
  if ok : bool then t' = t + dt /\ 0 < dir dt * dt'
  else x' = x /\ t' = t /\ 0 < dir dt * dt' <= Rabs dt.

(** Attempts while approaching one observation time [target]: (current time, nominal step size)
    before and after.  The attempted width is the nominal one or the distance to the target,
    whichever is smaller; success never decreases the nominal size; failure replaces it by a
    size not longer than the attempt. *)
Inductive approach {X : Type} (target : R) : R -> R -> list (ev X R) -> R -> R -> Prop :=
| ap_nil cur D : approach target cur D [] cur D
| ap_ok x cur D d D' tr e De :
    dir d = dir D -> Rabs d = Rmin (Rabs D) (Rabs (target - cur)) ->
    dir D' = dir D -> Rabs D <= Rabs D' ->
    approach target (cur + d) D' tr e De ->
    approach target cur D (ETry x cur d true :: tr) e De
| ap_fail x cur D d D' tr e De :
    dir d = dir D -> Rabs d = Rmin (Rabs D) (Rabs (target - cur)) ->
    dir D' = dir D -> Rabs D' <= Rabs d ->
    approach target cur D' tr e De ->
    approach target cur D (ETry x cur d false :: tr) e De.

(** A run over prescribed observation times: every time is observed once, in order; before the
    observation at t' the stepper is within eps of t' and not beyond it. *)
Inductive times_run {X : Type} (eps sg : R) : list R -> R -> list (ev X R) -> X -> Prop :=
| tr_one t D x : times_run eps sg [t] D [EObs x t] x
| tr_cons t t' rest D x seg b D' tr xN :
    approach t' t D seg b D' ->
    0 <= sg * (t' - b) <= eps ->
    times_run eps sg (t' :: rest) D' tr xN ->
    times_run eps sg (t :: t' :: rest) D (EObs x t :: seg ++ tr) xN.

(** Time and width of an accepted step. *)
Definition td {X : Type} (e : X * R * R) : R * R := (snd (fst e), snd e).

(** The accepted steps of a segment are adjacent and lead from a to within eps of b. *)
Definition seg_covers {X : Type} (eps a b : R) (seg : list (ev X R)) : Prop :=
  exists e, chain a (map td (accepted_of seg)) e /\ Rabs (b - e) <= eps.

(** The k-th segment covers the k-th grid interval. *)
Fixpoint segs_cover {X : Type} (eps t0 dt : R) (k : nat) (segs : list (X * list (ev X R))) : Prop :=
  match segs with
  | [] => True
  | (_, seg) :: r => seg_covers eps (t0 + INR k * dt) (t0 + INR (S k) * dt) seg /\
                     segs_cover eps t0 dt (S k) r
  end.

(** The k-th attempt of a step when all earlier attempts are rejected. *)
Fixpoint attempt {T S X : Type} (f : S -> X -> T -> T -> S * X * T * T * bool)
  (k : nat) (s : S) (x : X) (t dt : T) : S * X * T * T * bool :=
  match k with
  | O => f s x t dt
  | Datatypes.S k' => let '(s', x', t', dt', _) := f s x t dt in attempt f k' s' x' t' dt'
  end.

(** Total number of accepted steps in a list of segments. *)
Definition seg_accepted {X T : Type} (segs : list (X * list (ev X T))) : nat :=
  length (flat_map (fun p => accepted_of (snd p)) segs).

(** Specification of adaptive Adams steppers: which objects a program can have, and the history of a run. *)
From Coq Require Import ZArith List Bool Arith Reals.
From Verif Require Import M_Num M_Run M_RK M_Midpoint M_Adams M_AABM S_RK.
Import ListNotations.
Local Open Scope num_scope.

Section Objects.
Context {N : Num} {I : Type}.
Variable ov : nat.

(** Memory of the right size for the members of the coefficient object. *)
Definition memory (beta : list (list N)) (phi : list (list (vec N I))) (g time c : list N) : Prop :=
  length beta = 2%nat /\ Forall (fun r => length r = (ov + 1)%nat) beta
  /\ length phi = 3%nat /\ Forall (fun r => length r = (ov + 2)%nat) phi
  /\ length g = (ov + 2)%nat /\ length time = (ov + 1)%nat /\ length c = ((ov + 2) * (ov + 2))%nat.

(** The objects adaptive_adams_bashforth_moulton< ov > that a program can have: any calls, with any
    arguments, after the constructor. *)
Inductive aabm_obj : aac N I -> Prop :=
| ob_ctor beta phi g time c s : memory beta phi g time c -> aac_ctor ov beta phi g time c = Ok s -> aabm_obj s
| ob_reset s : aabm_obj s -> aabm_obj (aac_reset s)
| ob_step sys s x t dt s' out xerr log : aabm_obj s -> aabm_do_step ov sys s x t dt = Ok (s', out, xerr, log) -> aabm_obj s'
| ob_init sys ES (estep : ES -> vec N I -> vec N I -> N -> N -> res (ES * vec N I)) e s x t dt e' s' x' t' :
    aabm_obj s -> aabm_initialize ov sys estep e s x t dt = Ok (e', s', x', t') -> aabm_obj s'.

(** A run: successive steps after reset(), each starting at the time the one before has reached; the step
    widths, the systems and the states may be anything.  The history lists the points with the derivative
    there, latest first: the starting point of the first step and the end points of all steps. *)
Definition starts (h : list (N * vec N I)) (t : N) : Prop :=
  match h with [] => True | (t0, _) :: _ => t = t0 end.
Definition with_start (h : list (N * vec N I)) (t : N) (d : vec N I) : list (N * vec N I) :=
  match h with [] => [(t, d)] | _ => h end.
(** The points that initialize( stepper , system , inOut , t , dt ) visits, latest first. *)
Fixpoint init_pts {ES} (estep : ES -> vec N I -> vec N I -> N -> N -> res (ES * vec N I)) (sys : vec N I -> N -> vec N I)
    (n : nat) (e : ES) (x : vec N I) (t dt : N) (acc : list (N * vec N I)) : list (N * vec N I) :=
  match n with
  | O => acc
  | S n' => match estep e x (sys x t) t dt with
            | Ok (e1, x1) => init_pts estep sys n' e1 x1 (t + dt) dt ((t + dt, sys x1 (t + dt)) :: acc)
            | _ => acc
            end
  end.
(** After initialize( stepper , ... ) the history starts with the points of the stepper.  The derivative at the
    very first point is not stored by the code: there the history has the value [d] that happens to be in the
    table. *)
Inductive aabm_trace (s0 : aac N I) : list (N * vec N I) -> aac N I -> Prop :=
| tr_reset : aabm_trace s0 [] (aac_reset s0)
| tr_init sys ES (estep : ES -> vec N I -> vec N I -> N -> N -> res (ES * vec N I)) e x t dt e' s' x' t' d :
    aabm_initialize ov sys estep e s0 x t dt = Ok (e', s', x', t') -> get2 3 (a_phi s0) 1 0 = Ok d ->
    aabm_trace s0 (init_pts estep sys ov e x t (dt / nofnat ov) [(t, d)]) s'
| tr_step h s sys x t dt s' out xerr log : aabm_trace s0 h s -> starts h t ->
    aabm_do_step ov sys s x t dt = Ok (s', out, xerr, log) ->
    aabm_trace s0 ((t + dt, sys out (t + dt)) :: with_start h t (sys x t)) s'.

(** The same for controlled_adams_bashforth_moulton, with any norm and any step adjuster. *)
Section Controlled.
Context {PA : Type}.
Variable norm : vec N I -> N.
Variable adjust_stepsize : PA -> nat -> N -> vec N I -> vec N I -> vec N I -> PA * vec N I * N.
Variable threshold : N.
Notation try := (cabm_try ov norm adjust_stepsize threshold).

Inductive cabm_obj : cabm N I PA -> Prop :=
| co_ctor beta phi g time c s xerr pa : memory beta phi g time c -> aac_ctor ov beta phi g time c = Ok s -> length xerr = 4%nat ->
    cabm_obj (mkCabm s xerr pa)
| co_reset s : cabm_obj s -> cabm_obj (cm_reset s)
| co_try sys s x t dt s' b out t' dt' : cabm_obj s -> try sys s x t dt = Ok (s', b, out, t', dt') -> cabm_obj s'
| co_init sys ES (estep : ES -> vec N I -> vec N I -> N -> N -> res (ES * vec N I)) e s x t dt e' c' x' t' :
    cabm_obj s -> aabm_initialize ov sys estep e (cm_coeff s) x t dt = Ok (e', c', x', t') ->
    cabm_obj (mkCabm c' (cm_xerr s) (cm_adj s))
| co_init_own sys s x t dt c' x' t' :
    cabm_obj s -> aabm_initialize_own ov sys (cm_coeff s) x t dt = Ok (c', x', t') ->
    cabm_obj (mkCabm c' (cm_xerr s) (cm_adj s))
| co_init_ctrl sys ES (ctry : ES -> vec N I -> N -> N -> res (ES * bool * vec N I * N * N)) fuel e s x t dt e' s' x' t' dt' :
    cabm_obj s -> cabm_initialize_controlled ov sys ctry fuel e s x t dt = Ok (e', s', x', t', dt') -> cabm_obj s'.

(** A run: successive attempts, each starting at the time reached; a rejected attempt adds nothing. *)
Inductive cabm_trace (s0 : cabm N I PA) : list (N * vec N I) -> cabm N I PA -> Prop :=
| ct_reset : cabm_trace s0 [] (cm_reset s0)
| ct_init sys ES (estep : ES -> vec N I -> vec N I -> N -> N -> res (ES * vec N I)) e x t dt e' c' x' t' d :
    aabm_initialize ov sys estep e (cm_coeff s0) x t dt = Ok (e', c', x', t') -> get2 3 (a_phi (cm_coeff s0)) 1 0 = Ok d ->
    cabm_trace s0 (init_pts estep sys ov e x t (dt / nofnat ov) [(t, d)]) (mkCabm c' (cm_xerr s0) (cm_adj s0))
| ct_fail h s sys x t dt s' out t' dt' : cabm_trace s0 h s -> starts h t ->
    try sys s x t dt = Ok (s', false, out, t', dt') -> cabm_trace s0 h s'
| ct_success h s sys x t dt s' out t' dt' : cabm_trace s0 h s -> starts h t ->
    try sys s x t dt = Ok (s', true, out, t', dt') ->
    cabm_trace s0 ((t + dt, sys out (t + dt)) :: with_start h t (sys x t)) s'.
End Controlled.
End Objects.

(** [q] interpolates the component [i] of the points, and [X] is an antiderivative of [q]. *)
Definition interpolates {I} (q : list R) (i : I) (pts : list (R * (I -> R))) : Prop :=
  Forall (fun p => peval q (fst p) = snd p i) pts.
Definition antiderivative (X : R -> R) (q : list R) : Prop := forall s, derivable_pt_lim X s (peval q s).

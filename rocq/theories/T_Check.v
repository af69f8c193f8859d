(** Property theorems C16, C17: step checkers. *)
From Coq Require Import List Arith ZArith QArith.
From Verif Require Import M_Num M_Sign M_Run M_Checker M_Plain M_Controlled M_Dense M_Checked
  S_Grid S_Check X_Inst P_Check.
Import ListNotations.

(** C16, C17: the run with a checker of limit [m] against the run without, for any number type,
    any non-throwing stepper (with any internal state) and any, also throwing, observer.
    [checked_run] says: without more than [m] steps between observations the two runs have the same
    events and the same result (stepper, world, state, value); otherwise the checked run ends in
    no_progress_error exactly at the first step that is the (m+1)-th since the last observation. *)
Theorem C17_plain :
  forall (N : Num) (S W X : Type) (m : nat) (g : W -> X -> N -> res W) (f : S -> X -> N -> N -> S * X)
         fuel (s : S) (w : W) (x : X) (t0 tend dt : N) (n : nat) (times : list N),
  let cobs := checked_obs (ref_obs (user_obs g)) in
  let cstep := checked_do m (ref_do (plain_step f)) in
  checked_run m false (fun c '(s, w, x, b) => (tt, (c, (s, w)), x, b))
    (integrate_const (user_obs g) (plain_step f) fuel s w x t0 tend dt)
    (integrate_const cobs cstep fuel tt (0%nat, (s, w)) x t0 tend dt) /\
  checked_run m false (fun c '(s, w, x, b) => (tt, (c, (s, w)), x, b))
    (integrate_n_steps (user_obs g) (plain_step f) s w x t0 dt n)
    (integrate_n_steps cobs cstep tt (0%nat, (s, w)) x t0 dt n) /\
  checked_run m false (fun c '(s, w, x, b) => (tt, (c, (s, w)), x, b))
    (integrate_times_plain (user_obs g) (plain_step f) fuel s w x times dt)
    (integrate_times_plain cobs cstep fuel tt (0%nat, (s, w)) x times dt).
Proof.
  exact (fun N S W X m g f fuel s w x t0 tend dt n times =>
    conj (const_checked m g f fuel s w x t0 tend dt)
   (conj (n_steps_checked m g f s w x t0 dt n) (times_checked m g f fuel s w x times dt))).
Qed.
Print Assumptions C17_plain.

(** Controlled steppers: integrate_times in full generality ... *)
Theorem C17_times_controlled :
  forall (N : Num) (S W X : Type) (m : nat) (g : W -> X -> N -> res W)
         (f : S -> X -> N -> N -> S * X * N * N * bool)
         fuel (s : S) (w : W) (x : X) (times : list N) (dt : N),
  checked_run m false (fun c '(s, w, x, b) => (tt, (c, (s, w)), x, b))
    (integrate_times_ctrl (ctrl_step f) (user_obs g) fuel s w x times dt)
    (integrate_times_ctrl (checked_try m (ref_try (ctrl_step f))) (checked_obs (ref_obs (user_obs g)))
       fuel tt (0%nat, (s, w)) x times dt).
Proof. exact (@times_ctrl_checked). Qed.
Print Assumptions C17_times_controlled.

(** ... integrate_const and integrate_n_steps when the step does not change the stepper object ... *)
Theorem C17_const_n_steps_controlled_partial :
  forall (N : Num) (S W X : Type) (m : nat) (g : W -> X -> N -> res W)
         (f : S -> X -> N -> N -> S * X * N * N * bool),
  (forall s x t dt, fst (fst (fst (fst (f s x t dt)))) = s) ->
  forall fuel (s : S) (w : W) (x : X) (t0 tend dt : N) (n : nat),
  checked_run m false (fun c '(w, x, b) => ((c, (s, w)), x, b))
    (integrate_const_ctrl (ctrl_step f) (user_obs g) fuel s w x t0 tend dt)
    (integrate_const_ctrl (checked_try m (ref_try (ctrl_step f))) (checked_obs (ref_obs (user_obs g)))
       fuel tt (0%nat, (s, w)) x t0 tend dt) /\
  checked_run m false (fun c '(w, x, b) => ((c, (s, w)), x, b))
    (integrate_n_steps_ctrl (ctrl_step f) (user_obs g) fuel s w x t0 dt n)
    (integrate_n_steps_ctrl (checked_try m (ref_try (ctrl_step f))) (checked_obs (ref_obs (user_obs g)))
       fuel tt (0%nat, (s, w)) x t0 dt n).
Proof.
  exact (fun N S W X m g f Hf fuel s w x t0 tend dt n =>
    conj (const_ctrl_checked_stateless m g f Hf fuel s w x t0 tend dt)
         (n_steps_ctrl_checked_stateless m g f Hf fuel s w x t0 dt n)).
Qed.
Print Assumptions C17_const_n_steps_controlled_partial.

(** ... and in general relative to the unchecked call with the stepper passed by boost::ref. *)
Theorem C17_const_n_steps_controlled_by_ref :
  forall (N : Num) (S W X : Type) (m : nat) (g : W -> X -> N -> res W)
         (f : S -> X -> N -> N -> S * X * N * N * bool)
         fuel (s : S) (w : W) (x : X) (t0 tend dt : N) (n : nat),
  checked_run m false (fun c '(w, x, b) => ((c, w), x, b))
    (integrate_const_ctrl (ref_try (ctrl_step f)) (ref_obs (user_obs g)) fuel tt (s, w) x t0 tend dt)
    (integrate_const_ctrl (checked_try m (ref_try (ctrl_step f))) (checked_obs (ref_obs (user_obs g)))
       fuel tt (0%nat, (s, w)) x t0 tend dt) /\
  checked_run m false (fun c '(w, x, b) => ((c, w), x, b))
    (integrate_n_steps_ctrl (ref_try (ctrl_step f)) (ref_obs (user_obs g)) fuel tt (s, w) x t0 dt n)
    (integrate_n_steps_ctrl (checked_try m (ref_try (ctrl_step f))) (checked_obs (ref_obs (user_obs g)))
       fuel tt (0%nat, (s, w)) x t0 dt n).
Proof.
  exact (fun N S W X m g f fuel s w x t0 tend dt n =>
    conj (const_ctrl_checked m g f fuel s w x t0 tend dt) (n_steps_ctrl_checked m g f fuel s w x t0 dt n)).
Qed.
Print Assumptions C17_const_n_steps_controlled_by_ref.

(** Dense output steppers: the exception comes before the offending step. *)
Theorem C17_dense :
  forall (N : Num) (S W X : Type) (m : nat) (g : W -> X -> N -> res W)
         (init : S -> X -> N -> N -> S) (step : S -> S) (calc : S -> N -> X)
         (ct : S -> N) (cx : S -> X) (cdt : S -> N)
         fuel (s : S) (w : W) (x : X) (t0 tend dt : N) (n : nat) (times : list N),
  let D := dense_of init step calc ct cx cdt in
  let CD := checked_dense m D in
  let cobs := checked_obs (user_obs g) in
  checked_run m true (fun c '(s, w, x, b) => (s, (c, w), x, b))
    (integrate_const_dense D (user_obs g) fuel s w x t0 tend dt)
    (integrate_const_dense CD cobs fuel s (0%nat, w) x t0 tend dt) /\
  checked_run m true (fun c '(s, w, x, b) => (s, (c, w), x, b))
    (integrate_n_steps_dense D (user_obs g) fuel s w x t0 dt n)
    (integrate_n_steps_dense CD cobs fuel s (0%nat, w) x t0 dt n) /\
  checked_run m true (fun c '(s, w, x, b) => (s, (c, w), x, b))
    (integrate_times_dense D (user_obs g) fuel s w x times dt)
    (integrate_times_dense CD cobs fuel s (0%nat, w) x times dt).
Proof.
  exact (fun N S W X m g init step calc ct cx cdt fuel s w x t0 tend dt n times =>
    conj (const_dense_checked m g init step calc ct cx cdt fuel s w x t0 tend dt)
   (conj (n_steps_dense_checked m g init step calc ct cx cdt fuel s w x t0 dt n)
         (times_dense_checked m g init step calc ct cx cdt fuel s w x times dt))).
Qed.
Print Assumptions C17_dense.

(** C16: with an observer that does not throw no_progress_error itself, the exception is raised if
    and only if the unchecked run violates the limit (all combinations above). *)
Theorem C16_throws_iff :
  forall (N : Num) (S W X : Type) (m : nat) (g : W -> X -> N -> res W)
         (f : S -> X -> N -> N -> S * X) (fc : S -> X -> N -> N -> S * X * N * N * bool)
         (init : S -> X -> N -> N -> S) (step : S -> S) (calc : S -> N -> X)
         (ct : S -> N) (cx : S -> X) (cdt : S -> N)
         fuel (s : S) (w : W) (x : X) (t0 tend dt : N) (n : nat) (times : list N),
  let cobs := checked_obs (user_obs g) in
  let robs := checked_obs (ref_obs (user_obs g)) in
  let cdo := checked_do m (ref_do (plain_step f)) in
  let ctry := checked_try m (ref_try (ctrl_step fc)) in
  let D := dense_of init step calc ct cx cdt in
  let throws_iff := fun (A B : Type) (un : M (ev X (carrier N)) A) (ch : M (ev X (carrier N)) B) =>
     result_of un <> Exc NoProgress -> (result_of ch = Exc NoProgress <-> violates m (trace_of un)) in
  throws_iff _ _ (integrate_const (user_obs g) (plain_step f) fuel s w x t0 tend dt)
                 (integrate_const robs cdo fuel tt (0%nat, (s, w)) x t0 tend dt) /\
  throws_iff _ _ (integrate_n_steps (user_obs g) (plain_step f) s w x t0 dt n)
                 (integrate_n_steps robs cdo tt (0%nat, (s, w)) x t0 dt n) /\
  throws_iff _ _ (integrate_times_plain (user_obs g) (plain_step f) fuel s w x times dt)
                 (integrate_times_plain robs cdo fuel tt (0%nat, (s, w)) x times dt) /\
  throws_iff _ _ (integrate_const_ctrl (ref_try (ctrl_step fc)) (ref_obs (user_obs g)) fuel tt (s, w) x t0 tend dt)
                 (integrate_const_ctrl ctry robs fuel tt (0%nat, (s, w)) x t0 tend dt) /\
  throws_iff _ _ (integrate_n_steps_ctrl (ref_try (ctrl_step fc)) (ref_obs (user_obs g)) fuel tt (s, w) x t0 dt n)
                 (integrate_n_steps_ctrl ctry robs fuel tt (0%nat, (s, w)) x t0 dt n) /\
  throws_iff _ _ (integrate_times_ctrl (ctrl_step fc) (user_obs g) fuel s w x times dt)
                 (integrate_times_ctrl ctry robs fuel tt (0%nat, (s, w)) x times dt) /\
  throws_iff _ _ (integrate_const_dense D (user_obs g) fuel s w x t0 tend dt)
                 (integrate_const_dense (checked_dense m D) cobs fuel s (0%nat, w) x t0 tend dt) /\
  throws_iff _ _ (integrate_n_steps_dense D (user_obs g) fuel s w x t0 dt n)
                 (integrate_n_steps_dense (checked_dense m D) cobs fuel s (0%nat, w) x t0 dt n) /\
  throws_iff _ _ (integrate_times_dense D (user_obs g) fuel s w x times dt)
                 (integrate_times_dense (checked_dense m D) cobs fuel s (0%nat, w) x times dt).
Proof.
  exact (fun N S W X m g f fc init step calc ct cx cdt fuel s w x t0 tend dt n times =>
    conj (checked_throws_iff _ _ _ _ _ (const_checked m g f fuel s w x t0 tend dt))
   (conj (checked_throws_iff _ _ _ _ _ (n_steps_checked m g f s w x t0 dt n))
   (conj (checked_throws_iff _ _ _ _ _ (times_checked m g f fuel s w x times dt))
   (conj (checked_throws_iff _ _ _ _ _ (const_ctrl_checked m g fc fuel s w x t0 tend dt))
   (conj (checked_throws_iff _ _ _ _ _ (n_steps_ctrl_checked m g fc fuel s w x t0 dt n))
   (conj (checked_throws_iff _ _ _ _ _ (times_ctrl_checked m g fc fuel s w x times dt))
   (conj (checked_throws_iff _ _ _ _ _ (const_dense_checked m g init step calc ct cx cdt fuel s w x t0 tend dt))
   (conj (checked_throws_iff _ _ _ _ _ (n_steps_dense_checked m g init step calc ct cx cdt fuel s w x t0 dt n))
         (checked_throws_iff _ _ _ _ _ (times_dense_checked m g init step calc ct cx cdt fuel s w x times dt)))))))))).
Qed.
Print Assumptions C16_throws_iff.

(** Concrete runs: limit 3, integrate_times over [0; 1/2; 2] with dt = 1/4 makes 2 and then 6 steps:
    the exception comes after the fourth step of the second interval.  With limit 6 it passes. *)
Example C16_example :
  let run m := integrate_times_plain (N := Q0) (checked_obs (ref_obs (user_obs (fun (w : unit) _ _ => Ok w))))
               (checked_do m (ref_do (N := Q0) (plain_step (T := Q0) euler_exp))) 20 tt (0%nat, (0%nat, tt)) 1 [0; 1#2; 2] (1#4) in
  result_of (run 3%nat) = Exc NoProgress /\
  length (steps_of (trace_of (run 3%nat))) = 6%nat /\ length (obs_of (trace_of (run 3%nat))) = 2%nat /\
  (exists x, result_of (run 6%nat) = Ok (tt, (0%nat, (8%nat, tt)), x, 8%nat)).
Proof. repeat split; try (vm_compute; reflexivity). eexists. vm_compute. reflexivity. Qed.
Example C16_dense_example :
  let run m := integrate_times_dense (checked_dense m (lin_dense 1 1))
                (checked_obs (user_obs (fun (w : unit) _ _ => Ok w))) 30 (0, 0, 0) (0%nat, tt) 0 [0; 1; 2] (1#4) in
  result_of (run 3%nat) = Exc NoProgress /\
  length (dos_of (trace_of (run 3%nat))) = 3%nat /\
  (exists s x n, result_of (run 4%nat) = Ok (s, (0%nat, tt), x, n)).
Proof. repeat split; try (vm_compute; reflexivity). do 3 eexists. vm_compute. reflexivity. Qed.
(** A controlled stepper whose object never changes. *)
Example C17_stateless_example :
  let f := fun (s x : nat) (t dt : Q) => (s, S x, Qred (t + dt), dt, true) in
  (forall s x t dt, fst (fst (fst (fst (f s x t dt)))) = s) /\
  result_of (integrate_const_ctrl (N := Q0) (W := unit) (ctrl_step f) rec_obs 20 0%nat tt 0%nat 0 2 1) = Ok (tt, 2, 2)%nat.
Proof. split; reflexivity. Qed.

(** C17 fails for integrate_const with a controlled stepper that has internal state: without a
    checker every interval starts with a fresh copy of the caller's stepper, with a checker the
    stepper object is shared.  Here the stepper adds the number of steps it has made to the state. *)
Definition adds_count (s x : nat) (t dt : Q) : nat * nat * Q * Q * bool := (S s, s + x, Qred (t + dt), dt, true)%nat.
Theorem C17_const_controlled_refuted :
  exists (N : Num) (f : nat -> nat -> N -> N -> nat * nat * N * N * bool) (t0 tend dt : N) fuel m,
  let un := integrate_const_ctrl (W := unit) (ctrl_step f) rec_obs fuel 0%nat tt 0%nat t0 tend dt in
  let ch := integrate_const_ctrl (checked_try m (ref_try (ctrl_step f))) (checked_obs (ref_obs rec_obs))
              fuel tt (0%nat, (0%nat, tt)) 0%nat t0 tend dt in
  ~ violates m (trace_of un) /\
  (exists x n, result_of un = Ok (tt, x, n) /\ exists w x' n', result_of ch = Ok (w, x', n') /\ x <> x').
Proof.
  exists Q0, adds_count, (0:Q), (3:Q), (1:Q), 20%nat, 5%nat. cbv zeta. split.
  - apply scan_no_violation. vm_compute. discriminate.
  - do 2 eexists. split; [vm_compute; reflexivity|]. do 3 eexists. split; [vm_compute; reflexivity|discriminate].
Qed.
Print Assumptions C17_const_controlled_refuted.

(** C17 fails for integrate_const with a plain stepper and no observer: with a checker argument the
    call is redirected to integrate_adaptive, which also covers the rest of the interval; without it
    the run stops at the last grid point. *)
Theorem C17_const_null_observer_refuted :
  exists (N : Num) (f : nat -> Q -> N -> N -> nat * Q) (t0 tend dt : N) fuel m,
  let un := integrate_const (W := unit) null_obs (plain_step f) fuel 0%nat tt 1%Q t0 tend dt in
  let ch := integrate_const_checked m true (plain_step f) null_obs fuel 0%nat tt 1%Q t0 tend dt in
  ~ violates m (trace_of un) /\
  (exists s w x n, result_of un = Ok (s, w, x, n) /\
   exists x' n', result_of ch = Ok (x', n') /\ ~ Qeq x x' /\ n <> n').
Proof.
  exists Q0, euler_exp, (0:Q), (5#2), (1:Q), 20%nat, 5%nat. cbv zeta. split.
  - apply scan_no_violation. vm_compute. discriminate.
  - do 4 eexists. split; [vm_compute; reflexivity|]. do 2 eexists. split; [vm_compute; reflexivity|]. split; [|discriminate].
    vm_compute. discriminate.
Qed.
Print Assumptions C17_const_null_observer_refuted.

(** adams_bashforth, adams_moulton, adams_bashforth_moulton and their rotating buffer.

    Simplified: the contents of the buffers do not change when they are resized. *)
From Coq Require Import ZArith List Bool Arith.
From Verif Require Import M_Num M_Run M_RK M_Midpoint.
Import ListNotations.
Local Open Scope num_scope.
Local Open Scope res_scope.

(** ** detail/rotating_buffer.hpp:28-76. *)
Section Rot.
Context {A : Type}.
Variable dim : nat.
Record rb := mkRb { rb_data : list A; rb_first : nat }.
(** get_index, 68-71. *)
Definition rb_index (b : rb) (i : nat) : nat := ((i + rb_first b) mod dim)%nat.
(** operator[], 44-52, as rvalue and as assignment target. *)
Definition rb_get (b : rb) (i : nat) : res A := vget (rb_data b) (rb_index b i).
Definition rb_set (b : rb) (i : nat) (a : A) : res rb :=
  let! d := vset (rb_data b) (rb_index b i) a in Ok (mkRb d (rb_first b)).
(** rotate(), 54-60. *)
Definition rb_rotate (b : rb) : rb :=
  mkRb (rb_data b) (match rb_first b with O => (dim - 1)%nat | S f => f end).
End Rot.
Arguments rb A : clear implicits.
Arguments mkRb {A}.

Section Adams.
Context {N : Num} {I : Type}.

(** [-static_cast<Value>(p) / static_cast<Value>(q)]. *)
(* Source: The form of the entries of detail/adams_bashforth_coefficients.hpp:36-155. *)
Definition nfrac_neg (p q : Z) : N := nopp (nofZ p) / nofZ q.

(** detail/adams_bashforth_coefficients.hpp:36-155. *)
Definition ab_coef (k : nat) : list N :=
  match k with
  | 1 => [nofZ 1]
  | 2 => [nfrac 3 2; nfrac_neg 1 2]
  | 3 => [nfrac 23 12; nfrac_neg 4 3; nfrac 5 12]
  | 4 => [nfrac 55 24; nfrac_neg 59 24; nfrac 37 24; nfrac_neg 3 8]
  | 5 => [nfrac 1901 720; nfrac_neg 1387 360; nfrac 109 30; nfrac_neg 637 360; nfrac 251 720]
  | 6 => [nfrac 4277 1440; nfrac_neg 2641 480; nfrac 4991 720; nfrac_neg 3649 720; nfrac 959 480; nfrac_neg 95 288]
  | 7 => [nfrac 198721 60480; nfrac_neg 18637 2520; nfrac 235183 20160; nfrac_neg 10754 945; nfrac 135713 20160;
          nfrac_neg 5603 2520; nfrac 19087 60480]
  | 8 => [nfrac 16083 4480; nfrac_neg 1152169 120960; nfrac 242653 13440; nfrac_neg 296053 13440; nfrac 2102243 120960;
          nfrac_neg 115747 13440; nfrac 32863 13440; nfrac_neg 5257 17280]
  | _ => []
  end%nat%Z.
(** detail/adams_moulton_coefficients.hpp:36-155. *)
Definition am_coef (k : nat) : list N :=
  match k with
  | 1 => [nofZ 1]
  | 2 => [nfrac 1 2; nfrac 1 2]
  | 3 => [nfrac 5 12; nfrac 2 3; nfrac_neg 1 12]
  | 4 => [nfrac 3 8; nfrac 19 24; nfrac_neg 5 24; nfrac 1 24]
  | 5 => [nfrac 251 720; nfrac 323 360; nfrac_neg 11 30; nfrac 53 360; nfrac_neg 19 720]
  | 6 => [nfrac 95 288; nfrac 1427 1440; nfrac_neg 133 240; nfrac 241 720; nfrac_neg 173 1440; nfrac 3 160]
  | 7 => [nfrac 19087 60480; nfrac 2713 2520; nfrac_neg 15487 20160; nfrac 586 945; nfrac_neg 6737 20160;
          nfrac 263 2520; nfrac_neg 863 60480]
  | 8 => [nfrac 5257 17280; nfrac 139849 120960; nfrac_neg 4511 4480; nfrac 123133 120960; nfrac_neg 88547 120960;
          nfrac 1537 4480; nfrac_neg 11351 120960; nfrac 275 24192]
  | _ => []
  end%nat%Z.

(** [out = 1.0*in + (dt*coef[0])*d_0 + (dt*coef[1])*d_1 + ...], detail/adams_bashforth_call_algebra.hpp:32-139,
    detail/adams_moulton_call_algebra.hpp:31-137.  Elementwise, so [in] and [out] may be the same object. *)
Definition adams_sum (dt : N) (coef : list N) (x : vec N I) (ds : list (vec N I)) : vec N I :=
  fun j => scale_sum ((nofZ 1, x j) :: combine (map (fun c => dt * c) coef) (map (fun d => d j) ds)).

(* Source: The arguments steps[0] .. steps[n-1] in detail/adams_bashforth_call_algebra.hpp:32-139. *)
Fixpoint rb_gets (dim : nat) (b : rb (vec N I)) (i n : nat) : res (list (vec N I)) :=
  match n with
  | O => Ok []
  | S n' => let! d := rb_get dim b i in let! r := rb_gets dim b (S i) n' in Ok (d :: r)
  end.

(** ** adams_bashforth< Steps >.  Members m_step_storage, m_steps_initialized,
    m_initializing_stepper; adams_bashforth.hpp:118,270-277. *)
Variable steps : nat.
Context {IS : Type}.
(* Source: adams_bashforth.hpp:270-277. *)
Record ab := mkAb { ab_buf : rb (vec N I); ab_init : nat; ab_is : IS }.

Section Sys.
Variable sys : vec N I -> N -> vec N I.
(** m_initializing_stepper.do_step_dxdt_impl( sys , in , dxdt , t , out , dt ); the flag tells that
    [in] and [out] are the same object. *)
Variable istep : IS -> bool -> vec N I -> vec N I -> N -> N -> res (IS * vec N I).

(** do_step_impl, adams_bashforth.hpp:233-256.  [rs]: the resizer has changed the buffers; [io]:
    [in] and [out] are the same object.  Result: object, [out], and the arguments of the system calls
    (without those of the initializing stepper). *)
Definition ab_do_step (rs io : bool) (s : ab) (x : vec N I) (t dt : N) : res (ab * vec N I * list (vec N I * N)) :=
  let n := if rs then 0%nat else ab_init s in
  if Nat.ltb (n + 1) steps then
    let b := if Nat.eqb n 0 then ab_buf s else rb_rotate steps (ab_buf s) in
    let! b1 := rb_set steps b 0 (sys x t) in
    let! (is', out) := istep (ab_is s) io x (sys x t) t dt in
    Ok (mkAb b1 (S n) is', out, [(x, t)])
  else
    let! b1 := rb_set steps (rb_rotate steps (ab_buf s)) 0 (sys x t) in
    let! ds := rb_gets steps b1 0 steps in
    Ok (mkAb b1 n (ab_is s), adams_sum dt (ab_coef steps) x ds, [(x, t)]).

(** The loop of initialize( stepper , sys , x , t , dt ), 199-207: rounds i, i+1, ..., [n] of them.
    [estep] is stepper.do_step_dxdt_impl( sys , x , dxdt , t , dt ), in place, of a stepper with state
    [ES]; collects the starting points. *)
Fixpoint ab_init_loop {ES} (estep : ES -> vec N I -> vec N I -> N -> N -> res (ES * vec N I))
    (n i : nat) (e : ES) (b : rb (vec N I)) (x : vec N I) (t dt : N) : res (ES * rb (vec N I) * vec N I * N) :=
  match n with
  | O => Ok (e, b, x, t)
  | S n' =>
      let b0 := if Nat.eqb i 0 then b else rb_rotate steps b in
      let! b1 := rb_set steps b0 0 (sys x t) in
      let! (e', x') := estep e x (sys x t) t dt in
      ab_init_loop estep n' (S i) e' b1 x' (t + dt) dt
  end.
(** initialize( stepper , sys , x , t , dt ), 192-209; the loop condition is [i+1 < steps]. *)
Definition ab_initialize {ES} estep (e : ES) (s : ab) (x : vec N I) (t dt : N) : res (ES * ab * vec N I * N) :=
  let! (e', b, x', t') := ab_init_loop estep (steps - 1) 0 e (ab_buf s) x t dt in
  Ok (e', mkAb b steps (ab_is s), x', t').
(** initialize( sys , x , t , dt ), 211-215: with a reference to m_initializing_stepper; [istep_io] is its
    in-place do_step_dxdt_impl. *)
Definition ab_initialize_own (istep_io : IS -> vec N I -> vec N I -> N -> N -> res (IS * vec N I))
    (s : ab) (x : vec N I) (t dt : N) : res (ab * vec N I * N) :=
  let! (is', s', x', t') := ab_initialize istep_io (ab_is s) s x t dt in
  Ok (mkAb (ab_buf s') (ab_init s') is', x', t').
End Sys.
(** reset(), 217-220. *)
Definition ab_reset (s : ab) : ab := mkAb (ab_buf s) 0 (ab_is s).
(** is_initialized(), 222-225; steps - 1 >= 0 because Steps > 0 (84). *)
Definition ab_is_initialized (s : ab) : bool := Nat.leb (steps - 1) (ab_init s).

(** ** adams_moulton< Steps >::do_step_impl, adams_moulton.hpp:165-172: m_dxdt, [out], system calls. *)
Definition am_do_step (sys : vec N I -> N -> vec N I) (x pred : vec N I) (t dt : N) (buf : rb (vec N I))
  : res (vec N I * vec N I * list (vec N I * N)) :=
  let! ds := rb_gets steps buf 0 (steps - 1) in
  Ok (sys pred t, adams_sum dt (am_coef steps) x (sys pred t :: ds), [(pred, t)]).

(** ** adams_bashforth_moulton< Steps >, adams_bashforth_moulton.hpp:200-203. *)
Record abm := mkAbm { abm_ab : ab; abm_dxdt : vec N I; abm_x : vec N I }.
(** do_step_impl1 ([io = true]), 161-175, and do_step_impl2, 177-190.  [rs] is the answer of the
    resizer of m_adams_bashforth. *)
Definition abm_do_step sys istep (rs io : bool) (s : abm) (x : vec N I) (t dt : N)
  : res (abm * vec N I * list (vec N I * N)) :=
  if ab_is_initialized (abm_ab s) then
    let! (a, p, l1) := ab_do_step sys istep rs false (abm_ab s) x t dt in
    let! (d, out, l2) := am_do_step sys x p (t + dt) dt (ab_buf a) in
    Ok (mkAbm a d p, out, l1 ++ l2)
  else
    let! (a, out, l1) := ab_do_step sys istep rs io (abm_ab s) x t dt in
    Ok (mkAbm a (abm_dxdt s) (abm_x s), out, l1).
End Adams.
Arguments ab N I IS : clear implicits.
Arguments mkAb {N I IS}.
Arguments abm N I IS : clear implicits.
Arguments mkAbm {N I IS}.

(** order(): adams_bashforth.hpp:116, adams_moulton.hpp:86, adams_bashforth_moulton.hpp:84. *)
Definition ab_order (steps : nat) : nat := steps.
(* Source: adams_moulton.hpp:86. *)
Definition am_order (steps : nat) : nat := (steps + 1)%nat.
(* Source: adams_bashforth_moulton.hpp:84. *)
Definition abm_order (steps : nat) : nat := steps.

(** ** Initializing steppers. *)
Section Init.
Context {N : Num} {I : Type}.
Variable sys : vec N I -> N -> vec N I.
(** An explicit Runge-Kutta stepper (default of adams_bashforth_moulton: runge_kutta4,
    adams_bashforth_moulton.hpp:52): base/explicit_stepper_base.hpp:190-196,
    base/explicit_error_stepper_base.hpp:208-214 and the in-place version 148-153, 161-167. *)
Definition rk_istep (n : rk_name) (m : rkmem N I) (io : bool) (x dxdt : vec N I) (t dt : N) : res (rkmem N I * vec N I) :=
  let al := mkAlias io false in
  let m' := fst (exec sys al (rk_impl n t dt) (upd (upd m LIn x) LDx dxdt)) in
  Ok (m', m' (resolve al LOut)).
(** extrapolation_stepper< order_helper<Steps>::value > (default of adams_bashforth,
    adams_bashforth.hpp:59-82), extrapolation_stepper.hpp:209-215. *)
Definition order_helper (n : nat) : nat := Nat.max (if Nat.even n then n else S n) 4.
(* Source: adams_bashforth.hpp:59-82, extrapolation_stepper.hpp:209-215. *)
Definition es_istep (steps : nat) (s : es N I) (io : bool) (x dxdt : vec N I) (t dt : N) : res (es N I * vec N I) :=
  es_impl sys (order_helper steps) io s x dxdt t dt.
End Init.

(** do_step( system , x , t , dt ), in place, of a stepper whose step can fail, as used by the
    integrate functions: adams_bashforth.hpp:147-157, adams_bashforth_moulton.hpp:100-117. *)
Definition res_step {S W X T L} (f : S -> X -> T -> T -> res (S * X * L)) (s : S) (w : W) (x : X) (t dt : T)
  : M (ev X T) (S * W * X) :=
  ([EStep x t dt], match f s x t dt with Ok (s', x', _) => Ok (s', w, x') | Exc e => Exc e | UB => UB | Fuel => Fuel end).

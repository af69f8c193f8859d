(** adaptive_adams_bashforth_moulton, its table of coefficients, and
    controlled_adams_bashforth_moulton.

    States are functions [I -> N] as in M_RK.  Uninitialised members have arbitrary contents: the objects
    are built from any lists of the right length.

    Simplified: the resizing of the temporaries; the members m_dxdt, m_xnew and m_xerr of the error stepper
    carry nothing from one call to the next and are local here; [size_t] is [nat]. *)
From Coq Require Import ZArith List Bool Arith.
From Verif Require Import M_Num M_Run M_RK M_CtrlRK M_Midpoint M_Adams.
Import ListNotations.
Local Open Scope num_scope.
Local Open Scope res_scope.

(** [for( i = lo ; i < hi ; ++i ) s = f( i , s )]. *)
(* Source: The for loops of detail/adaptive_adams_coefficients.hpp:72-76,117-131,145-150. *)
Fixpoint for_n {S} (f : nat -> S -> res S) (n i : nat) (s : S) : res S :=
  match n with O => Ok s | Datatypes.S n' => let! s' := f i s in for_n f n' (Datatypes.S i) s' end.
(* Source: The for loops of detail/adaptive_adams_coefficients.hpp:72-76,117-131,145-150. *)
Definition for_lt {S} (lo hi : nat) (f : nat -> S -> res S) (s : S) : res S := for_n f (hi - lo) lo s.

(** [b[o][i]] and [b[o][i] = a] for a rotating_buffer of arrays. *)
(* Source: operator[] of detail/adaptive_adams_coefficients.hpp:117-150 on detail/rotating_buffer.hpp:38-52, with checked index. *)
Definition get2 {A} (dim : nat) (b : rb (list A)) (o i : nat) : res A :=
  let! r := rb_get dim b o in vget r i.
(* Source: operator[] of detail/adaptive_adams_coefficients.hpp:117-150 on detail/rotating_buffer.hpp:38-52, with checked index. *)
Definition set2 {A} (dim : nat) (b : rb (list A)) (o i : nat) (a : A) : res (rb (list A)) :=
  let! r := rb_get dim b o in let! r' := vset r i a in rb_set dim b o r'.

Section Coeff.
Context {N : Num} {I : Type}.
(** The template parameter Steps = order_value. *)
Variable ov : nat.

(** Members m_eo, m_steps_init, beta, phi, g, m_ns, m_time_storage and c of adaptive_adams_coefficients,
    detail/adaptive_adams_coefficients.hpp:168-199. *)
Record aac := mkAac {
  a_eo : nat; a_si : nat; a_beta : rb (list N); a_phi : rb (list (vec N I)); a_g : list N;
  a_ns : nat; a_time : rb N; a_c : list N }.
(* Source: Assignment to the member m_eo or phi, detail/adaptive_adams_coefficients.hpp:168-199. *)
Definition set_eo (s : aac) (eo : nat) : aac :=
  mkAac eo (a_si s) (a_beta s) (a_phi s) (a_g s) (a_ns s) (a_time s) (a_c s).
(* Source: Assignment to the member m_eo or phi, detail/adaptive_adams_coefficients.hpp:168-199. *)
Definition set_phi (s : aac) (phi : rb (list (vec N I))) : aac :=
  mkAac (a_eo s) (a_si s) (a_beta s) phi (a_g s) (a_ns s) (a_time s) (a_c s).

(** static const size_t c_size, 194. *)
(* Source: detail/adaptive_adams_coefficients.hpp:194. *)
Definition c_size : nat := (ov + 2)%nat.

(** The array gs, 84-97; never changed afterwards. *)
Definition gs : list N :=
  [nofZ 1; nfrac_neg 1 2; nfrac_neg 1 12; nfrac_neg 1 24; nfrac_neg 19 720; nfrac_neg 3 160; nfrac_neg 863 60480;
   nfrac_neg 275 24192; nfrac_neg 33953 3628800; nfrac 35 4436; nfrac 40 5891; nfrac 37 6250; nfrac 25 4771;
   nfrac 40 8547]%Z.

(** The constructor, 67-98, on members whose memory holds [beta], [phi], [g], [time] and [c]; a
    rotating_buffer starts with m_first = 0, detail/rotating_buffer.hpp:35. *)
Definition aac_ctor (beta : list (list N)) (phi : list (list (vec N I))) (g : list N) (time : list N) (c : list N) : res aac :=
  let! c1 := for_lt 0 (ov + 2) (fun i c =>
      let! c' := vset c i (nofZ 1 / nofnat (i + 1)) in
      vset c' (c_size + i) (nofZ 1 / nofnat ((i + 1) * (i + 2)))) c in
  let! c0 := vget c1 0 in
  let! g1 := vset g 0 c0 in
  let! cs := vget c1 c_size in
  let! g2 := vset g1 1 cs in
  let! b1 := set2 2 (mkRb beta 0) 0 0 (nofZ 1) in
  let! b2 := set2 2 b1 1 0 (nofZ 1) in
  Ok (mkAac 1 1 b2 (mkRb phi 0) g2 0 (mkRb time 0) c1).

(** The assignment in the first loop of predict, 117-118. *)
Definition beta_upd (tm : rb N) (dt : N) (i : nat) (b : rb (list N)) : res (rb (list N)) :=
  let! t0 := rb_get (ov + 1) tm 0 in
  let! ti := rb_get (ov + 1) tm i in
  let! bp := get2 2 b 0 (i - 1) in
  let! tp := rb_get (ov + 1) tm (i - 1) in
  set2 2 b 0 i (bp * (t0 + dt - tp) / (t0 - ti)).
(** The body of the second loop, 123-129. *)
Definition cg_upd (eo : nat) (tm : rb N) (dt : N) (i : nat) (s : list N * list N) : res (list N * list N) :=
  let (c, g) := s in
  let! t0 := rb_get (ov + 1) tm 0 in
  let! tp := rb_get (ov + 1) tm (i - 1) in
  let diff := t0 + dt - tp in
  let! c' := for_lt 0 (eo + 1 - i + 1) (fun j c =>
      let! u := vget c (c_size * (i - 1) + j) in
      let! v := vget c (c_size * (i - 1) + j + 1) in
      vset c (c_size * i + j) (u - v * dt / diff)) c in
  let! gi := vget c' (c_size * i) in
  let! g' := vset g i gi in
  Ok (c', g').

(** predict, 100-131. *)
Definition aac_predict (s : aac) (t dt : N) : res aac :=
  let! tm := rb_set (ov + 1) (a_time s) 0 t in
  let! t0 := rb_get (ov + 1) tm 0 in
  let! t1 := rb_get (ov + 1) tm 1 in
  let ns := if (nofZ 1 / nofZ 10000000000000000 <? nabs (t0 - t1 - dt)) || (a_ns s <=? a_eo s)%nat then 0%nat
            else if (a_ns s <? ov + 2)%nat then S (a_ns s) else a_ns s in
  let! b := for_lt (1 + ns) (Nat.min (a_eo s + 1) (a_si s)) (beta_upd tm dt) (a_beta s) in
  let! (c, g) := for_lt (2 + ns) (Nat.min (a_eo s + 2) (a_si s + 1)) (cg_upd (a_eo s) tm dt) (a_c s, a_g s) in
  Ok (mkAac (a_eo s) (a_si s) b (a_phi s) g ns tm c).

(** The body of the loop of do_step, 141-150: scale_sum2( 1.0 , -beta[o][i-1] ) or scale_sum1( 1.0 ). *)
Definition phi_upd (beta : rb (list N)) (o : nat) (i : nat) (phi : rb (list (vec N I))) : res (rb (list (vec N I))) :=
  let! p := get2 3 phi o (i - 1) in
  if (o =? 0)%nat then
    let! q := get2 3 phi (o + 1) (i - 1) in
    let! b := get2 2 beta o (i - 1) in
    set2 3 phi o i (fun j => scale_sum [(nofZ 1, p j); (nopp b, q j)])
  else set2 3 phi o i (fun j => scale_sum [(nofZ 1, p j)]).
(** do_step( dxdt , o ), 133-152. *)
Definition aac_do_step (s : aac) (dxdt : vec N I) (o : nat) : res aac :=
  let! phi := set2 3 (a_phi s) o 0 dxdt in
  let! phi' := for_lt 1 (Nat.min (a_eo s + 3) (Nat.min (a_si s + 2) (ov + 2))) (phi_upd (a_beta s) o) phi in
  Ok (set_phi s phi').

(** confirm, 154-164. *)
Definition aac_confirm (s : aac) : aac :=
  mkAac (a_eo s) (if (a_si s <? ov + 1)%nat then S (a_si s) else a_si s) (rb_rotate 2 (a_beta s)) (rb_rotate 3 (a_phi s))
        (a_g s) (a_ns s) (rb_rotate (ov + 1) (a_time s)) (a_c s).

(** reset, 166. *)
(* Source: detail/adaptive_adams_coefficients.hpp:166. *)
Definition aac_reset (s : aac) : aac :=
  mkAac 1 1 (a_beta s) (a_phi s) (a_g s) (a_ns s) (a_time s) (a_c s).

(** ** adaptive_adams_bashforth_moulton.hpp; the object is its m_coeff. *)
Section Sys.
Variable sys : vec N I -> N -> vec N I.

(** do_step_impl, 166-197.  Result: object, [out], m_dxdt, [xerr], the arguments of the system calls. *)
Definition aabm_impl (s : aac) (x : vec N I) (t dt : N) : res (aac * vec N I * vec N I * vec N I * list (vec N I * N)) :=
  let eO := a_eo s in
  let! s1 := aac_predict s t dt in
  let! (s2, log) := if (a_si s1 =? 1)%nat
                    then let! s2 := aac_do_step s1 (sys x t) 1 in Ok (s2, [(x, t)])
                    else Ok (s1, []) in
  let! pred := for_lt (S := vec N I) 0 eO (fun i out =>
      let! p := get2 3 (a_phi s2) 1 i in
      let! gi := vget (a_g s2) i in
      let! b := get2 2 (a_beta s2) 0 i in
      Ok (fun j => scale_sum [(nofZ 1, out j); (dt * gi * b, p j)])) x in
  let dxdt := sys pred (t + dt) in
  let! s3 := aac_do_step s2 dxdt 0 in
  let! p := get2 3 (a_phi s3) 0 eO in
  let! ge := vget (a_g s3) eO in
  Ok (s3, (fun j => scale_sum [(nofZ 1, pred j); (dt * ge, p j)]), dxdt, (fun j => scale_sum [(dt * ge, p j)]),
      log ++ [(pred, t + dt)]).

(** do_step( system , in , t , out , dt , xerr ), 110-123; the other overloads, 86-108, call it with m_xnew
    and m_xerr.  Result: object, [out], [xerr], the arguments of the system calls. *)
Definition aabm_do_step (s : aac) (x : vec N I) (t dt : N) : res (aac * vec N I * vec N I * list (vec N I * N)) :=
  let! (s1, out, _, xerr, log) := aabm_impl s x t dt in
  let! s2 := aac_do_step s1 (sys out (t + dt)) 0 in
  let s3 := aac_confirm s2 in
  Ok (set_eo s3 (if (a_eo s3 <? ov)%nat then S (a_eo s3) else a_eo s3), out, xerr, log ++ [(out, t + dt)]).

(** The loop of initialize( stepper , system , inOut , t , dt ), 134-150; [estep] is
    stepper.do_step_dxdt_impl( system , inOut , dxdt , t , dt ) in place. *)
Fixpoint aabm_init_loop {ES} (estep : ES -> vec N I -> vec N I -> N -> N -> res (ES * vec N I))
    (n : nat) (e : ES) (s : aac) (x dxdt : vec N I) (t dt : N) : res (ES * aac * vec N I * N) :=
  match n with
  | O => Ok (e, s, x, t)
  | S n' =>
      let! (e1, x1) := estep e x dxdt t dt in
      let dxdt1 := sys x1 (t + dt) in
      let! s1 := aac_predict s t dt in
      let! s2 := aac_do_step s1 dxdt1 0 in
      let s3 := aac_confirm s2 in
      aabm_init_loop estep n' e1 (set_eo s3 (if (a_eo s3 <? ov)%nat then S (a_eo s3) else a_eo s3)) x1 dxdt1 (t + dt) dt
  end.
(** initialize( stepper , system , inOut , t , dt ), 125-151. *)
Definition aabm_initialize {ES} estep (e : ES) (s : aac) (x : vec N I) (t dt : N) : res (ES * aac * vec N I * N) :=
  aabm_init_loop estep ov e (aac_reset s) x (sys x t) t (dt / nofnat ov).
(** initialize( system , inOut , t , dt ), 153-164. *)
Fixpoint aabm_steps (n : nat) (s : aac) (x : vec N I) (t dt : N) : res (aac * vec N I * N) :=
  match n with
  | O => Ok (s, x, t)
  | S n' => let! (s1, x1, _, _) := aabm_do_step s x t dt in aabm_steps n' s1 x1 (t + dt) dt
  end.
(* Source: adaptive_adams_bashforth_moulton.hpp:153-164. *)
Definition aabm_initialize_own (s : aac) (x : vec N I) (t dt : N) : res (aac * vec N I * N) :=
  aabm_steps ov (aac_reset s) x t (dt / nofnat ov).
End Sys.

(** ** controlled_adams_bashforth_moulton.hpp *)
Section Ctrl.
(** m_algebra.norm_inf. *)
Variable norm : vec N I -> N.

(** default_order_adjuster::adjust_order with MaxOrder = [ov], 56-108. *)
Definition adjust_order (order init : nat) (xerr : list (vec N I)) : res nat :=
  let! e2 := vget xerr 2 in
  let errc := nabs (norm e2) in
  let! errm2 := if (2 <? order)%nat then let! e := vget xerr 0 in Ok (nabs (norm e)) else Ok (nofZ 3 * errc) in
  let! errm1 := if (2 <=? order)%nat then let! e := vget xerr 1 in Ok (nabs (norm e)) else Ok (nofZ 3 * errc) in
  let o_new :=
    if (order =? 2)%nat && (errm1 <=? nofZ 1 / nofZ 2 * errc) then (order - 1)%nat
    else if (2 <? order)%nat && (errm2 <? errc) && (errm1 <? errc) then (order - 1)%nat
    else order in
  if (init <? order)%nat then Ok (order + 1)%nat
  else if (o_new =? order - 1)%nat then Ok (order - 1)%nat
  else if (order <=? ov)%nat then
    let! e3 := vget xerr 3 in
    let errp := nabs (norm e3) in
    if (1 <? order)%nat && (errm1 <? errc) && nneq errp (nofZ 0) then Ok (order - 1)%nat
    else if (order <? ov)%nat
            && (errp <? (nofZ 1 / nofZ 2 - nofZ 1 / nofZ 4 * nofnat order / nofnat ov) * errc) then Ok (order + 1)%nat
    else Ok order
  else Ok order.

(** m_step_adjuster of type StepAdjuster: adjust_stepsize( steps , dt , err , x , dxdt ) changes the object
    and [err] and returns the new step; threshold(). *)
Context {PA : Type}.
Variable adjust_stepsize : PA -> nat -> N -> vec N I -> vec N I -> vec N I -> PA * vec N I * N.
Variable threshold : N.

(** Members m_stepper, m_xerr (boost::array of 4) and m_step_adjuster, 304-314. *)
Record cabm := mkCabm { cm_coeff : aac; cm_xerr : list (vec N I); cm_adj : PA }.
(* Source: reset(), controlled_adams_bashforth_moulton.hpp:279. *)
Definition cm_reset (s : cabm) : cabm := mkCabm (aac_reset (cm_coeff s)) (cm_xerr s) (cm_adj s).

Section Sys.
Variable sys : vec N I -> N -> vec N I.

(** [m_xerr[k] = factor*dt*gs[j] * phi[1][j]], 247-266; factor = 1. *)
Definition est (s : aac) (dt : N) (j k : nat) (xerr : list (vec N I)) : res (list (vec N I)) :=
  let! p := get2 3 (a_phi s) 1 j in
  let! g := vget gs j in
  vset xerr k (fun i => scale_sum [(nofZ 1 * dt * g, p i)]).

(** try_step( system , in , t , out , dt ), 221-277.  Result: object, success, [out], [t], [dt]; on failure
    [out] has been written as well, but the in-place version, 206-219, does not copy it. *)
Definition cabm_try (s : cabm) (x : vec N I) (t dt : N) : res (cabm * bool * vec N I * N * N) :=
  let! (c1, out, dxdt, e2, _) := aabm_impl sys (cm_coeff s) x t dt in
  let '(pa, e2', dt') := adjust_stepsize (cm_adj s) (a_eo c1) dt e2 out dxdt in
  let! xe0 := vset (cm_xerr s) 2 e2' in
  if threshold <=? dt' / dt then
    let! c2 := aac_do_step c1 (sys out (t + dt)) 0 in
    let c3 := aac_confirm c2 in
    let eo := a_eo c3 in
    let! xe1 := est c3 dt' eo 2 xe0 in
    let! xe2 := if (1 <? eo)%nat then est c3 dt' (eo - 1) 1 xe1 else Ok xe1 in
    let! xe3 := if (2 <? eo)%nat then est c3 dt' (eo - 2) 0 xe2 else Ok xe2 in
    let! xe4 := if (eo <? ov)%nat && (a_eo c3 <? a_si c3 - 1)%nat then est c3 dt' (eo + 1) 3 xe3 else Ok xe3 in
    let! eo' := adjust_order (a_eo c3) (a_si c3 - 1) xe4 in
    Ok (mkCabm (set_eo c3 eo') xe4 pa, true, out, t + dt, dt')
  else Ok (mkCabm c1 xe0 pa, false, out, t, dt').

(** [do res = stepper.try_step( ... ); while( res != success )], 187-191; [ctry] is the in-place try_step of
    the given stepper, [fuel] bounds the number of attempts. *)
Fixpoint ctry_loop {ES} (ctry : ES -> vec N I -> N -> N -> res (ES * bool * vec N I * N * N))
    (fuel : nat) (e : ES) (x : vec N I) (t dt : N) : res (ES * vec N I * N * N) :=
  match fuel with
  | O => Fuel
  | S f => let! (e1, ok, x1, t1, dt1) := ctry e x t dt in
           if ok : bool then Ok (e1, x1, t1, dt1) else ctry_loop ctry f e1 x1 t1 dt1
  end.
Fixpoint cabm_init_loop {ES} ctry (fuel n : nat) (e : ES) (c : aac) (x : vec N I) (t dt : N)
    : res (ES * aac * vec N I * N * N) :=
  match n with
  | O => Ok (e, c, x, t, dt)
  | S n' =>
      let! (e1, x1, t1, dt1) := ctry_loop ctry fuel e x t dt in
      let! c1 := aac_predict c (t1 - dt1) dt1 in
      let! c2 := aac_do_step c1 (sys x1 t1) 0 in
      let c3 := aac_confirm c2 in
      cabm_init_loop ctry fuel n' e1 (set_eo c3 (if (a_eo c3 <? ov)%nat then S (a_eo c3) else a_eo c3)) x1 t1 dt1
  end.
(** initialize_controlled, 175-204. *)
Definition cabm_initialize_controlled {ES} ctry (fuel : nat) (e : ES) (s : cabm) (x : vec N I) (t dt : N)
    : res (ES * cabm * vec N I * N * N) :=
  let! (e1, c, x1, t1, dt1) := cabm_init_loop ctry fuel ov e (aac_reset (cm_coeff s)) x t dt in
  Ok (e1, mkCabm c (cm_xerr s) (cm_adj s), x1, t1, dt1).
End Sys.
End Ctrl.
End Coeff.
Arguments aac N I : clear implicits.
Arguments mkAac {N I}.
Arguments cabm N I PA : clear implicits.
Arguments mkCabm {N I PA}.

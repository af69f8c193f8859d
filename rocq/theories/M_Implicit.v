(** implicit_euler, rosenbrock4 and rosenbrock4_dense_output.

    States are ublas vectors: functions of the index with the size [n] beside them.  The user's
    system is a pair of functions: the right-hand side and its Jacobian (for rosenbrock4 also the
    time derivative).  Simplified: resizing; system functions that throw or have a state. *)
From Coq Require Import ZArith List Bool.
From Verif Require Import M_Num M_Sign M_Run M_Checker M_RK M_CtrlRK M_LU.
Import ListNotations.
Local Open Scope num_scope.

(** ** implicit_euler, stepper/implicit_euler.hpp:72-120 and 144-149. *)
Section ImplicitEuler.
Context {N : Num}.
Variable n : nat.                              (* x.size() *)
Variable sq : N -> N.                          (* std::sqrt *)
Variable f : vec N nat -> N -> vec N nat.      (* deriv_func( x , dxdt , t ) *)
Variable jac : vec N nat -> N -> mat N.        (* jacobi_func( x , J , t ) *)
Variable epsilon : N.                          (* m_epsilon *)

(** Outcome of do_step: return with the new state, the call exit(0) of line 147, or the bound of
    the model on the number of Newton iterations exhausted. *)
Inductive ie_out := IDone (x : vec N nat) | IExit | IFuel.

(** solve( x , m ), 144-149: factorises m in place with the member m_pm, substitutes.  [None] is
    exit(0). *)
Definition ie_solve (b : vec N nat) (m : mat N) (pm : nat -> nat)
  : option (vec N nat * mat N * (nat -> nat)) :=
  let s := lu_factorize n m pm in
  if Nat.eqb (lu_res s) 0 then Some (lu_substitute n (lu_m s) (lu_pm s) b, lu_m s, lu_pm s) else None.

(** ublas norm_2. *)
(* Source: boost/numeric/ublas norm_2 as called in stepper/implicit_euler.hpp:105; external. *)
Definition norm_2 (b : vec N nat) : N :=
  sq (fold_left (fun s i => let u := nabs (b i) in s + u * u) (seq 0 n) (nofZ 0)).

(** The while loop, 101-116.  The list holds, for every solve call, the right-hand side and the
    solution. *)
Fixpoint ie_loop (fuel : nat) (x : vec N nat) (t dt : N) (mx b : vec N nat) (m : mat N)
  (pm : nat -> nat) : list (vec N nat * vec N nat) * ie_out :=
  if epsilon <? norm_2 b then
    match fuel with
    | O => ([], IFuel)
    | S fuel' =>
        let dxdt := f mx t in
        let b1 := fun i => x i - mx i + dt * dxdt i in
        match ie_solve b1 m pm with
        | None => ([], IExit)
        | Some (b2, m2, pm2) =>
            let (tr, o) := ie_loop fuel' x t dt (fun i => mx i - b2 i) b2 m2 pm2 in
            ((b1, b2) :: tr, o)
        end
    end
  else ([], IDone mx).

(** m_jacobi *= dt; m_jacobi -= identity_matrix, 94-95. *)
Definition ie_matrix (x : vec N nat) (t dt : N) : mat N :=
  fun r c => jac x t r c * dt - (if Nat.eqb r c then nofZ 1 else nofZ 0).

(** do_step( system , x , t , dt ), 72-120. *)
Definition ie_do_step (fuel : nat) (x : vec N nat) (t dt : N)
  : list (vec N nat * vec N nat) * ie_out :=
  let t1 := t + dt in
  let dxdt := f x t1 in
  let b := fun i => dt * dxdt i in
  match ie_solve b (ie_matrix x t1 dt) (fun k => k) with
  | None => ([], IExit)
  | Some (b1, m1, pm1) =>
      let (tr, o) := ie_loop fuel x t1 dt (fun i => x i - b1 i) b1 m1 pm1 in
      ((b, b1) :: tr, o)
  end.
End ImplicitEuler.
Arguments ie_out N : clear implicits.

(** ** rosenbrock4, stepper/rosenbrock4.hpp. *)
Section Rosenbrock4.
Context {N : Num}.

(** The coefficients, 55-125; row k of the a's and c's as a list (a3 = a31, a32, ...); the dense
    output rows d2x, d3x are [ro_e3], [ro_e4]. *)
Record roscoef := {
  ro_gamma : N; ro_d : list N; ro_c2 : N; ro_c3 : N; ro_c4 : N;
  ro_a2 : list N; ro_a3 : list N; ro_a4 : list N; ro_a5 : list N;
  ro_k2 : list N; ro_k3 : list N; ro_k4 : list N; ro_k5 : list N; ro_k6 : list N;
  ro_e3 : list N; ro_e4 : list N }.

(** default_rosenbrock_coefficients, 61-105; the decimal literals as quotients. *)
Definition default_rosenbrock : roscoef := {|
  ro_gamma := nfrac 25 100;
  ro_d := [nfrac 25 100; nfrac (-1043) 10000; nfrac 1035 10000; nfrac 3620000000000023 100000000000000000];
  ro_c2 := nfrac 386 1000; ro_c3 := nfrac 21 100; ro_c4 := nfrac 63 100;
  ro_a2 := [nfrac 1544 1000];
  ro_a3 := [nfrac 9466785280815826 10000000000000000; nfrac 2557011698983284 10000000000000000];
  ro_a4 := [nfrac 3314825187068521 1000000000000000; nfrac 2896124015972201 1000000000000000; nfrac 9986419139977817 10000000000000000];
  ro_a5 := [nfrac 1221224509226641 1000000000000000; nfrac 6019134481288629 1000000000000000; nfrac 1253708332932087 100000000000000; nfrac (-687886036105895) 1000000000000000];
  ro_k2 := [nfrac (-56688) 10000];
  ro_k3 := [nfrac (-2430093356833875) 1000000000000000; nfrac (-2063599157091915) 10000000000000000];
  ro_k4 := [nfrac (-1073529058151375) 10000000000000000; nfrac (-9594562251023355) 1000000000000000; nfrac (-2047028614809616) 100000000000000];
  ro_k5 := [nfrac 7496443313967647 1000000000000000; nfrac (-1024680431464352) 100000000000000; nfrac (-3399990352819905) 100000000000000; nfrac 117089089320616 10000000000000];
  ro_k6 := [nfrac 8083246795921522 1000000000000000; nfrac (-7981132988064893) 1000000000000000; nfrac (-3152159432874371) 100000000000000; nfrac 1631930543123136 100000000000000; nfrac (-6058818238834054) 1000000000000000];
  ro_e3 := [nfrac 1012623508344586 100000000000000; nfrac (-7487995877610167) 1000000000000000; nfrac (-3480091861555747) 100000000000000; nfrac (-7992771707568823) 1000000000000000; nfrac 1025137723295662 1000000000000000];
  ro_e4 := [nfrac (-6762803392801253) 10000000000000000; nfrac 6087714651680015 1000000000000000; nfrac 1643084320892478 100000000000000; nfrac 2476722511418386 100000000000000; nfrac (-6594389125716872) 1000000000000000] |}.

Variable n : nat.                                    (* x.size() *)
Variable f : vec N nat -> N -> vec N nat.            (* deriv_func *)
Variable jac : vec N nat -> N -> mat N.              (* jacobi_func( x , J , t , dfdt ): J *)
Variable dft : vec N nat -> N -> vec N nat.          (* jacobi_func( x , J , t , dfdt ): dfdt *)
Variable co : roscoef.

(** The buffers: arguments x, xout, xerr and the members. *)
(* Source: Arguments of do_step and members, stepper/rosenbrock4.hpp:169,330-336. *)
Inductive rloc := RX | ROut | RErr | RDx | RDxNew | RDfdt | RTmp | RG (k : nat) | RCont3 | RCont4.
(* Source: Arguments of do_step and members, stepper/rosenbrock4.hpp:169,330-336. *)
Definition rloc_eqb (a b : rloc) : bool :=
  match a, b with
  | RX, RX | ROut, ROut | RErr, RErr | RDx, RDx | RDxNew, RDxNew | RDfdt, RDfdt | RTmp, RTmp
  | RCont3, RCont3 | RCont4, RCont4 => true
  | RG i, RG j => Nat.eqb i j
  | _, _ => false
  end.
(* Source: Arguments of do_step and members, stepper/rosenbrock4.hpp:169,330-336. *)
Definition rbuf := rloc -> vec N nat.

(** [al]: the call passes the same object as x and xout (do_step( system , x , t , dt , xerr ),
    241-244, calls do_step( system , x , t , x , dt , xerr )). *)
Definition rplace (al : bool) (l : rloc) : rloc :=
  match l with RX => if al then ROut else RX | _ => l end.
(* Source: Access to the buffers, stepper/rosenbrock4.hpp:241-244 passes x twice. *)
Definition rread (al : bool) (m : rbuf) (l : rloc) : vec N nat := m (rplace al l).
(* Source: Access to the buffers, stepper/rosenbrock4.hpp:241-244 passes x twice. *)
Definition rwrite (al : bool) (m : rbuf) (l : rloc) (v : vec N nat) : rbuf :=
  fun k => if rloc_eqb k (rplace al l) then v else m k.

(** m[i] = x[i] + a1 * g1[i] + a2 * g2[i] + ... (204, 211, 218, 225). *)
(* Source: stepper/rosenbrock4.hpp:199,207,215,223. *)
Definition rsum_from (al : bool) (m : rbuf) (x : vec N nat) (a : list N) : vec N nat :=
  fun i => fold_left (fun s p => s + fst p * rread al m (RG (snd p)) i) (combine a (seq 1 (length a))) (x i).

(** c1 * g1[i] + c2 * g2[i] + ... *)
(* Source: stepper/rosenbrock4.hpp:202,210,218,226,233. *)
Definition rsum_of (al : bool) (m : rbuf) (c : list N) : vec N nat :=
  fun i => match c with
           | [] => nofZ 0
           | c1 :: r => fold_left (fun s p => s + fst p * rread al m (RG (snd p)) i)
                          (combine r (seq 2 (length r))) (c1 * rread al m (RG 1) i)
           end.

(** A stage: the loop filling m_xtmp, the call of deriv_func, the loop filling the right-hand side
    in [dst] and lu_substitute in place; 203-208, 211-215, 218-222, 225-229.  [d] is the factor of
    dt * m_dfdt (absent in the last two stages). *)
Definition ros_rhs (al : bool) (dt : N) (d : option N) (c : list N) (m : rbuf) : vec N nat :=
  fun i => match d with
           | Some d => rread al m RDxNew i + dt * d * rread al m RDfdt i + rsum_of al m c i / dt
           | None => rread al m RDxNew i + rsum_of al m c i / dt
           end.
(* Source: lu_substitute, stepper/rosenbrock4.hpp:195,203,211,219,227,234. *)
Definition ros_solve (al : bool) (lu : lu_state N) (dst : rloc) (m : rbuf) : rbuf :=
  rwrite al m dst (lu_substitute n (lu_m lu) (lu_pm lu) (rread al m dst)).
(* Source: One of the blocks stepper/rosenbrock4.hpp:197-203, 205-211, 213-219, 221-227. *)
Definition ros_stage (al : bool) (lu : lu_state N) (tk dt : N) (a c : list N) (d : option N)
  (dst : rloc) (m : rbuf) : rbuf :=
  let m1 := rwrite al m RTmp (rsum_from al m (rread al m RX) a) in
  let m2 := rwrite al m1 RDxNew (f (rread al m1 RTmp) tk) in
  let m3 := rwrite al m2 dst (ros_rhs al dt d c m2) in
  ros_solve al lu dst m3.

(** -J + 1 / gamma / dt * identity, 194-195. *)
Definition ros_matrix (x : vec N nat) (t dt : N) : mat N :=
  fun r c => jac x t r c * nofZ (-1) +
             nofZ 1 / ro_gamma co / dt * (if Nat.eqb r c then nofZ 1 else nofZ 0).

(* Source: m_coef.d1 .. d4, stepper/rosenbrock4.hpp:194,202,210,218. *)
Definition dnth (k : nat) : N := nth k (ro_d co) (nofZ 0).

(** do_step( system , x , t , xout , dt , xerr ), 167-238.  The result of lu_factorize is not
    looked at (196). *)
Definition ros_run (al : bool) (t dt : N) (m0 : rbuf) : rbuf :=
  let m1 := rwrite al m0 RDx (f (rread al m0 RX) t) in
  let m2 := rwrite al m1 RDfdt (dft (rread al m1 RX) t) in
  let lu := lu_factorize n (ros_matrix (rread al m1 RX) t dt) (fun k => k) in
  let m3 := rwrite al m2 (RG 1) (fun i => rread al m2 RDx i + dt * dnth 0 * rread al m2 RDfdt i) in
  let m4 := ros_solve al lu (RG 1) m3 in
  let m5 := ros_stage al lu (t + ro_c2 co * dt) dt (ro_a2 co) (ro_k2 co) (Some (dnth 1)) (RG 2) m4 in
  let m6 := ros_stage al lu (t + ro_c3 co * dt) dt (ro_a3 co) (ro_k3 co) (Some (dnth 2)) (RG 3) m5 in
  let m7 := ros_stage al lu (t + ro_c4 co * dt) dt (ro_a4 co) (ro_k4 co) (Some (dnth 3)) (RG 4) m6 in
  let m8 := ros_stage al lu (t + dt) dt (ro_a5 co) (ro_k5 co) None (RG 5) m7 in
  let m9 := rwrite al m8 RTmp (fun i => rread al m8 RTmp i + rread al m8 (RG 5) i) in
  let m10 := rwrite al m9 RDxNew (f (rread al m9 RTmp) (t + dt)) in
  let m11 := rwrite al m10 RErr (ros_rhs al dt None (ro_k6 co) m10) in
  let m12 := ros_solve al lu RErr m11 in
  rwrite al m12 ROut (fun i => rread al m12 RTmp i + rread al m12 RErr i).

(** The call with separate buffers: members [m], arguments x and the old contents of xout, xerr. *)
(* Source: stepper/rosenbrock4.hpp:168-238. *)
Definition ros_out_of_place (m : rbuf) (x xout xerr : vec N nat) (t dt : N) : rbuf :=
  ros_run false t dt (rwrite false (rwrite false (rwrite false m RX x) ROut xout) RErr xerr).
(** The call with x updated in place. *)
(* Source: stepper/rosenbrock4.hpp:240-244. *)
Definition ros_in_place (m : rbuf) (x xerr : vec N nat) (t dt : N) : rbuf :=
  ros_run true t dt (rwrite true (rwrite true m RX x) RErr xerr).

(** prepare_dense_output(), 263-272. *)
Definition ros_prepare (m : rbuf) : rbuf :=
  rwrite false (rwrite false m RCont3 (rsum_of false m (ro_e3 co)))
         RCont4 (rsum_of false m (ro_e4 co)).

(** calc_state( t , x , x_old , t_old , x_new , t_new ), 275-284. *)
Definition ros_calc (m : rbuf) (t : N) (xold : vec N nat) (told : N) (xnew : vec N nat) (tnew : N)
  : vec N nat :=
  let dt := tnew - told in
  let s := (t - told) / dt in
  let s1 := nofZ 1 - s in
  fun i => xold i * s1 + s * (xnew i + s1 * (m RCont3 i + s * m RCont4 i)).

(** do_step as the controller calls it: new members, xout, xerr. *)
(* Source: stepper/rosenbrock4.hpp:168-238, called in stepper/rosenbrock4_controller.hpp. *)
Definition ros_step (m : rbuf) (x : vec N nat) (t dt : N) : rbuf * vec N nat * vec N nat :=
  let m' := ros_run false t dt (rwrite false m RX x) in (m', m' ROut, m' RErr).
End Rosenbrock4.
Arguments roscoef N : clear implicits.
Arguments rbuf N : clear implicits.

(** ** rosenbrock4_dense_output over a controller, stepper/rosenbrock4_dense_output.hpp. *)
Section RosDense.
Context {N : Num} {C : Type}.
(** The controller: try_step( system , x , t , xout , dt ) gives the controller object, the new
    contents of xout, t, dt and success. *)
Variable tr : C -> vec N nat -> N -> vec N nat -> N -> C * vec N nat * N * N * bool.
(** stepper().prepare_dense_output() and stepper().calc_state(...). *)
Variable prep : C -> C.
Variable calc : C -> N -> vec N nat -> N -> vec N nat -> N -> vec N nat.

(** Members, 188-192. *)
Record rosd := mkRosd { rd_c : C; rd_x1 : vec N nat; rd_x2 : vec N nat; rd_cur : bool;
                        rd_t : N; rd_told : N; rd_dt : N }.

(** get_current_state, get_old_state, 141-160. *)
Definition rd_x (s : rosd) : vec N nat := if rd_cur s then rd_x1 s else rd_x2 s.
(* Source: stepper/rosenbrock4_dense_output.hpp:151-160. *)
Definition rd_xold (s : rosd) : vec N nat := if rd_cur s then rd_x2 s else rd_x1 s.

(** initialize, 68-74. *)
Definition rd_init (s : rosd) (x : vec N nat) (t dt : N) : rosd :=
  mkRosd (rd_c s) (if rd_cur s then x else rd_x1 s) (if rd_cur s then rd_x2 s else x)
         (rd_cur s) t (rd_told s) dt.

(** The loop of do_step, 83-88: try_step writes into the buffer of the old state; the counter of
    failed_step_checker runs over every attempt, the successful one included. *)
Fixpoint rd_loop (fuel k : nat) (s : rosd) : res rosd :=
  match fuel with
  | O => Fuel
  | S fuel' =>
      let '(c, xo, t, dt, ok) := tr (rd_c s) (rd_x s) (rd_t s) (rd_xold s) (rd_dt s) in
      let s1 := mkRosd c (if rd_cur s then rd_x1 s else xo) (if rd_cur s then xo else rd_x2 s)
                       (rd_cur s) t (rd_told s) dt in
      match fail_check k with
      | Ok k1 => if (ok : bool) then Ok s1 else rd_loop fuel' k1 s1
      | Exc e => Exc e
      | UB => UB
      | Fuel => Fuel
      end
  end.

(** do_step, 76-92. *)
Definition rd_step (s : rosd) : res rosd :=
  let s0 := mkRosd (rd_c s) (rd_x1 s) (rd_x2 s) (rd_cur s) (rd_t s) (rd_t s) (rd_dt s) in
  match rd_loop (Datatypes.S default_max_steps) 0 s0 with
  | Ok s1 => Ok (mkRosd (prep (rd_c s1)) (rd_x1 s1) (rd_x2 s1) (negb (rd_cur s1))
                        (rd_t s1) (rd_told s1) (rd_dt s1))
  | Exc e => Exc e
  | UB => UB
  | Fuel => Fuel
  end.

(** calc_state( t , x ), 98-110. *)
Definition rd_calc (s : rosd) (t : N) : vec N nat :=
  calc (rd_c s) t (rd_xold s) (rd_told s) (rd_x s) (rd_t s).
End RosDense.
Arguments rosd N C : clear implicits.

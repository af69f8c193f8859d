(** bulirsch_stoer_dense_out: the stepper with dense output.

    Order and step size control are those of M_BS with [dense = true].
    Simplified: resizing; m_err and m_error (written before read, or unused); the
    temporaries m_x0, m_x1 of the midpoint object are local values;
    boost::math::binomial_coefficient is the exact integer. *)
From Coq Require Import ZArith List Bool Arith.
From Verif Require Import M_Num M_Sign M_Run M_Checker M_RK M_CtrlRK M_Midpoint M_BS.
Import ListNotations.
Local Open Scope num_scope.
Local Open Scope res_scope.

(* Source: boost::math::binomial_coefficient as called in bulirsch_stoer_dense_out.hpp:563; external, taken as the exact integer. *)
Fixpoint binom (n k : nat) : nat :=
  match n, k with
  | _, O => 1
  | O, S _ => 0
  | S n', S k' => (binom n' k' + binom n' k)%nat
  end.

Section BSD.
Context {N : Num} {I : Type}.
Variable idx : list I.
Variable pw : N -> N -> N.
Variable cfg : err_cfg N.
(** m_max_dt and m_control_interpolation. *)
Variable max_dt : N.
Variable ctrl_interp : bool.

Section Sys.
Variable sys : vec N I -> N -> vec N I.

(** ** modified_midpoint_dense_out::do_step, modified_midpoint.hpp:200-248.
    The while loop 227-240: [n] rounds from [i]; [x_mp] and [derivs] are updated. *)
Fixpoint mmd_rounds (steps n i : nat) (th h h2 : N) (x0 x1 xmp : vec N I) (derivs : list (vec N I))
  : res (vec N I * vec N I * vec N I * list (vec N I)) :=
  match n with
  | O => Ok (x0, x1, xmp, derivs)
  | S n' =>
      let! dx := vget derivs (i - 1) in
      let x1' : vec N I := fun j => scale_sum [(nofZ 1, x0 j); (h2, dx j)] in
      let xmp' := if Nat.eqb i (steps / 2 - 1) then x1' else xmp in
      let th' := th + h in
      let! derivs' := vset derivs i (sys x1' th') in
      mmd_rounds steps n' (S i) th' h h2 x1 x1' xmp' derivs'
  end.

(* Source: modified_midpoint.hpp:200-248. *)
Definition mmd_step (steps : nat) (x dxdt : vec N I) (t dt : N) (xmp : vec N I) (derivs : list (vec N I))
  : res (vec N I * vec N I * list (vec N I)) :=
  let half := nofZ 1 / nofZ 2 in
  let h := dt / nofnat steps in
  let h2 := nofZ 2 * h in
  let th := t + h in
  let x1 : vec N I := fun j => scale_sum [(nofZ 1, x j); (h, dxdt j)] in
  let xmp1 := if Nat.eqb steps 2 then x1 else xmp in
  let! derivs1 := vset derivs 0 (sys x1 th) in
  let! (x0', x1', xmp', derivs') := mmd_rounds steps (steps - 1) 1 th h h2 x x1 xmp1 derivs1 in
  let! dl := vget derivs' (steps - 1) in
  Ok ((fun j => scale_sum [(half, x0' j); (half, x1' j); (half * h, dl j)]) : vec N I, xmp', derivs').

(** ** Members.  [bd_kfinal] and [bd_tlast] are indeterminate until the first step. *)
(* Source: bulirsch_stoer_dense_out.hpp:670-714. *)
Record bsd := mkBsd {
  bd_table : list (vec N I); bd_mp : list (vec N I); bd_derivs : list (list (vec N I));
  bd_diffs : list (list (vec N I));
  bd_x1 : vec N I; bd_x2 : vec N I; bd_dx1 : vec N I; bd_dx2 : vec N I; bd_cur1 : bool;
  bd_kopt : nat; bd_kfinal : nat; bd_first : bool; bd_lastrej : bool;
  bd_t : N; bd_dt : N; bd_tlast : N }.

(** Sizes set by the constructor, bulirsch_stoer_dense_out.hpp:114-117,127,150-155:
    m_derivs[i] has m_interval_sequence[i] entries, m_diffs[i] is filled from
    i = 2*m_k_max+1 downwards with [num += (i+1)%2]. *)
Fixpoint diff_sizes (i num : nat) (acc : list nat) : list nat :=
  match i with
  | O => num :: acc
  | S i' => diff_sizes i' (num + (i + 1) mod 2) (num :: acc)
  end.
(* Source: bulirsch_stoer_dense_out.hpp:150-155. *)
Definition diffs_sizes : list nat := diff_sizes (2 * k_max + 1) 1 [].
(* Source: bulirsch_stoer_dense_out.hpp:127. *)
Definition derivs_sizes : list nat := bs_seqs bsd_seq.

(* Source: m_coeff, bulirsch_stoer_dense_out.hpp:136-141. *)
Definition bsd_coeff : list (list N) := ex_coeffs bsd_seq (k_max + 1).

(** get_current_state / get_old_state / get_current_deriv / get_old_deriv, 624-662. *)
Definition bd_curx (s : bsd) := if bd_cur1 s then bd_x1 s else bd_x2 s.
(* Source: bulirsch_stoer_dense_out.hpp:624-662. *)
Definition bd_oldx (s : bsd) := if bd_cur1 s then bd_x2 s else bd_x1 s.
(* Source: bulirsch_stoer_dense_out.hpp:624-662. *)
Definition bd_curdx (s : bsd) := if bd_cur1 s then bd_dx1 s else bd_dx2 s.
(* Source: bulirsch_stoer_dense_out.hpp:624-662. *)
Definition bd_olddx (s : bsd) := if bd_cur1 s then bd_dx2 s else bd_dx1 s.

(** ** One round of the loop, 187-199.  Data: m_table, m_mp_states, m_derivs, out. *)
Definition bsd_data : Type := (list (vec N I) * list (vec N I) * list (list (vec N I)) * vec N I)%type.
(* Source: bulirsch_stoer_dense_out.hpp:187-199. *)
Definition bsd_stage (inp dxdt : vec N I) (t dt : N) (k : nat) (d : bsd_data) : res (bsd_data * N) :=
  let '(table, mp, derivs, out) := d in
  let! steps := vget (bs_seqs bsd_seq) k in
  let! xmp := vget mp k in
  let! drow := vget derivs k in
  let! (y, xmp', drow') := mmd_step steps inp dxdt t dt xmp drow in
  let! mp1 := vset mp k xmp' in
  let! derivs1 := vset derivs k drow' in
  if Nat.eqb k 0 then Ok ((table, mp1, derivs1, y), nofZ 0)
  else
    let! table1 := vset table (k - 1) y in
    let! (table2, out2) := extrapolate bsd_coeff k table1 out in
    let! a := vget table2 0 in
    let err := fun i => scale_sum [(nofZ 1, out2 i); (nopp (nofZ 1), a i)] in
    Ok ((table2, mp1, derivs1, out2), snd (checker_error idx cfg inp dxdt err dt)).

(** ** prepare_dense_output, 478-537. *)

(** extrapolate_dense_out, 418-433: [for( j = k ; j > 1 ; --j )] ... *)
Fixpoint exd_down (k j osi : nat) (table : list (vec N I)) : res (list (vec N I)) :=
  match j with
  | O => Ok table
  | S O => Ok table
  | S j1 =>
      let! c := cget bsd_coeff (k + osi) (j + osi - 1) in
      let! a := vget table j in
      let! b := vget table j1 in
      let! table' := vset table j1 (ex_comb c a b) in
      exd_down k j1 osi table'
  end.
(** ... and the entry 0. *)
(* Source: bulirsch_stoer_dense_out.hpp:418-433. *)
Definition extrapolate_dense_out (k osi : nat) (table : list (vec N I)) : res (list (vec N I)) :=
  let! table' := exd_down k k osi table in
  let! c := cget bsd_coeff (k + osi) osi in
  let! a := vget table' 1 in
  let! b := vget table' 0 in
  vset table' 0 (ex_comb c a b).

(** m_diffs[kappa][j_diffs] = v. *)
(* Source: Access to m_diffs[i][j] and m_derivs[i][j], bulirsch_stoer_dense_out.hpp:545-570. *)
Definition dset (diffs : list (list (vec N I))) (a b : nat) (v : vec N I) : res (list (list (vec N I))) :=
  let! row := vget diffs a in
  let! row' := vset row b v in
  vset diffs a row'.
(* Source: Access to m_diffs[i][j] and m_derivs[i][j], bulirsch_stoer_dense_out.hpp:545-570. *)
Definition dget (diffs : list (list (vec N I))) (a b : nat) : res (vec N I) :=
  let! row := vget diffs a in vget row b.

(** calculate_finite_difference, 539-574.  The loop over [i = m+kappa-2c], c = 1, 2, ...
    while [i >= m-kappa], i.e. c <= kappa; [n] rounds left. *)
Fixpoint fd_loop (n c j kappa m : nat) (sign fac : N) (dxdt : vec N I) (derivs diffs : list (list (vec N I)))
  : res (list (list (vec N I))) :=
  match n with
  | O => Ok diffs
  | S n' =>
      let! cur := dget diffs kappa (j - kappa / 2) in
      let! diffs' :=
        (if Nat.leb (2 * c) (m + kappa) then
           let! dv := dget derivs j (m + kappa - 2 * c) in
           dset diffs kappa (j - kappa / 2)
             (fun i => scale_sum [(nofZ 1, cur i); (sign * fac * nofnat (binom kappa c), dv i)])
         else
           dset diffs kappa (j - kappa / 2)
             (fun i => scale_sum [(nofZ 1, cur i); (sign * fac, dxdt i)])) in
      fd_loop n' (S c) j kappa m (sign * nofZ (-1)) fac dxdt derivs diffs'
  end.
(* Source: bulirsch_stoer_dense_out.hpp:539-574. *)
Definition finite_difference (j kappa : nat) (fac : N) (dxdt : vec N I) (derivs diffs : list (list (vec N I)))
  : res (list (list (vec N I))) :=
  let! s := vget (bs_seqs bsd_seq) j in
  let m := (s / 2 - 1)%nat in
  if Nat.eqb kappa 0 then
    let! dv := dget derivs j m in
    dset diffs 0 j (fun i => scale_sum [(fac, dv i)])
  else
    let! dv := dget derivs j (m + kappa) in
    let! diffs1 := dset diffs kappa (j - kappa / 2) (fun i => scale_sum [(fac, dv i)]) in
    fd_loop kappa 1 j kappa m (nofZ (-1)) fac dxdt derivs diffs1.

(** [for( kappa = 0 ; kappa <= 2*j+1 ; ++kappa )], 498-502; [n] rounds left. *)
Fixpoint fd_row (n j kappa : nat) (f d : N) (dxdt : vec N I) (derivs diffs : list (list (vec N I)))
  : res (list (list (vec N I))) :=
  match n with
  | O => Ok diffs
  | S n' =>
      let! diffs' := finite_difference j kappa f dxdt derivs diffs in
      fd_row n' j (S kappa) (f * d) d dxdt derivs diffs'
  end.

(** [for( j = 0 ; j <= k ; j++ )], 493-506; [n] rounds left. *)
Fixpoint pd_rows (n j : nat) (dt : N) (dxdt : vec N I) (derivs : list (list (vec N I)))
    (mp : list (vec N I)) (diffs : list (list (vec N I))) : res (list (vec N I) * list (list (vec N I))) :=
  match n with
  | O => Ok (mp, diffs)
  | S n' =>
      let! s := vget (bs_seqs bsd_seq) j in
      let d := nofnat s / (nofZ 2 * dt) in
      let! diffs' := fd_row (2 * j + 2) j 0 (nofZ 1) d dxdt derivs diffs in
      let! mp' := (if Nat.ltb 0 j then extrapolate_dense_out j 0 mp else Ok mp) in
      pd_rows n' (S j) dt dxdt derivs mp' diffs'
  end.

(** [for( j = 1 ; j <= k-kappa/2 ; ++j )], 513-514. *)
Fixpoint pd_ext (n j osi : nat) (row : list (vec N I)) : res (list (vec N I)) :=
  match n with
  | O => Ok row
  | S n' => let! row' := extrapolate_dense_out j osi row in pd_ext n' (S j) osi row'
  end.

(** [for( kappa = 0 ; kappa <= 2*k+1 ; kappa++ )], 511-522; [n] rounds left. *)
Fixpoint pd_cols (n kappa k : nat) (d dt : N) (diffs : list (list (vec N I))) : res (list (list (vec N I))) :=
  match n with
  | O => Ok diffs
  | S n' =>
      let! row := vget diffs kappa in
      let! row1 := pd_ext (k - kappa / 2) 1 (kappa / 2) row in
      let! r0 := vget row1 0 in
      let! row2 := vset row1 0 (fun i => r0 i * d) in
      let! diffs' := vset diffs kappa row2 in
      pd_cols n' (S kappa) k (d * (dt / nofnat (2 * (kappa + 2)))) dt diffs'
  end.

(** Whole function: m_mp_states, m_diffs, error. *)
(* Source: bulirsch_stoer_dense_out.hpp:478-537. *)
Definition prepare_dense_output (k : nat) (x dxdt : vec N I) (dt : N) (derivs : list (list (vec N I)))
    (mp : list (vec N I)) (diffs : list (list (vec N I)))
  : res (list (vec N I) * list (list (vec N I)) * N) :=
  let! (mp1, diffs1) := pd_rows (k + 1) 0 dt dxdt derivs mp diffs in
  let! diffs2 := pd_cols (2 * k + 2) 0 k (dt / nofZ 2) dt diffs1 in
  if ctrl_interp then
    let! e := dget diffs2 (2 * k + 1) 0 in
    Ok (mp1, diffs2, snd (checker_error idx cfg x dxdt e dt))
  else Ok (mp1, diffs2, nofZ 0).

(** ** try_step, 158-309, as called by do_step (339): [in] and [dxdt] are the current
    state and derivative, [out] and [dxdt_new] the old ones, [t] is m_t, [dt] is m_dt. *)
Definition set_old (s : bsd) (x dx : vec N I) (table mp : list (vec N I)) (derivs diffs : list (list (vec N I)))
    (kopt kfinal : nat) (lastrej : bool) (t dt : N) : bsd :=
  mkBsd table mp derivs diffs
    (if bd_cur1 s then bd_x1 s else x) (if bd_cur1 s then x else bd_x2 s)
    (if bd_cur1 s then bd_dx1 s else dx) (if bd_cur1 s then dx else bd_dx2 s)
    (bd_cur1 s) kopt kfinal (bd_first s) lastrej t dt (bd_tlast s).

(* Source: bulirsch_stoer_dense_out.hpp:158-309. *)
Definition bsd_try (s : bsd) : res (bsd * bool) :=
  let dt := bd_dt s in
  if nneq max_dt (nofZ 0) && less_with_sign max_dt dt dt
  then Ok (set_old s (bd_oldx s) (bd_olddx s) (bd_table s) (bd_mp s) (bd_derivs s) (bd_diffs s)
             (bd_kopt s) (bd_kfinal s) (bd_lastrej s) (bd_t s) max_dt, false)
  else
    let! (d, kf, reject, k', new_h) :=
      bs_run pw true (bsd_stage (bd_curx s) (bd_curdx s) (bd_t s) dt) (bd_kopt s) (bd_first s) (bd_lastrej s) dt
             (bd_table s, bd_mp s, bd_derivs s, bd_oldx s) in
    let '(table, mp, derivs, out) := d in
    let! (dxnew, mp', diffs', t', reject', new_h') :=
      (if (reject : bool) then Ok (bd_olddx s, mp, bd_diffs s, bd_t s, true, new_h)
       else
         let dxnew := sys out (bd_t s + dt) in
         let! (mp', diffs', error) := prepare_dense_output kf (bd_curx s) (bd_curdx s) dt derivs mp (bd_diffs s) in
         if ngt error (nofZ 10)
         then Ok (dxnew, mp', diffs', bd_t s, true, dt * pw error (nofZ (-1) / nofnat (2 * kf + 2)))
         else Ok (dxnew, mp', diffs', bd_t s + dt, false, new_h)) in
    let upd_dt := negb (bd_lastrej s) || (new_h' <? dt) in
    let dt' := if upd_dt then (if nneq max_dt (nofZ 0) then min_abs max_dt new_h' else new_h') else dt in
    Ok (set_old s out dxnew table mp' derivs diffs' k' kf reject' t' dt', negb reject').

(** m_first = false, toggle_current_state(), m_t_last = t. *)
(* Source: bulirsch_stoer_dense_out.hpp:340. *)
Definition set_first (s : bsd) (b : bool) : bsd :=
  mkBsd (bd_table s) (bd_mp s) (bd_derivs s) (bd_diffs s) (bd_x1 s) (bd_x2 s) (bd_dx1 s) (bd_dx2 s)
    (bd_cur1 s) (bd_kopt s) (bd_kfinal s) b (bd_lastrej s) (bd_t s) (bd_dt s) (bd_tlast s).
(* Source: bulirsch_stoer_dense_out.hpp:343,665-668. *)
Definition toggle (s : bsd) : bsd :=
  mkBsd (bd_table s) (bd_mp s) (bd_derivs s) (bd_diffs s) (bd_x1 s) (bd_x2 s) (bd_dx1 s) (bd_dx2 s)
    (negb (bd_cur1 s)) (bd_kopt s) (bd_kfinal s) (bd_first s) (bd_lastrej s) (bd_t s) (bd_dt s) (bd_tlast s).
Definition set_tlast (s : bsd) (t : N) : bsd :=
  mkBsd (bd_table s) (bd_mp s) (bd_derivs s) (bd_diffs s) (bd_x1 s) (bd_x2 s) (bd_dx1 s) (bd_dx2 s)
    (bd_cur1 s) (bd_kopt s) (bd_kfinal s) (bd_first s) (bd_lastrej s) (bd_t s) (bd_dt s) t.
(** sys( get_current_state() , get_current_deriv() , m_t ), 328-332. *)
Definition eval_cur (s : bsd) : bsd :=
  let dx := sys (bd_curx s) (bd_t s) in
  mkBsd (bd_table s) (bd_mp s) (bd_derivs s) (bd_diffs s) (bd_x1 s) (bd_x2 s)
    (if bd_cur1 s then dx else bd_dx1 s) (if bd_cur1 s then bd_dx2 s else dx)
    (bd_cur1 s) (bd_kopt s) (bd_kfinal s) (bd_first s) (bd_lastrej s) (bd_t s) (bd_dt s) (bd_tlast s).

(** do_step, 325-345.  The while loop 337-342; [cnt] is the counter of the
    failed_step_checker, which throws at the 501st call at the latest. *)
Fixpoint bsd_attempts (fuel cnt : nat) (s : bsd) : res bsd :=
  match fuel with
  | O => Fuel
  | S fuel' =>
      let! (s1, ok) := bsd_try s in
      let s2 := set_first s1 false in
      let! cnt' := fail_check cnt in
      if (ok : bool) then Ok s2 else bsd_attempts fuel' cnt' s2
  end.
(* Source: bulirsch_stoer_dense_out.hpp:325-345. *)
Definition bsd_do_step (s : bsd) : res bsd :=
  let s0 := if bd_first s then eval_cur s else s in
  let! s1 := bsd_attempts (2 + default_max_steps) 0 (set_tlast s0 (bd_t s0)) in
  Ok (toggle s1).
End Sys.

(** initialize( x0 , t0 , dt0 ), 311-319, with reset(), 380-384: m_current_k_opt is not touched. *)
Definition bsd_init (s : bsd) (x : vec N I) (t dt : N) : bsd :=
  mkBsd (bd_table s) (bd_mp s) (bd_derivs s) (bd_diffs s)
    (if bd_cur1 s then x else bd_x1 s) (if bd_cur1 s then bd_x2 s else x) (bd_dx1 s) (bd_dx2 s)
    (bd_cur1 s) (bd_kopt s) (bd_kfinal s) true false t dt (bd_tlast s).

(** calc_state, 347-352, and do_interpolation, 577-596; [n] rounds left. *)
Fixpoint interp_loop (n i : nat) (theta theta_pow : N) (diffs : list (list (vec N I))) (out : vec N I)
  : res (vec N I) :=
  match n with
  | O => Ok out
  | S n' =>
      let! a := dget diffs i 0 in
      interp_loop n' (S i) theta (theta_pow * theta) diffs
        (fun j => scale_sum [(nofZ 1, out j); (theta_pow, a j)])
  end.
(* Source: bulirsch_stoer_dense_out.hpp:347-352,577-596. *)
Definition bsd_calc (s : bsd) (t : N) : res (vec N I) :=
  let theta := nofZ 2 * ((t - bd_tlast s) / (bd_t s - bd_tlast s)) - nofZ 1 in
  let! a0 := vget (bd_mp s) 0 in
  interp_loop (2 * bd_kfinal s + 2) 0 theta theta (bd_diffs s) a0.

(** An object as the constructor leaves it, 99-156: sizes of the tables, flags and
    m_current_k_opt; all other members are indeterminate. *)
Definition bsd_fresh (s : bsd) : Prop :=
  length (bd_table s) = k_max /\ length (bd_mp s) = (k_max + 1)%nat
  /\ map (@length _) (bd_derivs s) = derivs_sizes /\ map (@length _) (bd_diffs s) = diffs_sizes
  /\ bd_cur1 s = true /\ bd_kopt s = 4 /\ bd_first s = true /\ bd_lastrej s = false.
End BSD.
Arguments bsd N I : clear implicits.
Arguments mkBsd {N I}.

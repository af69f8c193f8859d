(** bulirsch_stoer and bulirsch_stoer_dense_out.

    Both classes share the order and step size control; it is modelled once
    ([stage_decide], [bs_loop]) over an arbitrary way of computing the stages, and
    instantiated twice.  [std::pow] is a section variable, so is the system
    function.  All accesses to the tables are checked ([vget], [vset]).

    Simplified: resizing (what m_resizer.adjust_size returned is the argument
    [rs]); the temporary m_err, which is always written before it is read;
    units. *)
From Coq Require Import ZArith List Bool Arith.
From Verif Require Import M_Num M_Sign M_Run M_Checker M_RK M_CtrlRK M_Midpoint.
Import ListNotations.
Local Open Scope num_scope.
Local Open Scope res_scope.

(** m_k_max, bulirsch_stoer.hpp:89, bulirsch_stoer_dense_out.hpp:95. *)
Definition k_max : nat := 8.

(** The constant tables of the constructors. *)
Section Tables.
(** m_interval_sequence[i]. *)
Variable seqn : nat -> nat.
Definition bs_seqs : list nat := map seqn (seq 0 (k_max + 1)).
(** m_cost[0] = seq[0], m_cost[i] = m_cost[i-1] + seq[i]; bulirsch_stoer.hpp:111-114,
    bulirsch_stoer_dense_out.hpp:128-134. *)
Fixpoint bs_cost (i : nat) : nat :=
  match i with O => seqn 0 | S i' => bs_cost i' + seqn (S i') end.
(* Source: The vector m_cost, bulirsch_stoer.hpp:100,111-114, bulirsch_stoer_dense_out.hpp:128-134. *)
Definition bs_costs : list nat := map bs_cost (seq 0 (k_max + 1)).
End Tables.

(** bulirsch_stoer.hpp:110. *)
Definition bs_seq (i : nat) : nat := (2 * (i + 1))%nat.
(** bulirsch_stoer_dense_out.hpp:126. *)
Definition bsd_seq (i : nat) : nat := (2 + 4 * i)%nat.

(** ** Order and step size control. *)
Section Control.
Context {N : Num}.
Variable pw : N -> N -> N.
(** false: bulirsch_stoer; true: bulirsch_stoer_dense_out. *)
Variable dense : bool.
(* Source: Selects the sequence of bulirsch_stoer.hpp:110 or bulirsch_stoer_dense_out.hpp:126. *)
Definition seq_of : nat -> nat := if dense then bsd_seq else bs_seq.
Notation seqs := (bs_seqs seq_of).
Notation costs := (bs_costs seq_of).

(** STEPFAC1 .. KFAC2, bulirsch_stoer.hpp:103, bulirsch_stoer_dense_out.hpp:118. *)
Definition stepfac1 : N := nofZ 65 / nofZ 100.
(* Source: bulirsch_stoer.hpp:103, bulirsch_stoer_dense_out.hpp:118. *)
Definition stepfac2 : N := nofZ 94 / nofZ 100.
(* Source: bulirsch_stoer.hpp:103, bulirsch_stoer_dense_out.hpp:118. *)
Definition stepfac3 : N := nofZ 2 / nofZ 100.
(* Source: bulirsch_stoer.hpp:103, bulirsch_stoer_dense_out.hpp:118. *)
Definition stepfac4 : N := nofZ 4.
(* Source: bulirsch_stoer.hpp:103, bulirsch_stoer_dense_out.hpp:118. *)
Definition kfac2 : N := nofZ 9 / nofZ 10.

(** m_facmin_table[i] = pow( STEPFAC3 , 1/(2i+1) ), bulirsch_stoer.hpp:116,
    bulirsch_stoer_dense_out.hpp:135. *)
Definition facmin (i : nat) : N := pw stepfac3 (nofZ 1 / nofnat (2 * i + 1)).
(* Source: The vector m_facmin_table, bulirsch_stoer.hpp:116, bulirsch_stoer_dense_out.hpp:135. *)
Definition facmins : list N := map facmin (seq 0 (k_max + 1)).

(** calc_h_opt, bulirsch_stoer.hpp:413-430 (expo = 1/(2k+1)) and
    bulirsch_stoer_dense_out.hpp:435-452 (expo = 1/m_interval_sequence[k-1]). *)
Definition calc_h_opt (h error : N) (k : nat) : res N :=
  let! expo := (if dense
                then let! s := vget seqs (k - 1) in Ok (nofZ 1 / nofnat s)
                else Ok (nofZ 1 / nofnat (2 * k + 1))) in
  let! fm := vget facmins k in
  let fac := if negb (nneq error (nofZ 0)) then nofZ 1 / fm
             else nmax (fm / stepfac4)
                       (nmin (nofZ 1 / fm) (stepfac2 / pw (error / stepfac1) expo)) in
  Ok (h * fac).

(** should_reject, bulirsch_stoer.hpp:467-482, bulirsch_stoer_dense_out.hpp:461-477;
    the quotients are integer divisions of size_t. *)
Definition should_reject (k_opt : nat) (error : N) (k : nat) : res bool :=
  if Nat.eqb (S k) k_opt then
    let! a := vget seqs k_opt in
    let! b := vget seqs (k_opt + 1) in
    let! c := vget seqs 0 in
    let d : N := nofnat (a * b / (c * c)) in
    Ok (ngt error (d * d))
  else if Nat.eqb k k_opt then
    let! a := vget seqs (if dense then (k_opt + 1)%nat else k_opt) in
    let! c := vget seqs 0 in
    let d : N := nofnat (a / c) in
    Ok (ngt error (d * d))
  else Ok (ngt error (nofZ 1)).

(** [ h * cost[a] / cost[b] ]: bulirsch_stoer.hpp:249-250,278-279 multiply by the
    quotient, bulirsch_stoer_dense_out.hpp:215,243 multiply first. *)
Definition cost_ratio (h : N) (a b : nat) : res N :=
  let! ca := vget costs a in
  let! cb := vget costs b in
  Ok (if dense then h * nofnat ca / nofnat cb else h * (nofnat ca / nofnat cb)).

(** What one pass through the loop body decides: go on, or leave the loop with a
    verdict, the new m_current_k_opt and new_h. *)
(* Source: The three ways through bulirsch_stoer.hpp:239-307 (break with reject set or not, or next round). *)
Inductive verdict := VCont | VBreak (reject : bool) (k_opt : nat) (new_h : N).

(** The tests in the loop body for k >= 1, bulirsch_stoer.hpp:239-307,
    bulirsch_stoer_dense_out.hpp:205-271.  [first], [lastrej], [k_opt] are m_first,
    m_last_step_rejected, m_current_k_opt.  [k == m_current_k_opt-1] is written
    [k+1 == m_current_k_opt]: m_current_k_opt is never 0 (C31). *)
Definition decide_before (k k_opt : nat) (first : bool) (error : N) (h_opt work : list N) : res verdict :=
  if error <? nofZ 1 then
    let! wk := vget work k in
    let! wk1 := vget work (k - 1) in
    if (wk <? kfac2 * wk1) || Nat.leb k_opt 2 then
      let! h := vget h_opt k in
      let! h' := cost_ratio h (k + 1) k in
      Ok (VBreak false (Nat.min (k_max - 1) (Nat.max 2 (k + 1))) h')
    else
      let! h := vget h_opt k in
      Ok (VBreak false (Nat.min (k_max - 1) (Nat.max 2 k)) h)
  else
    let! r := should_reject k_opt error k in
    if r && negb first then
      let! h := vget h_opt k in
      Ok (VBreak true k_opt h)
    else Ok VCont.

(* Source: The branch k == m_current_k_opt, bulirsch_stoer.hpp:264-290, bulirsch_stoer_dense_out.hpp:229-254. *)
Definition decide_at (k k_opt : nat) (lastrej : bool) (error : N) (h_opt work : list N) : res verdict :=
  if error <? nofZ 1 then
    let! wk := vget work k in
    let! wk1 := vget work (k - 1) in
    if wk1 <? kfac2 * wk then
      let k' := Nat.max 2 (k_opt - 1) in
      let! h := vget h_opt k' in
      Ok (VBreak false k' h)
    else if (wk <? kfac2 * wk1) && negb lastrej then
      let k' := Nat.min (k_max - 1) (k_opt + 1) in
      let! h := vget h_opt k in
      let! h' := cost_ratio h k' k in
      Ok (VBreak false k' h')
    else
      let! h := vget h_opt k_opt in
      Ok (VBreak false k_opt h)
  else
    let! r := should_reject k_opt error k in
    if r : bool then
      let! h := vget h_opt k_opt in
      Ok (VBreak true k_opt h)
    else Ok VCont.

(* Source: The branch k == m_current_k_opt+1, bulirsch_stoer.hpp:291-307, bulirsch_stoer_dense_out.hpp:255-271. *)
Definition decide_after (k k_opt : nat) (lastrej : bool) (error : N) (h_opt work : list N) : res verdict :=
  if error <? nofZ 1 then
    let! wk2 := vget work (k - 2) in
    let! wk1 := vget work (k - 1) in
    let k1 := if wk2 <? kfac2 * wk1 then Nat.max 2 (k_opt - 1) else k_opt in
    let! wk := vget work k in
    let! wo := vget work k1 in
    let k2 := if (wk <? kfac2 * wo) && negb lastrej then Nat.min (k_max - 1) k else k1 in
    let! h := vget h_opt k2 in
    Ok (VBreak false k2 h)
  else
    let! h := vget h_opt k_opt in
    Ok (VBreak true k_opt h).

(** The three if statements in sequence. *)
(* Source: bulirsch_stoer.hpp:239-307, bulirsch_stoer_dense_out.hpp:205-271. *)
Definition stage_decide (k k_opt : nat) (first lastrej : bool) (error : N) (h_opt work : list N) : res verdict :=
  let! v1 := (if Nat.eqb (S k) k_opt || first then decide_before k k_opt first error h_opt work else Ok VCont) in
  match v1 with
  | VBreak _ _ _ => Ok v1
  | VCont =>
      let! v2 := (if Nat.eqb k k_opt then decide_at k k_opt lastrej error h_opt work else Ok VCont) in
      match v2 with
      | VBreak _ _ _ => Ok v2
      | VCont => if Nat.eqb k (k_opt + 1) then decide_after k k_opt lastrej error h_opt work else Ok VCont
      end
  end.

(** The loop [for( k = 0 ; k <= m_current_k_opt+1 ; k++ )], bulirsch_stoer.hpp:219-309,
    bulirsch_stoer_dense_out.hpp:185-273.  [stage k d] performs the midpoint step
    and the extrapolation of round [k] on the data [d] and returns the error of the
    round (unused for k = 0).  m_current_k_opt changes only on leaving the loop, so
    the number [n] of rounds left is fixed at the start.  [kf] is m_k_final.
    Result: data, m_k_final, reject, m_current_k_opt, new_h. *)
Section Loop.
Context {D : Type}.
Variable stage : nat -> D -> res (D * N).

(* Source: bulirsch_stoer.hpp:219-309, bulirsch_stoer_dense_out.hpp:185-273. *)
Fixpoint bs_loop (n k k_opt : nat) (first lastrej : bool) (dt : N) (d : D) (kf : nat) (h_opt work : list N)
  : res (D * nat * bool * nat * N) :=
  match n with
  | O => Ok (d, kf, true, k_opt, dt)
  | S n' =>
      let! (d1, error) := stage k d in
      if Nat.eqb k 0 then bs_loop n' (S k) k_opt first lastrej dt d1 kf h_opt work
      else
        let! h := calc_h_opt dt error k in
        let! h_opt1 := vset h_opt k h in
        let! c := vget costs k in
        let! work1 := vset work k (nofnat c / h) in
        let! v := stage_decide k k_opt first lastrej error h_opt1 work1 in
        match v with
        | VCont => bs_loop n' (S k) k_opt first lastrej dt d1 k h_opt1 work1
        | VBreak reject k_opt' new_h => Ok (d1, k, reject, k_opt', new_h)
        end
  end.

(** time_vector h_opt( m_k_max+1 ), work( m_k_max+1 ): value-initialised. *)
(* Source: The local vectors h_opt and work, bulirsch_stoer.hpp:212-213. *)
Definition zeros : list N := repeat (nofZ 0) (k_max + 1).
(* Source: The loop with its start values, bulirsch_stoer.hpp:211-309, bulirsch_stoer_dense_out.hpp:177-273. *)
Definition bs_run (k_opt : nat) (first lastrej : bool) (dt : N) (d : D) : res (D * nat * bool * nat * N) :=
  bs_loop (k_opt + 2) 0 k_opt first lastrej dt d 0 zeros zeros.
End Loop.
End Control.
Arguments verdict N : clear implicits.

(** ** bulirsch_stoer *)
Section BS.
Context {N : Num} {I : Type}.
Variable idx : list I.
Variable pw : N -> N -> N.
Variable sys : vec N I -> N -> vec N I.
Variable cfg : err_cfg N.
(** m_max_dt, 0 = no limit. *)
Variable max_dt : N.

(** The members that change: m_midpoint (its temporaries), m_table, m_xnew, m_dxdt,
    m_current_k_opt, m_first, m_last_step_rejected, m_dt_last (not set by the
    constructor: an indeterminate value). *)
(* Source: bulirsch_stoer.hpp:483-512. *)
Record bs := mkBs { bs_mm : rkmem N I; bs_table : list (vec N I); bs_xnew : vec N I; bs_dxdt : vec N I;
                    bs_kopt : nat; bs_first : bool; bs_lastrej : bool; bs_dtlast : N }.

(** reset(), bulirsch_stoer.hpp:337-347. *)
Definition bs_reset (s : bs) : bs :=
  mkBs (bs_mm s) (bs_table s) (bs_xnew s) (bs_dxdt s) 4 true false (bs_dtlast s).

(** The constructor 91-124; the contents of the buffers and m_dt_last are arbitrary. *)
Definition bs_new (m : rkmem N I) (table : list (vec N I)) (xnew dxdt : vec N I) (dtlast : N) : bs :=
  bs_reset (mkBs m table xnew dxdt 4 true false dtlast).

(* Source: m_coeff, bulirsch_stoer.hpp:115-121. *)
Definition bs_coeff : list (list N) := ex_coeffs bs_seq (k_max + 1).

(** One round: 221-235.  [m_err = 1*out + (-1)*m_table[0]]. *)
Definition bs_data : Type := (rkmem N I * list (vec N I) * vec N I)%type.
(* Source: bulirsch_stoer.hpp:221-235. *)
Definition bs_stage (inp dxdt : vec N I) (t dt : N) (k : nat) (d : bs_data) : res (bs_data * N) :=
  let '(m, table, out) := d in
  let! steps := vget (bs_seqs bs_seq) k in
  let (m1, y) := mm_step sys m steps inp dxdt t dt in
  if Nat.eqb k 0 then Ok ((m1, table, y), nofZ 0)
  else
    let! table1 := vset table (k - 1) y in
    let! (table2, out2) := extrapolate bs_coeff k table1 out in
    let! a := vget table2 0 in
    let err := fun i => scale_sum [(nofZ 1, out2 i); (nopp (nofZ 1), a i)] in
    Ok ((m1, table2, out2), snd (checker_error idx cfg inp dxdt err dt)).

(* Source: The test m_max_dt != 0, bulirsch_stoer.hpp:188,319. *)
Definition limits : bool := nneq max_dt (nofZ 0).

(** Full version: try_step( sys , in , dxdt , t , out , dt ), 185-334.
    Result: object, t, out, dt, success. *)
Definition bs_core (s : bs) (rs : bool) (inp dxdt : vec N I) (t : N) (out : vec N I) (dt : N)
  : res (bs * N * vec N I * N * bool) :=
  if limits && less_with_sign max_dt dt dt then Ok (s, t, out, max_dt, false)
  else
    let s1 := if rs then bs_reset s else s in
    let s2 := if nneq dt (bs_dtlast s1) then bs_reset s1 else s1 in
    let! (d, _, reject, k', new_h) :=
      bs_run pw false (bs_stage inp dxdt t dt) (bs_kopt s2) (bs_first s2) (bs_lastrej s2) dt
             (bs_mm s2, bs_table s2, out) in
    let '(m', table', out') := d in
    let upd_dt := negb (bs_lastrej s2) || less_with_sign new_h dt dt in
    let new_h1 := if limits then min_abs max_dt new_h else new_h in
    let dt' := if upd_dt then new_h1 else dt in
    let dtlast' := if upd_dt then new_h1 else bs_dtlast s2 in
    Ok (mkBs m' table' (bs_xnew s2) (bs_dxdt s2) k' false reject dtlast',
        if (reject : bool) then t else t + dt, out', dt', negb reject).

(** Version 2: try_step( sys , x , dxdt , t , dt ), 151-161: the step goes to m_xnew
    and is copied to [x] on success. *)
Definition bs_try_v2 (s : bs) (rs : bool) (x dxdt : vec N I) (t dt : N) : res (bs * vec N I * N * N * bool) :=
  let! (s', t', out, dt', ok) := bs_core s rs x dxdt t (bs_xnew s) dt in
  Ok (mkBs (bs_mm s') (bs_table s') out (bs_dxdt s') (bs_kopt s') (bs_first s') (bs_lastrej s') (bs_dtlast s'),
      if (ok : bool) then out else x, t', dt', ok).

(** Version 3: try_step( sys , in , t , out , dt ), 168-176. *)
Definition bs_try_v3 (s : bs) (rs : bool) (inp : vec N I) (t : N) (out : vec N I) (dt : N)
  : res (bs * vec N I * N * N * bool) :=
  let dx := sys inp t in
  let s0 := mkBs (bs_mm s) (bs_table s) (bs_xnew s) dx (bs_kopt s) (bs_first s) (bs_lastrej s) (bs_dtlast s) in
  let! (s', t', out', dt', ok) := bs_core s0 rs inp dx t out dt in
  Ok (s', out', t', dt', ok).

(** Version 1: try_step( sys , x , t , dt ), 132-145, 387-394. *)
Definition bs_try (s : bs) (rs : bool) (x : vec N I) (t dt : N) : res (bs * vec N I * N * N * bool) :=
  let dx := sys x t in
  let s0 := mkBs (bs_mm s) (bs_table s) (bs_xnew s) dx (bs_kopt s) (bs_first s) (bs_lastrej s) (bs_dtlast s) in
  bs_try_v2 s0 rs x dx t dt.
End BS.
Arguments bs N I : clear implicits.
Arguments mkBs {N I}.

(** modified_midpoint and extrapolation_stepper.

    As in M_RK the body of a [do_step_impl] is a program over buffers.
    Simplified: resizing of the temporaries. *)
From Coq Require Import ZArith List Bool Arith.
From Verif Require Import M_Num M_Run M_RK.
Import ListNotations.
Local Open Scope num_scope.

(** Operations on std::vector; an index outside the vector is undefined behaviour. *)
(* No counterpart in /repo: sequencing of operations that can be undefined. *)
Definition rbind {A B} (m : res A) (f : A -> res B) : res B :=
  match m with Ok a => f a | Exc e => Exc e | UB => UB | Fuel => Fuel end.
Declare Scope res_scope.
Notation "'let!' x ':=' m 'in' f" := (rbind m (fun x => f))
  (at level 200, x pattern, m at level 100, f at level 200, right associativity) : res_scope.
Local Open Scope res_scope.

(** [v[k]] as an rvalue. *)
(* Source: std::vector::operator[] as used in bulirsch_stoer.hpp:219-309; external. *)
Definition vget {A} (v : list A) (k : nat) : res A :=
  match nth_error v k with Some a => Ok a | None => UB end.
(** [v[k] = a]. *)
(* Source: std::vector::operator[] as used in bulirsch_stoer.hpp:219-309; external. *)
Fixpoint vset {A} (v : list A) (k : nat) (a : A) : res (list A) :=
  match v, k with
  | [], _ => UB
  | _ :: r, O => Ok (a :: r)
  | b :: r, S k' => let! r' := vset r k' a in Ok (b :: r')
  end.

Section MM.
Context {N : Num} {I : Type}.
Variable sys : vec N I -> N -> vec N I.

(** ** modified_midpoint::do_step_impl, stepper/modified_midpoint.hpp:79-117.

    Buffers: m_x1 = [LTmp], m_x0 = [LK 0], m_dxdt = [LDxTmp]; [LK 1] is the
    element-wise temporary of scale_sum_swap2 (algebra/default_operations.hpp:407-423:
    [tmp = t1; t1 = a1*t2 + a2*t3; t2 = tmp], the three operands are distinct
    members, so the element loop may be split).  [n] is the number of rounds of
    the while loop 100-110, [m_steps - 1] of them.  Simplified: [m_steps = 0]
    (the counter of type unsigned short would wrap around). *)
Fixpoint mm_rounds (n : nat) (th h h2 : N) : list (instr N) :=
  match n with
  | O => []
  | S n' => let th' := th + h in
      [ ICopy (LK 1) LTmp;
        ISum LTmp [(nofZ 1, LK 0); (h2, LDxTmp)];
        ICopy (LK 0) (LK 1);
        ISys LDxTmp LTmp th' ] ++ mm_rounds n' th' h h2
  end.

(* Source: stepper/modified_midpoint.hpp:79-117. *)
Definition mm_prog (steps : nat) (t dt : N) : list (instr N) :=
  let half := nofZ 1 / nofZ 2 in
  let h := dt / nofnat steps in
  let h2 := nofZ 2 * h in
  let th := t + h in
  [ ISum LTmp [(nofZ 1, LIn); (h, LDx)];
    ISys LDxTmp LTmp th;
    ICopy (LK 0) LIn ]
  ++ mm_rounds (steps - 1) th h h2
  ++ [ ISum LOut [(half, LK 0); (half, LTmp); (half * h, LDxTmp)] ].

(** do_step( sys , in , dxdt , t , out , dt ) on separate buffers as used by the
    extrapolation methods (base/explicit_stepper_base.hpp:177-187); the temporaries
    of m_midpoint are overwritten before they are read, their previous content
    [m] is irrelevant.  The value of [out]. *)
Definition mm_step (m : rkmem N I) (steps : nat) (x dxdt : vec N I) (t dt : N) : rkmem N I * vec N I :=
  let m' := fst (exec sys (mkAlias false false) (mm_prog steps t dt) (upd (upd m LIn x) LDx dxdt)) in
  (m', m' LOut).

(** ** The extrapolation tables. *)

(** m_coeff[i], extrapolation_stepper.hpp:122-136, bulirsch_stoer.hpp:108-121,
    bulirsch_stoer_dense_out.hpp:136-141: row [i] has [i] entries
    [1 / ( r*r - 1 )] with [r = m_interval_sequence[i] / m_interval_sequence[k]]. *)
Definition ex_coeff (seqn : nat -> nat) (i k : nat) : N :=
  let r := nofnat (seqn i) / nofnat (seqn k) in
  nofZ 1 / (r * r - nofZ 1).
(* Source: m_coeff, extrapolation_stepper.hpp:120-135, bulirsch_stoer.hpp:115-121. *)
Definition ex_coeffs (seqn : nat -> nat) (n : nat) : list (list N) :=
  map (fun i => map (ex_coeff seqn i) (seq 0 i)) (seq 0 n).

(** [coeff[k][j]]. *)
(* Source: extrapolation_stepper.hpp:241-261, bulirsch_stoer.hpp:398-411. *)
Definition cget (coeff : list (list N)) (k j : nat) : res N :=
  let! row := vget coeff k in vget row j.

(** scale_sum2( 1 + c , -c ) on two states, algebra/default_operations.hpp:76-93. *)
Definition ex_comb (c : N) (a b : vec N I) : vec N I :=
  fun i => scale_sum [(nofZ 1 + c, a i); (nopp c, b i)].

(** extrapolate(), extrapolation_stepper.hpp:240-261, bulirsch_stoer.hpp:397-411,
    bulirsch_stoer_dense_out.hpp:401-415 (order_start_index = 0): the loop
    [for( j = k-1 ; j > 0 ; --j )] ... *)
Fixpoint ex_down (coeff : list (list N)) (k j : nat) (table : list (vec N I)) : res (list (vec N I)) :=
  match j with
  | O => Ok table
  | S j1 =>
      let! c := cget coeff k j in
      let! a := vget table j in
      let! b := vget table j1 in
      let! table' := vset table j1 (ex_comb c a b) in
      ex_down coeff k j1 table'
  end.
(** ... and the update of [xest]; [k >= 1]. *)
(* Source: extrapolation_stepper.hpp:241-261, bulirsch_stoer.hpp:398-411, bulirsch_stoer_dense_out.hpp:402-415. *)
Definition extrapolate (coeff : list (list N)) (k : nat) (table : list (vec N I)) (xest : vec N I)
  : res (list (vec N I) * vec N I) :=
  let! table' := ex_down coeff k (k - 1) table in
  let! c := cget coeff k 0 in
  let! a := vget table' 0 in
  Ok (table', ex_comb c a xest).

(** ** extrapolation_stepper< Order >, m_k_max = (Order-2)/2.  extrapolation_stepper.hpp:116-137. *)
Variable order : nat.
(* Source: extrapolation_stepper.hpp:116. *)
Definition es_kmax : nat := ((order - 2) / 2)%nat.
(** m_interval_sequence[i] = 2*(i+1). *)
(* Source: extrapolation_stepper.hpp:122-124. *)
Definition es_seq (i : nat) : nat := (2 * (i + 1))%nat.
(* Source: extrapolation_stepper.hpp:125-132. *)
Definition es_coeff : list (list N) := ex_coeffs es_seq (es_kmax + 1).
(* Source: extrapolation_stepper.hpp:122-124. *)
Definition es_seqs : list nat := map es_seq (seq 0 (es_kmax + 1)).

(** Members that are not constant: m_midpoint, m_table (size m_k_max), m_xout. *)
(* Source: extrapolation_stepper.hpp:267-273. *)
Record es := mkEs { es_mm : rkmem N I; es_table : list (vec N I); es_xout : vec N I }.

(** The loop of do_step_impl, 181-186, [n] rounds from [k].  [io] is true if
    [in] and [out] are the same object: then the midpoint steps start from what
    the previous rounds wrote. *)
Fixpoint es_loop (io : bool) (n k : nat) (m : rkmem N I) (table : list (vec N I))
    (inp dxdt : vec N I) (t : N) (out : vec N I) (dt : N) : res (rkmem N I * list (vec N I) * vec N I) :=
  match n with
  | O => Ok (m, table, out)
  | S n' =>
      let! steps := vget es_seqs k in
      let (m1, y) := mm_step m steps (if io then out else inp) dxdt t dt in
      let! table1 := vset table (k - 1) y in
      let! (table2, out2) := extrapolate es_coeff k table1 out in
      es_loop io n' (S k) m1 table2 inp dxdt t out2 dt
  end.

(** do_step_impl( sys , in , dxdt , t , out , dt ), 171-187: object and [out]. *)
Definition es_impl (io : bool) (s : es) (inp dxdt : vec N I) (t dt : N) : res (es * vec N I) :=
  let! steps := vget es_seqs 0 in
  let (m1, y) := mm_step (es_mm s) steps inp dxdt t dt in
  let! (m2, table, out) := es_loop io es_kmax 1 m1 (es_table s) inp dxdt t y dt in
  Ok (mkEs m2 table (es_xout s), out).

(** with error estimate, 139-154: [xerr = 1*out + (-1)*m_table[0]]. *)
Definition es_impl_err (io : bool) (s : es) (inp dxdt : vec N I) (t dt : N)
  : res (es * vec N I * vec N I) :=
  let! (s1, out) := es_impl io s inp dxdt t dt in
  let! a := vget (es_table s1) 0 in
  Ok (s1, out, fun i => scale_sum [(nofZ 1, out i); (nopp (nofZ 1), a i)]).

(** The base class explicit_error_stepper_base: do_step( sys , x , t , dt ) calls
    [do_step_impl( sys , x , m_dxdt , t , x , dt )] with [x] as input and output,
    base/explicit_error_stepper_base.hpp:117-135,288-295. *)
Definition es_do_step_inplace (s : es) (x : vec N I) (t dt : N) : res (es * vec N I) :=
  es_impl true s x (sys x t) t dt.
(** do_step( sys , in , t , out , dt ), explicit_error_stepper_base.hpp:170-185. *)
Definition es_do_step_out (s : es) (x : vec N I) (t dt : N) : res (es * vec N I) :=
  es_impl false s x (sys x t) t dt.
(** do_step_dxdt_impl( sys , x , dxdt , t , dt ), 202-207 through do_step_impl_io,
    189-200: the step goes to m_xout and is copied back. *)
Definition es_do_step_dxdt (s : es) (x dxdt : vec N I) (t dt : N) : res (es * vec N I) :=
  let! (s1, out) := es_impl false s x dxdt t dt in
  Ok (mkEs (es_mm s1) (es_table s1) out, out).
End MM.
Arguments es N I : clear implicits.
Arguments mkEs {N I}.

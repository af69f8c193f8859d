(** Dense linear algebra of the implicit steppers.

    implicit_euler and rosenbrock4 do not contain a linear solver: they call boost::numeric::ublas
    lu_factorize( m , pm ) and lu_substitute( m , pm , v ) (stepper/implicit_euler.hpp:23-26 and
    144-149, stepper/rosenbrock4.hpp:26-28, 195-232).  uBLAS is not part of /repo; this file
    transcribes the algorithm of boost/numeric/ublas/lu.hpp and triangular.hpp: LU factorisation in
    place with row pivoting, then the two triangular solves.  Simplified: matrices and vectors are
    functions of the index with the size n beside them (entries with index >= n are never read);
    BOOST_UBLAS_CHECK is off (release mode); the order of summation is that of the column oriented
    solver. *)
From Coq Require Import Bool Arith List ZArith.
From Verif Require Import M_Num M_Sign M_RK M_CtrlRK.

Section LU.
Context {N : Num}.
Open Scope num_scope.

(* Source: The data of boost/numeric/ublas/lu.hpp (external), called in stepper/rosenbrock4.hpp:191-234 and stepper/implicit_euler.hpp:80-125. *)
Definition mat := nat -> nat -> N.

(** The argument at which the largest |entry| of column i in the rows i .. i+k-1 is first
    attained (ublas index_norm_inf, functional.hpp: t = 0; for every entry: if( |u| > t )). *)
Fixpoint pivot_from (m : mat) (i r k best : nat) (t : N) : nat :=
  match k with
  | O => best
  | S k' => let u := nabs (m r i) in
            if t <? u then pivot_from m i (S r) k' r u else pivot_from m i (S r) k' best t
  end.
(* Source: Part of lu_factorize, boost/numeric/ublas/lu.hpp (external), called in stepper/rosenbrock4.hpp:191-234 and stepper/implicit_euler.hpp:80-125. *)
Definition pivot (n : nat) (m : mat) (i : nat) : nat := pivot_from m i i (n - i) i (nofZ 0%Z).

(* Source: Part of lu_factorize, boost/numeric/ublas/lu.hpp (external), called in stepper/rosenbrock4.hpp:191-234 and stepper/implicit_euler.hpp:80-125. *)
Definition swapi (a b r : nat) : nat := if r =? a then b else if r =? b then a else r.

(** row( m , a ).swap( row( m , b ) ). *)
(* Source: Part of lu_factorize, boost/numeric/ublas/lu.hpp (external), called in stepper/rosenbrock4.hpp:191-234 and stepper/implicit_euler.hpp:80-125. *)
Definition swap_rows (a b : nat) (m : mat) : mat := fun r c => m (swapi a b r) c.
(* Source: Part of lu_factorize, boost/numeric/ublas/lu.hpp (external), called in stepper/rosenbrock4.hpp:191-234 and stepper/implicit_euler.hpp:80-125. *)
Definition swap_elems (a b : nat) (v : vec N nat) : vec N nat := fun r => v (swapi a b r).

(* Source: The data of boost/numeric/ublas/lu.hpp (external), called in stepper/rosenbrock4.hpp:191-234 and stepper/implicit_euler.hpp:80-125. *)
Record lu_state := mkLu { lu_m : mat; lu_pm : nat -> nat; lu_res : nat }.

(** One pass of the loop of lu_factorize( m , pm ), column i. *)
(* Source: Part of lu_factorize, boost/numeric/ublas/lu.hpp (external), called in stepper/rosenbrock4.hpp:191-234 and stepper/implicit_euler.hpp:80-125. *)
Definition lu_stage (n i : nat) (s : lu_state) : lu_state :=
  let p := pivot n (lu_m s) i in
  let nz := nneq (lu_m s p i) (nofZ 0%Z) in
  let m1 := if nz then (if p =? i then lu_m s else swap_rows p i (lu_m s)) else lu_m s in
  let pm1 := if nz then (if p =? i then lu_pm s else (fun k => if k =? i then p else lu_pm s k))
             else lu_pm s in
  let m2 : mat := if nz then (fun r c => if ((i <? r)%nat && (c =? i))%bool
                                         then m1 r c * (nofZ 1%Z / m1 i i) else m1 r c)
                  else m1 in
  let res1 := if nz then lu_res s else (if lu_res s =? 0 then S i else lu_res s) in
  {| lu_m := fun r c => if ((i <? r)%nat && (i <? c)%nat)%bool then m2 r c - m2 r i * m2 i c else m2 r c;
     lu_pm := pm1; lu_res := res1 |}.

(* Source: Part of lu_factorize, boost/numeric/ublas/lu.hpp (external), called in stepper/rosenbrock4.hpp:191-234 and stepper/implicit_euler.hpp:80-125. *)
Fixpoint lu_loop (n k : nat) (s : lu_state) : lu_state :=
  match k with
  | O => s
  | S k' => lu_stage n k' (lu_loop n k' s)
  end.

(** lu_factorize( m , pm ): columns 0 .. n-1; the result is 0, or 1 + the first column without a
    pivot. *)
(* Source: Part of lu_factorize, boost/numeric/ublas/lu.hpp (external), called in stepper/rosenbrock4.hpp:191-234 and stepper/implicit_euler.hpp:80-125. *)
Definition lu_factorize (n : nat) (m : mat) (pm : nat -> nat) : lu_state :=
  lu_loop n n (mkLu m pm 0).

(** swap_rows( pm , v ): for i = 0 .. k-1: if( i != pm( i ) ) swap( v( i ) , v( pm( i ) ) ). *)
(* Source: Part of lu_substitute, boost/numeric/ublas/lu.hpp (external), called in stepper/rosenbrock4.hpp:191-234 and stepper/implicit_euler.hpp:80-125. *)
Fixpoint apply_pm (pm : nat -> nat) (k : nat) (v : vec N nat) : vec N nat :=
  match k with
  | O => v
  | S k' => let v' := apply_pm pm k' v in
            if k' =? pm k' then v' else swap_elems k' (pm k') v'
  end.

(** inplace_solve( m , v , unit_lower_tag ): columns 0 .. k-1. *)
(* Source: Part of lu_substitute, boost/numeric/ublas/lu.hpp (external), called in stepper/rosenbrock4.hpp:191-234 and stepper/implicit_euler.hpp:80-125. *)
Fixpoint solve_lower (n : nat) (m : mat) (k : nat) (v : vec N nat) : vec N nat :=
  match k with
  | O => v
  | S k' => let v' := solve_lower n m k' v in
            let t := v' k' in
            if nneq t (nofZ 0%Z)
            then (fun r => if ((k' <? r)%nat && (r <? n)%nat)%bool then v' r - m r k' * t else v' r)
            else v'
  end.

(** inplace_solve( m , v , upper_tag ): columns k-1 .. 0. *)
(* Source: Part of lu_substitute, boost/numeric/ublas/lu.hpp (external), called in stepper/rosenbrock4.hpp:191-234 and stepper/implicit_euler.hpp:80-125. *)
Fixpoint solve_upper (m : mat) (k : nat) (v : vec N nat) : vec N nat :=
  match k with
  | O => v
  | S k' => let t := v k' / m k' k' in
            let v' := if nneq t (nofZ 0%Z)
                      then (fun r => if (r <? k')%nat then v r - m r k' * t
                                     else if r =? k' then t else v r)
                      else (fun r => if r =? k' then t else v r) in
            solve_upper m k' v'
  end.

(** lu_substitute( m , pm , v ). *)
(* Source: Part of lu_substitute, boost/numeric/ublas/lu.hpp (external), called in stepper/rosenbrock4.hpp:191-234 and stepper/implicit_euler.hpp:80-125. *)
Definition lu_substitute (n : nat) (m : mat) (pm : nat -> nat) (v : vec N nat) : vec N nat :=
  solve_upper m n (solve_lower n m n (apply_pm pm n v)).
End LU.
Arguments mat N : clear implicits.
Arguments lu_state N : clear implicits.

(** boost::multi_array as state type: multi_array_algebra, same_size and resize.

    Source: util/multi_array_adaption.hpp:80-125, algebra/multi_array_algebra.hpp:35-132.
    boost::multi_array is external: an array has a shape, index bases, a storage order and
    num_elements() elements starting at data().  Only the two standard storage orders are
    modelled.  Simplified: the conversion of the extents to int. *)
From Coq Require Import List Bool Arith ZArith.
From Verif Require Import M_Num M_RK.
Import ListNotations.

(** c_storage_order(), fortran_storage_order() (external). *)
(* Source: boost/multi_array.hpp, included by util/multi_array_adaption.hpp:27; external. *)
Inductive sorder : Set := c_order | fortran_order.

Section MArray.
Context {N : Num}.

(* Source: boost/multi_array.hpp (external); the members used in util/multi_array_adaption.hpp:94-95. *)
Record marray := mkMarray { ma_shape : list nat; ma_bases : list Z; ma_order : sorder; ma_data : list N }.

(** num_elements(). *)
(* Source: boost/multi_array.hpp (external), used in algebra/multi_array_algebra.hpp:40. *)
Definition volume (shape : list nat) : nat := fold_right Nat.mul 1 shape.

(** Position of the element with the zero-based index [idx]. *)
(* Source: boost/multi_array.hpp (external): element access of the system function, x[i][j]. *)
Fixpoint c_offset (shape idx : list nat) : nat :=
  match shape, idx with
  | s :: sh, i :: ix => i * volume sh + c_offset sh ix
  | _, _ => 0
  end.
(* Source: boost/multi_array.hpp (external): element access of the system function, x[i][j]. *)
Fixpoint f_offset (shape idx : list nat) : nat :=
  match shape, idx with
  | s :: sh, i :: ix => i + s * f_offset sh ix
  | _, _ => 0
  end.
(* Source: boost/multi_array.hpp (external): element access of the system function, x[i][j]. *)
Definition offset (o : sorder) (shape idx : list nat) : nat :=
  match o with c_order => c_offset shape idx | fortran_order => f_offset shape idx end.

(** An index is valid if it has one entry per dimension, within [base, base + extent). *)
(* Source: boost/multi_array.hpp (external). *)
Fixpoint zero_based (shape : list nat) (bases idx : list Z) : option (list nat) :=
  match shape, bases, idx with
  | [], [], [] => Some []
  | s :: sh, b :: bs, i :: ix =>
      if ((b <=? i) && (i <? b + Z.of_nat s))%Z
      then match zero_based sh bs ix with
           | Some r => Some (Z.to_nat (i - b) :: r)
           | None => None
           end
      else None
  | _, _, _ => None
  end.

(** x[i1][i2]...; [None]: index out of range. *)
(* Source: boost/multi_array.hpp (external): element access of the system function, x[i][j]. *)
Definition ma_get (x : marray) (idx : list Z) : option N :=
  match zero_based (ma_shape x) (ma_bases x) idx with
  | Some r => nth_error (ma_data x) (offset (ma_order x) (ma_shape x) r)
  | None => None
  end.

(** same_size, util/multi_array_adaption.hpp:90-98; the loop over the dimensions. *)
Fixpoint ma_same_size_loop (s1 s2 : list nat) (b1 b2 : list Z) : bool :=
  match s1, s2, b1, b2 with
  | x1 :: r1, x2 :: r2, y1 :: q1, y2 :: q2 =>
      if negb (x1 =? x2) then false
      else if negb (y1 =? y2)%Z then false
      else ma_same_size_loop r1 r2 q1 q2
  | _, _, _, _ => true
  end.
(* Source: util/multi_array_adaption.hpp:90-98. *)
Definition ma_same_size (x1 x2 : marray) : bool :=
  ma_same_size_loop (ma_shape x1) (ma_shape x2) (ma_bases x1) (ma_bases x2).

(** resize, util/multi_array_adaption.hpp:112-120.  multi_array::resize keeps the storage order;
    [fill] stands for the contents it leaves (common elements kept, the rest default values). *)
Definition ma_resize (fill : marray -> list nat -> nat -> N) (x1 x2 : marray) : marray :=
  let extents := ma_shape x2 in
  let y := mkMarray extents (map (fun _ => 0%Z) extents) (ma_order x1)
             (map (fill x1 extents) (seq 0 (volume extents))) in
  mkMarray (ma_shape y) (ma_bases x2) (ma_order y) (ma_data y).

(** for_each3( s1 , s2 , s3 , scale_sum2( a1 , a2 ) ) and the other for_eachN with scale_sumN,
    algebra/multi_array_algebra.hpp:37-125, algebra/detail/for_each.hpp:27-: [n] elements from
    s1.data() on, the operands read at the same positions.  [None]: an operand has fewer elements. *)
Fixpoint data_loop (n k : nat) (ts : list (N * list N)) : option (list N) :=
  match n with
  | O => Some []
  | S n' =>
      match (fix reads (l : list (N * list N)) : option (list (N * N)) :=
               match l with
               | [] => Some []
               | (a, d) :: r => match nth_error d k, reads r with
                                | Some v, Some q => Some ((a, v) :: q)
                                | _, _ => None
                                end
               end) ts, data_loop n' (S k) ts with
      | Some vs, Some r => Some (scale_sum vs :: r)
      | _, _ => None
      end
  end.
(* Source: algebra/multi_array_algebra.hpp:37-125. *)
Definition ma_for_each (s1 : marray) (ts : list (N * marray)) : option marray :=
  match data_loop (volume (ma_shape s1)) 0 (map (fun p => (fst p, ma_data (snd p))) ts) with
  | Some d => Some (mkMarray (ma_shape s1) (ma_bases s1) (ma_order s1) d)
  | None => None
  end.

(** The zero-based index of the element at position [k]. *)
(* Source: boost/multi_array.hpp (external). *)
Fixpoint c_index (shape : list nat) (k : nat) : list nat :=
  match shape with
  | [] => []
  | s :: sh => k / volume sh :: c_index sh (k mod volume sh)
  end.
(* Source: boost/multi_array.hpp (external). *)
Fixpoint f_index (shape : list nat) (k : nat) : list nat :=
  match shape with
  | [] => []
  | s :: sh => k mod s :: f_index sh (k / s)
  end.
(* Source: boost/multi_array.hpp (external). *)
Definition index_at (o : sorder) (shape : list nat) (k : nat) : list nat :=
  match o with c_order => c_index shape k | fortran_order => f_index shape k end.

(** The system function writes dxdt[i1][i2]... = g [i1;i2;...] for every index. *)
(* Source: the call system( x , dxdt , t ), base/explicit_stepper_base.hpp:161-239. *)
Definition ma_write (g : list Z -> N) (y : marray) : marray :=
  mkMarray (ma_shape y) (ma_bases y) (ma_order y)
    (map (fun k => g (map (fun p => fst p + Z.of_nat (snd p))%Z
                        (combine (ma_bases y) (index_at (ma_order y) (ma_shape y) k))))
         (seq 0 (volume (ma_shape y)))).

(** A default constructed boost::multi_array: no extent, C storage order. *)
(* Source: util/state_wrapper.hpp:36-41 for the member m_dxdt of base/explicit_stepper_base.hpp. *)
Definition ma_default (dims : nat) : marray := mkMarray (repeat 0 dims) (repeat 0%Z dims) c_order [].

(** euler::do_step( sys , x , t , dt ) of a new stepper: m_dxdt is default constructed and resized
    unless it has the size of x, written by the system and added.
    stepper/euler.hpp:83-88, base/explicit_stepper_base.hpp:225-231, util/resizer.hpp:29-40. *)
Definition ma_euler (fill : marray -> list nat -> nat -> N) (sys : marray -> N -> list Z -> N)
  (x : marray) (t dt : N) : option marray :=
  let m0 := ma_default (length (ma_shape x)) in
  let m1 := if ma_same_size m0 x then m0 else ma_resize fill m0 x in
  let dxdt := ma_write (sys x t) m1 in
  ma_for_each x [(nofZ 1, x); (dt, dxdt)].
End MArray.
Arguments marray N : clear implicits.

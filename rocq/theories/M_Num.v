(** Arithmetic: the number type of a stepper / integrate function.

    odeint is templated over the number type ([class Value], [class Time]); the
    record [Num] collects the operations its code applies to such values.  There
    are NO laws in the record, so a theorem stated for every [N : Num] holds for
    every C++ arithmetic type, IEEE floating point with NaN included.

    Source: the operations used in util/detail/less_with_sign.hpp:32-75,
    integrate/detail/*.hpp, algebra/default_operations.hpp:40-591. *)
From Coq Require Import ZArith QArith Qabs Reals Floats.SpecFloat.
From Coq Require Import Bool.

(* Source: The operations on value_type and time_type used throughout include/boost/numeric/odeint. *)
Record Num := mkNum {
  carrier :> Type;
  nadd : carrier -> carrier -> carrier;
  nsub : carrier -> carrier -> carrier;
  nmul : carrier -> carrier -> carrier;
  ndiv : carrier -> carrier -> carrier;
  nopp : carrier -> carrier;
  nabs : carrier -> carrier;
  nlt  : carrier -> carrier -> bool;      (* operator <  *)
  nle  : carrier -> carrier -> bool;      (* operator <= *)
  neps : carrier;                         (* std::numeric_limits<T>::epsilon() *)
  nofZ : Z -> carrier                     (* static_cast<T>(integer) *)
}.

Arguments nadd {n}. Arguments nsub {n}. Arguments nmul {n}. Arguments ndiv {n}.
Arguments nopp {n}. Arguments nabs {n}. Arguments nlt {n}. Arguments nle {n}.
Arguments neps {n}. Arguments nofZ {n}.

Declare Scope num_scope.
Delimit Scope num_scope with num.
Bind Scope num_scope with carrier.
Infix "+" := nadd : num_scope.
Infix "-" := nsub : num_scope.
Infix "*" := nmul : num_scope.
Infix "/" := ndiv : num_scope.
Infix "<?" := nlt : num_scope.
Infix "<=?" := nle : num_scope.

(** [a > b] in C++ is [b < a] (true for IEEE comparison as well). *)
Notation ngt a b := (nlt b a).

(** Conversion of a counter: [static_cast<unit_value_type<Time>::type>(step)]
    integrate/detail/integrate_const.hpp:63. *)
Definition nofnat {N : Num} (k : nat) : N := nofZ (Z.of_nat k).

(** std::min / std::max of the C++ standard library:
    [min(a,b) = (b < a) ? b : a], [max(a,b) = (a < b) ? b : a]. *)
(* Source: std::min and std::max (external), called e.g. in stepper/controlled_runge_kutta.hpp:122-148. *)
Definition nmin {N : Num} (a b : N) : N := if nlt b a then b else a.
(* Source: std::min and std::max (external), called e.g. in stepper/controlled_runge_kutta.hpp:122-148. *)
Definition nmax {N : Num} (a b : N) : N := if nlt a b then b else a.

(** ** Real numbers with an arbitrary epsilon (ideal arithmetic). *)
(* No counterpart in /repo: an instance of the arithmetic. *)
Definition Rltb (a b : R) : bool := if Rlt_dec a b then true else false.
(* No counterpart in /repo: an instance of the arithmetic. *)
Definition Rleb (a b : R) : bool := if Rle_dec a b then true else false.

(* No counterpart in /repo: an instance of the arithmetic. *)
Definition RNum (eps : R) : Num :=
  mkNum R Rplus Rminus Rmult Rdiv Ropp Rabs Rltb Rleb eps IZR.

(** ** Rational numbers (computable); epsilon of an exact type is 0, see
    std::numeric_limits for exact types, but any value may be chosen. *)
(* No counterpart in /repo: an instance of the arithmetic. *)
Definition Qltb (a b : Q) : bool := negb (Qle_bool b a).
(* No counterpart in /repo: an instance of the arithmetic. *)
Definition QNum (eps : Q) : Num :=
  mkNum Q (fun a b => Qred (a + b)) (fun a b => Qred (a - b))
        (fun a b => Qred (a * b)) (fun a b => Qred (a / b))
        (fun a => Qred (- a)) (fun a => Qred (Qabs a))
        Qltb Qle_bool eps inject_Z.

(** ** IEEE 754 binary64 (type double), round to nearest even. *)
(* No counterpart in /repo: the C++ type double. *)
Definition f64_prec : Z := 53.
(* No counterpart in /repo: the C++ type double. *)
Definition f64_emax : Z := 1024.
(* No counterpart in /repo: the C++ type double. *)
Definition f64 := spec_float.
(* No counterpart in /repo: the C++ type double. *)
Definition f64_ofZ (z : Z) : f64 := binary_normalize f64_prec f64_emax z 0 false.
(** [f64_dyadic m e] is the double nearest to m * 2^e. *)
(* No counterpart in /repo: the C++ type double. *)
Definition f64_dyadic (m e : Z) : f64 := binary_normalize f64_prec f64_emax m e false.
(* No counterpart in /repo: the C++ type double. *)
Definition F64 : Num :=
  mkNum spec_float
        (SFadd f64_prec f64_emax) (SFsub f64_prec f64_emax)
        (SFmul f64_prec f64_emax) (SFdiv f64_prec f64_emax)
        SFopp SFabs SFltb SFleb
        (f64_dyadic 1 (-52))           (* DBL_EPSILON = 2^-52 *)
        f64_ofZ.

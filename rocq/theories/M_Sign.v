(** Direction-aware comparisons. Source: util/detail/less_with_sign.hpp. *)
From Coq Require Import ZArith.
From Verif Require Import M_Num.
Local Open Scope num_scope.

Section Sign.
Context {N : Num}.

(** [get_unit_value(dt) > 0], less_with_sign.hpp:35,49,60,71. *)
Definition npos (dt : N) : bool := ngt dt (nofZ 0).

(** less_with_sign.hpp:32-41. *)
Definition less_with_sign (t1 t2 dt : N) : bool :=
  if npos dt then ngt (t2 - t1) neps else ngt (t1 - t2) neps.

(** less_with_sign.hpp:46-53. *)
Definition less_eq_with_sign (t1 t2 dt : N) : bool :=
  if npos dt then t1 - t2 <=? neps else t2 - t1 <=? neps.

(** less_with_sign.hpp:55-64. *)
Definition min_abs (t1 t2 : N) : N := if npos t1 then nmin t1 t2 else nmax t1 t2.

(** less_with_sign.hpp:66-75. *)
Definition max_abs (t1 t2 : N) : N := if npos t1 then nmax t1 t2 else nmin t1 t2.
End Sign.

(** mkl_operations: scale_sumN by BLAS calls on whole containers.

    Source: external/mkl/mkl_operations.hpp:39-175.  Used together with vector_space_algebra
    (algebra/vector_space_algebra.hpp:59-200), which passes the containers themselves to the
    operation.  The BLAS routines are external; their meaning is taken from the BLAS standard
    (dcopy: y = x, dscal: x = a*x, daxpy: y = y + a*x, element by element).
    Simplified: the containers have equal sizes and at least one element ([&(t1[0])]); BLAS
    libraries may return early when a factor is 0, which differs only for NaN and infinity. *)
From Coq Require Import ZArith List Bool Arith.
From Verif Require Import M_Num M_RK.
Import ListNotations.
Local Open Scope num_scope.

Section Mkl.
Context {N : Num} {I : Type}.
Variable sys : vec N I -> N -> vec N I.
Variable al : alias.

(** cblas_daxpy( n , a , &(s[0]) , 1 , &(d[0]) , 1 ), mkl_operations.hpp:65. *)
Definition daxpy (d : loc) (m : rkmem N I) (p : N * loc) : rkmem N I :=
  wr al m d (fun i => rd al m d i + fst p * rd al m (snd p) i).

(** scale_sum2 .. scale_sum5, mkl_operations.hpp:53-67, 83-99, 116-134, 154-173: copy the first
    operand unless it is the output ([&(t2[0]) != &(t1[0])]), scale it, add the others one by one.
    [None]: mkl_operations has no such operation, the program does not compile. *)
Definition mkl_sum (d : loc) (ts : list (N * loc)) (m : rkmem N I) : option (rkmem N I) :=
  if (2 <=? length ts)%nat && (length ts <=? 5)%nat then
    match ts with
    | [] => None
    | (a1, l1) :: r =>
        let m1 := if loc_eqb (resolve al l1) (resolve al d) then m else wr al m d (rd al m l1) in
        let m2 := wr al m1 d (fun i => a1 * rd al m1 d i) in
        Some (fold_left (daxpy d) r m2)
    end
  else None.

(** The body of a do_step_impl compiled with operations_type = mkl_operations. *)
(* Source: external/mkl/mkl_operations.hpp:39-175 for the sums, otherwise as M_RK.exec. *)
Fixpoint mkl_exec (p : list (instr N)) (m : rkmem N I) : option (rkmem N I * list (vec N I * N)) :=
  match p with
  | [] => Some (m, [])
  | i :: p' =>
      match (match i with
             | ISum d ts => match mkl_sum d ts m with Some m1 => Some (m1, []) | None => None end
             | _ => Some (exec1 sys al i m)
             end) with
      | None => None
      | Some (m1, c1) =>
          match mkl_exec p' m1 with
          | None => None
          | Some (m2, c2) => Some (m2, c1 ++ c2)
          end
      end
  end.
End Mkl.

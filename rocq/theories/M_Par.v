(** Splitting of containers over blocks and ranks, the parallel loops of the
    OpenMP algebras, and the maximum norms of all algebras.

    Source: util/split_adaptor.hpp:33-72, external/openmp/openmp_state.hpp:101-145,
    external/openmp/openmp_range_algebra.hpp:40-267,
    external/openmp/openmp_nested_algebra.hpp:42-272,
    external/mpi/mpi_vector_state.hpp:38-84, external/mpi/mpi_nested_algebra.hpp:36-53,
    algebra/detail/norm_inf.hpp:28-36, algebra/array_algebra.hpp:274-285,
    algebra/fusion_algebra.hpp:38-49,199-205,
    external/thrust/thrust_algebra.hpp:36-47,199-206,
    external/thrust/thrust_operations.hpp:49-66,204-223,
    external/compute/compute_operations.hpp:158-191. *)
From Coq Require Import List ZArith Bool Arith.
From Verif Require Import M_Num.
Import ListNotations.

(** ** Ranges *)

(** std::size_t arithmetic (64 bit), and the conversion of a std::size_t to
    std::ptrdiff_t done by [std::max<std::ptrdiff_t>] (two's complement). *)
(* Source: The integer types in util/split_adaptor.hpp:33-56. *)
Definition u64 (z : Z) : Z := (z mod 2 ^ 64)%Z.
(* Source: The integer types in util/split_adaptor.hpp:33-56. *)
Definition s64 (z : Z) : Z := if (z <? 2 ^ 63)%Z then z else (z - 2 ^ 64)%Z.

(** detail::split_offsets, util/split_adaptor.hpp:33-48.  [None]: one of the two
    BOOST_ASSERTs fails (with NDEBUG and [parts = 0]: division by zero). *)
Definition split_offsets (total index parts : Z) : option (Z * Z) :=
  if (parts <=? 0)%Z then None
  else if (parts <=? index)%Z then None
  else
    let slice := (total / parts)%Z in
    let partial := (total mod parts)%Z in
    let lo := Z.min index partial in
    let hi := u64 (Z.max 0 (s64 (u64 (index - partial)))) in
    let begin_offset := u64 (u64 (lo * u64 (slice + 1)) + u64 (hi * slice)) in
    let len := u64 (slice + (if (index <? partial)%Z then 1 else 0)) in
    Some (begin_offset, u64 (begin_offset + len)).

Section Containers.
Variable V : Type.

(** make_iterator_range( begin + b , begin + e ), util/split_adaptor.hpp:58-72;
    [None]: not a valid sub-range of the container. *)
Definition subrange (l : list V) (b e : nat) : option (list V) :=
  if (b <=? e) && (e <=? length l) then Some (firstn (e - b) (skipn b l)) else None.

(** make_split_range, util/split_adaptor.hpp:58-72. *)
Definition make_split_range (l : list V) (index parts : nat) : option (list V) :=
  match split_offsets (Z.of_nat (length l)) (Z.of_nat index) (Z.of_nat parts) with
  | Some (b, e) => subrange l (Z.to_nat b) (Z.to_nat e)
  | None => None
  end.

(** std::copy( src , out ) into a container, [out] at position [pos]; returns the
    container and the advanced iterator; [None]: writes past the end. *)
(* Source: std::copy (external) as used in external/openmp/openmp_state.hpp:107-145. *)
Definition copy_to (src dst : list V) (pos : nat) : option (list V * nat) :=
  if pos + length src <=? length dst
  then Some (firstn pos dst ++ src ++ skipn (pos + length src) dst, pos + length src)
  else None.

(** The copy loops of openmp_state.hpp:141-143 and mpi_vector_state.hpp:80-82. *)
Fixpoint copy_all (pieces : list (list V)) (dst : list V) (pos : nat) : option (list V) :=
  match pieces with
  | [] => Some dst
  | p :: r => match copy_to p dst pos with
              | Some (d, q) => copy_all r d q
              | None => None
              end
  end.

(** total_size, openmp_state.hpp:136-138 and mpi_vector_state.hpp:75-77. *)
Definition total_size (pieces : list (list V)) : nat :=
  fold_left (fun a p => a + length p) pieces 0.

(** One iteration of the loop in split_impl, openmp_state.hpp:114-123: the new
    content of block [i] of [p] blocks. *)
Definition omp_block (from : list V) (p i : nat) : option (list V) :=
  let part := length from / p in
  let b := i * part in
  let e := b + part in
  let e := if (i + 1 =? p) || (length from <? e) then length from else e in
  subrange from b e.

(* Source: Assignment to one block and a loop over blocks that may fail, external/openmp/openmp_state.hpp:107-125. *)
Definition set_nth {A} (l : list A) (i : nat) (a : A) : list A :=
  firstn i l ++ match skipn i l with [] => [] | _ :: r => a :: r end.

(** split_impl<Source,openmp_state>::split, openmp_state.hpp:107-125.  [threads]
    is omp_get_max_threads(), [order] the order in which the iterations of the
    parallel loop are carried out; [empty] is what [resize] puts into new blocks. *)
Definition omp_split (threads : nat) (order : list nat) (from : list V) (to : list (list V))
  : option (list (list V)) :=
  let to := if length to =? 0 then repeat [] threads else to in
  fold_left (fun acc i =>
      match acc with
      | Some t => match omp_block from (length to) i with
                  | Some b => Some (set_nth t i b)
                  | None => None
                  end
      | None => None
      end) order (Some to).

(** std::vector::resize; [d] is the value-initialised element. *)
(* Source: std::vector::resize (external) as used in external/openmp/openmp_state.hpp:130-145. *)
Definition vec_resize (d : V) (l : list V) (n : nat) : list V :=
  firstn n l ++ repeat d (n - length l).

(** unsplit_impl<openmp_state,Target>::unsplit, openmp_state.hpp:132-144. *)
Definition omp_unsplit (d : V) (from : list (list V)) (to : list V) : option (list V) :=
  copy_all from (vec_resize d to (total_size from)) 0.

(* Source: Assignment to one block and a loop over blocks that may fail, external/openmp/openmp_state.hpp:107-125. *)
Fixpoint sequence {A} (l : list (option A)) : option (list A) :=
  match l with
  | [] => Some []
  | None :: _ => None
  | Some a :: r => match sequence r with Some b => Some (a :: b) | None => None end
  end.

(** split_impl<Source,mpi_state>::split, mpi_vector_state.hpp:43-57: what the
    [num] ranks hold afterwards (scatter hands piece i to rank i). *)
Definition mpi_split (num : nat) (from : list V) : option (list (list V)) :=
  sequence (map (fun i => make_split_range from i num) (seq 0 num)).

(** unsplit_impl<mpi_state,Target>::unsplit, mpi_vector_state.hpp:68-84, on rank 0
    (gather collects the ranks' data in rank order); [None]: the assertion fails
    (with NDEBUG the copy writes past the end). *)
Definition mpi_unsplit (ranks : list (list V)) (to : list V) : option (list V) :=
  if total_size ranks <=? length to then copy_all ranks to 0 else None.

(** ** Loops over components *)

(** The operation handed to for_eachN is a sequence of assignments to its
    parameters.  A parameter is a reference to a component of a container
    ("buffer"); parameters may be bound to the same buffer.  An assignment reads
    the parameters [s_args] and writes [s_dst].  A local variable of
    the operation is a parameter bound to a buffer of its own.
    algebra/default_operations.hpp:40-591. *)
Record stmt := mkStmt { s_dst : nat ; s_args : list nat ; s_rhs : list V -> V }.

(** Memory: buffer, block, position inside the block. *)
(* Source: The containers of external/openmp/openmp_range_algebra.hpp and openmp_nested_algebra.hpp. *)
Definition col := (nat * nat)%type.
(* Source: The containers of external/openmp/openmp_range_algebra.hpp and openmp_nested_algebra.hpp. *)
Definition mem := nat -> col -> V.

(* Source: The containers of external/openmp/openmp_range_algebra.hpp and openmp_nested_algebra.hpp. *)
Definition col_eqb (a b : col) : bool := (fst a =? fst b) && (snd a =? snd b).

(** One assignment of the operation at component [c], parameters bound by [b]. *)
(* Source: operator() of the operations, algebra/default_operations.hpp, applied as in algebra/detail/for_each.hpp. *)
Definition run_stmt (b : nat -> nat) (cs : col * stmt) (m : mem) : mem :=
  let c := fst cs in
  let v := s_rhs (snd cs) (map (fun k => m (b k) c) (s_args (snd cs))) in
  fun k c' => if (k =? b (s_dst (snd cs))) && col_eqb c' c then v else m k c'.

(* Source: operator() of the operations, algebra/default_operations.hpp, applied as in algebra/detail/for_each.hpp. *)
Definition run_stmts (b : nat -> nat) (l : list (col * stmt)) (m : mem) : mem :=
  fold_left (fun m cs => run_stmt b cs m) l m.

(** range_algebra::for_eachN, algebra/range_algebra.hpp:34-133 and
    algebra/detail/for_each.hpp:27-…: op on component 0,1,…,len-1 of one range. *)
Definition range_loop (op : list stmt) (blk len : nat) : list (col * stmt) :=
  flat_map (fun j => map (pair (blk, j)) op) (seq 0 len).

(** Iteration [i] of the loop of openmp_range_algebra (op( beg0[i] , … )),
    openmp_range_algebra.hpp:40-51; the range is block 0. *)
Definition omp_iter (op : list stmt) (i : nat) : list (col * stmt) :=
  map (pair (0, i)) op.

(** Iteration [i] of the loop of openmp_nested_algebra<range_algebra>
    (InnerAlgebra::for_eachN( beg0[i] , … , op )), openmp_nested_algebra.hpp:42-56;
    [sizes i] is the length of block i. *)
Definition omp_nested_iter (op : list stmt) (sizes : nat -> nat) (i : nat) : list (col * stmt) :=
  range_loop op i (sizes i).

(** An execution of "#pragma omp parallel for": the assignments of the iterations
    0 … len-1 in any interleaving, tagged by the iteration they belong to; each
    iteration's own assignments stay in program order. *)
(* Source: "omp parallel for" in external/openmp/openmp_range_algebra.hpp. *)
Definition proj (i : nat) (tr : list (nat * (col * stmt))) : list (col * stmt) :=
  map snd (filter (fun x => fst x =? i) tr).

(* Source: "omp parallel for" in external/openmp/openmp_range_algebra.hpp. *)
Definition interleaving (len : nat) (iter : nat -> list (col * stmt))
           (tr : list (nat * (col * stmt))) : Prop :=
  forall i, proj i tr = if i <? len then iter i else [].
End Containers.
Arguments mkStmt {V}. Arguments s_dst {V}. Arguments s_args {V}. Arguments s_rhs {V}.

(** ** Norms *)
Section Norms.
Context {N : Num}.
Local Open Scope num_scope.

(** detail::norm_inf, algebra/detail/norm_inf.hpp:28-36 (range_algebra,
    multi_array_algebra), and array_algebra::norm_inf, array_algebra.hpp:274-285. *)
Definition seq_norm (init : N) (l : list N) : N :=
  fold_left (fun a x => nmax a (nabs x)) l init.
(* Source: algebra/range_algebra.hpp:129-133. *)
Definition range_norm (l : list N) : N := seq_norm (nofZ 0) l.

(** fusion_algebra::norm_inf, fusion_algebra.hpp:38-49,199-205. *)
Definition fusion_norm (l : list N) : N :=
  fold_left (fun t1 t2 => if nabs t1 <? nabs t2 then nabs t2 else nabs t1) l (nofZ 0).

(** "reduction(max: init)": every thread starts its private copy of [init] with
    the smallest value [low] of the type; at the end the copies and the original
    value are combined pairwise by "omp_out = omp_in > omp_out ? omp_in : omp_out"
    in an unspecified order.  [rtree]: the combination tree. *)
(* Source: The reduction in external/openmp/openmp_range_algebra.hpp:255-267. *)
Inductive rtree := RLeaf (v : N) | RNode (a b : rtree).
(* Source: The reduction in external/openmp/openmp_range_algebra.hpp:255-267. *)
Fixpoint rleaves (t : rtree) : list N :=
  match t with RLeaf v => [v] | RNode a b => rleaves a ++ rleaves b end.
(* Source: The reduction in external/openmp/openmp_range_algebra.hpp:255-267. *)
Fixpoint rcombine (t : rtree) : N :=
  match t with RLeaf v => v | RNode a b => nmax (rcombine a) (rcombine b) end.

(** openmp_range_algebra::norm_inf, openmp_range_algebra.hpp:254-267: the
    private results of threads that were given the components in [parts]. *)
Definition omp_private (low : N) (parts : list (list N)) : list N :=
  map (seq_norm low) parts.

(** openmp_nested_algebra::norm_inf, openmp_nested_algebra.hpp:259-272: a thread
    is given blocks. *)
Definition omp_nested_private (low : N) (parts : list (list (list N))) : list N :=
  map (fun blocks => fold_left (fun a b => nmax a (range_norm b)) blocks low) parts.

(** mpi_nested_algebra::norm_inf, mpi_nested_algebra.hpp:45-53: the values the
    ranks contribute to all_reduce with boost::mpi::maximum, x < y ? y : x. *)
Definition mpi_local (ranks : list (list N)) : list N := map range_norm ranks.

(** thrust_algebra: detail::maximum and norm_inf, thrust_algebra.hpp:36-47,199-206
    (thrust::reduce, here in left-to-right order). *)
Definition thrust_maximum (t1 t2 : N) : N := if nabs t1 <? nabs t2 then t2 else t1.
(* Source: external/thrust/thrust_algebra.hpp:200-206. *)
Definition thrust_norm (l : list N) : N := fold_left thrust_maximum l (nofZ 0).

(** thrust_operations::rel_error, thrust_operations.hpp:204-223, and
    compute_operations::rel_error, compute_operations.hpp:158-191: the closing
    parenthesis of the first [abs] stands after the second summand. *)
Definition thrust_rel_error (ea er ax adx : N) (e x dx : N) : N :=
  nabs e / (ea + er * (ax * nabs (x + adx * nabs dx))).

(** default_operations::scale_sum_swap2, default_operations.hpp:406-423, and
    thrust_operations::scale_sum_swap2, thrust_operations.hpp:49-66, as
    assignments to t1 (0), t2 (1), with t3 (2) and the variable tmp (3). *)
Definition scale_sum_swap2_op (a1 a2 : N) : list (stmt N) :=
  [ mkStmt 3 [0%nat] (fun v => nth 0 v (nofZ 0))
  ; mkStmt 0 [1%nat; 2%nat] (fun v => a1 * nth 0 v (nofZ 0) + a2 * nth 1 v (nofZ 0))
  ; mkStmt 1 [3%nat] (fun v => nth 0 v (nofZ 0)) ].

(** In default_operations [tmp] is an object of type T1, a buffer of its own;
    in thrust_operations its type is tuple_element<0,Tuple>, and the element
    types of the tuple a zip_iterator yields are references: [tmp] IS t1. *)
(* Source: algebra/default_operations.hpp:407-423. *)
Definition swap_local (k : nat) : nat := k.
(* Source: external/thrust/thrust_operations.hpp:62-64. *)
Definition swap_thrust (k : nat) : nat := if (k =? 3)%nat then 0 else k.
End Norms.

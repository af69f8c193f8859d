(** gsl_vector* as state type: iterators and the owning state_wrapper.

    Source: external/gsl/gsl_wrapper.hpp:36-220.  gsl_vector_alloc, gsl_vector_free and
    gsl_vector_memcpy are external; the heap below is their usual meaning. *)
From Coq Require Import List Bool Arith.
From Verif Require Import M_Run M_Midpoint.
Import ListNotations.
Local Open Scope res_scope.

Section Gsl.
Variable V : Type.
Variable junk : V.                              (* content of fresh memory *)

(** ** Iterators *)

(** A gsl_vector that views every [stride]-th element of a block; gsl_wrapper.hpp:44 reads data
    and stride, 97-109 also size. *)
Record gvec := mkGvec { g_block : list V; g_data : nat; g_size : nat; g_stride : nat }.

(** (m_p, m_stride), gsl_wrapper.hpp:59-60; the pointer as an offset into the block. *)
Definition giter : Type := nat * nat.
(** gsl_wrapper.hpp:44. *)
Definition g_begin (g : gvec) : giter := (g_data g, g_stride g).
(** end_iterator, gsl_wrapper.hpp:97-109. *)
Definition g_end (g : gvec) : giter := (g_data g + g_stride g * g_size g, g_stride g).
(** increment, advance, equal, dereference, gsl_wrapper.hpp:52-57; reading outside the block is
    undefined behaviour. *)
Definition g_incr (i : giter) : giter := (fst i + snd i, snd i).
(* Source: external/gsl/gsl_wrapper.hpp:54, for n >= 0. *)
Definition g_advance (i : giter) (n : nat) : giter := (fst i + n * snd i, snd i).
(* Source: external/gsl/gsl_wrapper.hpp:55. *)
Definition g_equal (i j : giter) : bool := fst i =? fst j.
(* Source: external/gsl/gsl_wrapper.hpp:57. *)
Definition g_deref (g : gvec) (i : giter) : res V := vget (g_block g) (fst i).

(** for( ; first != last ; ++first ) op( *first ), the loops of algebra/detail/for_each.hpp:27-33:
    the elements op is applied to, in order.  [fuel] bounds the number of rounds. *)
Fixpoint g_loop (fuel : nat) (g : gvec) (first last : giter) : res (list V) :=
  if g_equal first last then Ok []
  else match fuel with
       | O => Fuel
       | S fuel' =>
           let! v := g_deref g first in
           let! r := g_loop fuel' g (g_incr first) last in
           Ok (v :: r)
       end.

(** ** state_wrapper< gsl_vector* > *)

(** The heap: for every address the vector stored there, [None] when free. *)
(* Source: gsl_vector_alloc and gsl_vector_free (external), external/gsl/gsl_wrapper.hpp:189-217. *)
Record gheap := mkHeap { h_next : nat; h_at : nat -> option (list V) }.
(** The member m_v: [None] is an indeterminate pointer (the copy constructor, 208-212, has no
    initialiser for it). *)
Definition gptr := option nat.

(* Source: assignment to one address; gsl (external). *)
Definition h_set (h : gheap) (a : nat) (b : option (list V)) : gheap :=
  mkHeap (h_next h) (fun a' => if a =? a' then b else h_at h a').

(** gsl_vector_alloc( n ): a fresh address, indeterminate contents. *)
(* Source: gsl_vector_alloc (external) as called in external/gsl/gsl_wrapper.hpp:190,205. *)
Definition g_alloc (n : nat) (h : gheap) : gptr * gheap :=
  (Some (h_next h), mkHeap (S (h_next h)) (fun a' => if h_next h =? a' then Some (repeat junk n) else h_at h a')).
(** gsl_vector_free( p ): undefined for a pointer that is indeterminate or does not point to a live
    vector. *)
(* Source: gsl_vector_free (external) as called in external/gsl/gsl_wrapper.hpp:189,217. *)
Definition g_free (p : gptr) (h : gheap) : res gheap :=
  match p with
  | None => UB
  | Some a => match h_at h a with Some _ => Ok (h_set h a None) | None => UB end
  end.
(** *p *)
(* Source: dereferencing a gsl_vector pointer, external/gsl/gsl_wrapper.hpp:180,190,211. *)
Definition g_read (p : gptr) (h : gheap) : res (list V) :=
  match p with
  | None => UB
  | Some a => match h_at h a with Some l => Ok l | None => UB end
  end.

(** same_size, gsl_wrapper.hpp:178-181. *)
Definition g_same_size (x y : gptr) (h : gheap) : res bool :=
  let! a := g_read x h in let! b := g_read y h in Ok (length a =? length b).
(** resize( x , y ), gsl_wrapper.hpp:187-191: the new pointer and the heap. *)
Definition g_resize (x y : gptr) (h : gheap) : res (gptr * gheap) :=
  let! h1 := g_free x h in
  let! b := g_read y h1 in
  Ok (g_alloc (length b) h1).
(** gsl_vector_memcpy( x , y ); it reports an error for different lengths. *)
(* Source: gsl_vector_memcpy (external) as called in external/gsl/gsl_wrapper.hpp:211. *)
Definition g_memcpy (x y : gptr) (h : gheap) : res gheap :=
  let! a := g_read x h in
  let! b := g_read y h in
  match x with
  | Some p => if length a =? length b then Ok (h_set h p (Some b)) else Ok h
  | None => UB
  end.

(** The special members of state_wrapper< gsl_vector* >, gsl_wrapper.hpp:203-218. *)
Definition w_default (h : gheap) : gptr * gheap := g_alloc 1 h.
(* Source: external/gsl/gsl_wrapper.hpp:208-212. *)
Definition w_copy (x : gptr) (h : gheap) : res (gptr * gheap) :=
  let! r := g_resize None x h in
  let! h2 := g_memcpy (fst r) x (snd r) in
  Ok (fst r, h2).
(** The implicit copy assignment: copies the pointer. *)
(* Source: external/gsl/gsl_wrapper.hpp:195-220 declares none, so it is generated. *)
Definition w_assign (w x : gptr) : gptr := x.
(* Source: external/gsl/gsl_wrapper.hpp:215-218. *)
Definition w_destroy (w : gptr) (h : gheap) : res gheap := g_free w h.
(** adjust_size_by_resizeability( w , x ), util/resizer.hpp:29-40. *)
Definition w_adjust (w x : gptr) (h : gheap) : res (bool * gptr * gheap) :=
  let! s := g_same_size w x h in
  if s then Ok (false, w, h)
  else let! r := g_resize w x h in Ok (true, fst r, snd r).
End Gsl.
Arguments gvec V : clear implicits. Arguments gheap V : clear implicits.
Arguments mkGvec {V}. Arguments g_block {V}. Arguments g_data {V}. Arguments g_size {V}. Arguments g_stride {V}.
Arguments g_begin {V}. Arguments g_end {V}. Arguments g_deref {V}. Arguments g_loop {V}.
Arguments mkHeap {V}. Arguments h_next {V}. Arguments h_at {V}. Arguments h_set {V}. Arguments g_alloc {V}.
Arguments g_free {V}. Arguments g_read {V}. Arguments g_same_size {V}. Arguments g_resize {V}.
Arguments g_memcpy {V}. Arguments w_default {V}. Arguments w_copy {V}. Arguments w_destroy {V}. Arguments w_adjust {V}.

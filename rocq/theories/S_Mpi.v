(** Specification: parts of a container, and what a distributed run has to compute. *)
From Coq Require Import List Arith Permutation.
From Verif Require Import M_Num M_Par M_RK M_CtrlRK.
Import ListNotations.

(** Rank [r] holds the components [(r,0)], ..., [(r, sz r - 1)]; the container in the order of the
    ranks. *)
Definition parts_idx (np : nat) (sz : nat -> nat) : list (nat * nat) :=
  concat (map (fun r => map (pair r) (seq 0 (sz r))) (seq 0 np)).

(** [v] is rank [r]'s part of [V]. *)
Definition part_of {N : Num} (sz : nat -> nat) (r : nat) (v : vec N nat) (V : vec N (nat * nat)) : Prop :=
  forall j, j < sz r -> v j = V (r, j).

(** The system function of the ranks computes the parts of what [sys] computes, if the ranks call
    it with the parts of one state and one time. *)
Definition distributes {N : Num} (np : nat) (sz : nat -> nat)
  (dsys : (nat -> vec N nat) -> (nat -> N) -> nat -> vec N nat)
  (sys : vec N (nat * nat) -> N -> vec N (nat * nat)) : Prop :=
  forall X T V t, (forall r, r < np -> T r = t /\ part_of sz r (X r) V) ->
  forall r, r < np -> part_of sz r (dsys X T r) (sys V t).

(** A reduction in some order: a tree over the given values. *)
Definition reduces {N : Num} (red : list N -> N) : Prop :=
  forall l, l <> [] -> exists t, Permutation (rleaves t) l /\ red l = rcombine t.

(** The buffers of the ranks' controllers are the parts of the buffers of [C]. *)
Definition ck_part {N : Num} (sz : nat -> nat) (r : nat)
  (c : ck N nat (rkmem N nat)) (C : ck N (nat * nat) (rkmem N (nat * nat))) : Prop :=
  (forall l, part_of sz r (ck_st c l) (ck_st C l)) /\ part_of sz r (ck_dxdt c) (ck_dxdt C) /\
  part_of sz r (ck_xerr c) (ck_xerr C) /\ part_of sz r (ck_xnew c) (ck_xnew C).

(** The buffers of the ranks' controllers are the parts of those of [C], the flags agree. *)
Definition ckf_part {N : Num} (sz : nat -> nat) (r : nat)
  (c : ckf N nat (rkmem N nat)) (C : ckf N (nat * nat) (rkmem N (nat * nat))) : Prop :=
  (forall l, part_of sz r (cf_st c l) (cf_st C l)) /\ part_of sz r (cf_dxdt c) (cf_dxdt C) /\
  part_of sz r (cf_xerr c) (cf_xerr C) /\ part_of sz r (cf_xnew c) (cf_xnew C) /\
  part_of sz r (cf_dxdtnew c) (cf_dxdtnew C) /\ cf_first c = cf_first C.

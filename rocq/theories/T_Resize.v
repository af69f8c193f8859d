(** Theorems C57, C58: sizes of internal buffers. *)
From Coq Require Import List Bool Arith Lia QArith.
From Verif Require Import M_Num M_RK M_Resize P_Resize X_Inst.
Import ListNotations.
Local Open Scope nat_scope.

(** ** C57 *)
(** always_resizer: whatever the stepper was used for before and whatever the
    sizes of the states, no step leaves its buffers, and after a step m_dxdt and
    all temporaries have the size of the state. *)
Theorem C57_always : forall (N : Num) name (t dt : N) ns st,
  exists st', run_sizes always_resizer name t dt st ns = Some st' /\
    (forall n ns', ns = ns' ++ [n] ->
       ss_size st' LDx = n /\ (forall l, In l (rk_temps name) -> ss_size st' l = n)).
Proof.
  intros N name t dt ns st. destruct (run_always N name t dt ns st) as (st' & E & F).
  exists st'. split; [exact E|]. intros n ns' H. specialize (F n ns' H).
  unfold fits, own in F. inversion F as [|? ? F1 F2]. split; [exact F1|].
  now apply Forall_forall.
Qed.
Print Assumptions C57_always.

(** initially_resizer: fine as long as the size stays the same. *)
Theorem C57_initially : forall (N : Num) name (t dt : N) n ns,
  Forall (eq n) ns -> exists st', run_sizes initially_resizer name t dt fresh ns = Some st'.
Proof.
  intros N name t dt n ns H. apply run_ready with (n := n); [exact H|].
  cbn. split; now left.
Qed.
Print Assumptions C57_initially.

(** Any resizer, after adjust_size(x) was called by hand. *)
Theorem C57_adjust_size : forall (N : Num) r name (t dt : N) n ns st,
  Forall (eq n) ns -> exists st', run_sizes r name t dt (adjust_size name n st) ns = Some st'.
Proof.
  intros N r name t dt n ns st H. apply run_ready with (n := n); [exact H|].
  apply adjust_size_ready.
Qed.
Print Assumptions C57_adjust_size.

Example C57_example :
  (exists st, run_sizes (N := Q0) always_resizer rk_f78 0%Q 1%Q fresh [3; 7; 0; 5] = Some st /\
              ss_size st (LK 11) = 5) /\
  (exists st, run_sizes (N := Q0) initially_resizer rk_ck54 0%Q 1%Q fresh [3; 3; 3] = Some st) /\
  run_sizes (N := Q0) never_resizer rk_rk4 0%Q 1%Q fresh [3] = None.
Proof. split; [|split]; [eexists; split| eexists |]; vm_compute; reflexivity. Qed.

(** ** C58 *)
(** With initially_resizer (the default) EVERY stepper leaves its buffers when a
    larger state follows a smaller one … *)
Theorem C58_larger : forall (N : Num) name (t dt : N) n1 n2,
  n1 < n2 -> run_sizes initially_resizer name t dt fresh [n1; n2] = None.
Proof.
  intros N name t dt n1 n2 H. cbn [run_sizes].
  destruct (step_ready N initially_resizer name t dt fresh n1) as (st' & E & F & _).
  { cbn. split; now left. }
  rewrite E. destruct (first_step_flags N name t dt n1 st' E) as (A & B & C).
  destruct (step_initialized N name t dt st' n1 n2 F A B C) as [G _]. now rewrite G.
Qed.
Print Assumptions C58_larger.

(** … and all but euler also when a smaller state follows a larger one: the first
    stage runs over the size of m_x_tmp and reads x beyond its end. *)
Theorem C58_smaller : forall (N : Num) name (t dt : N) n1 n2,
  name <> rk_euler -> n2 < n1 -> run_sizes initially_resizer name t dt fresh [n1; n2] = None.
Proof.
  intros N name t dt n1 n2 Hn H. cbn [run_sizes].
  destruct (step_ready N initially_resizer name t dt fresh n1) as (st' & E & F & _).
  { cbn. split; now left. }
  rewrite E. destruct (first_step_flags N name t dt n1 st' E) as (A & B & C).
  destruct (step_initialized N name t dt st' n1 n2 F A B C) as (_ & G & _). now rewrite G.
Qed.
Print Assumptions C58_smaller.

Theorem C58_refuted : exists n1 n2, n1 < n2 /\
  run_sizes (N := Q0) initially_resizer rk_rk4 0%Q 1%Q fresh [n1; n2] = None.
Proof. exists 1, 2. split; [lia|]. vm_compute. reflexivity. Qed.
Print Assumptions C58_refuted.

(** euler can be used on a smaller state. *)
Example C58_example :
  (exists st, run_sizes (N := Q0) initially_resizer rk_euler 0%Q 1%Q fresh [3; 2] = Some st) /\
  run_sizes (N := Q0) initially_resizer rk_dopri5 0%Q 1%Q fresh [3; 2] = None /\
  run_sizes (N := Q0) initially_resizer rk_dopri5 0%Q 1%Q fresh [2; 3] = None.
Proof. split; [eexists|split]; vm_compute; reflexivity. Qed.

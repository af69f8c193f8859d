(** Proofs about the plain-stepper drivers, law-free part. *)
From Coq Require Import List Arith ZArith Lia.
From Verif Require Import M_Num M_Sign M_Run M_Plain S_Grid P_Run.
Import ListNotations.
Local Open Scope num_scope.
Local Open Scope run_scope.

Section Plain.
Context {N : Num} {S W X : Type}.
Notation V := (ev X (carrier N)).
Variable obs     : W -> X -> N -> M V W.
Variable do_step : S -> W -> X -> N -> N -> M V (S * W * X).

(** Schedule of the grid from index i on. *)
Definition sched_from (t0 dt : N) (i n : nat) : list (cmd N) :=
  flat_map (fun k => [CObs (grid t0 dt k); CStep (grid t0 dt k) dt]) (seq i n)
  ++ [CObs (grid t0 dt (i + n))].

Lemma ins_loop_exec t0 dt : forall todo step s w x,
  ins_loop obs do_step t0 dt todo step s w x (grid t0 dt step) =
  let* (s1, w1, x1) := exec obs do_step (sched_from t0 dt step todo) s w x in
  ret (s1, w1, x1, grid t0 dt (step + todo)).
Proof.
  induction todo as [|todo IH]; intros step s w x; unfold sched_from; simpl.
  - rewrite Nat.add_0_r, bind_assoc. apply bind_ext. intros w1. now rewrite bind_ret_l.
  - rewrite bind_assoc. apply bind_ext. intros w1.
    rewrite bind_assoc. apply bind_ext. intros [[s2 w2] x2].
    change (t0 + nofnat (Datatypes.S step) * dt) with (grid t0 dt (Datatypes.S step)).
    rewrite IH. unfold sched_from.
    now replace (Datatypes.S step + todo)%nat with (step + Datatypes.S todo)%nat by lia.
Qed.

Lemma integrate_n_steps_exec s w x t0 dt n :
  integrate_n_steps obs do_step s w x t0 dt n =
  let* (s1, w1, x1) := exec obs do_step (grid_schedule t0 dt n) s w x in
  ret (s1, w1, x1, grid t0 dt n).
Proof. apply (ins_loop_exec t0 dt n 0). Qed.

Lemma ic_loop_exec t0 tend dt : forall n fuel step s w x,
  (forall k, (step <= k < step + n)%nat -> less_eq_with_sign (grid t0 dt k + dt) tend dt = true) ->
  less_eq_with_sign (grid t0 dt (step + n) + dt) tend dt = false ->
  (n < fuel)%nat ->
  ic_loop obs do_step fuel t0 tend dt step s w x (grid t0 dt step) =
  let* (s1, w1, x1) := exec obs do_step (sched_from t0 dt step n) s w x in
  ret (s1, w1, x1, (step + n)%nat).
Proof.
  induction n as [|n IH]; intros fuel step s w x Ht Hf Hfuel;
    (destruct fuel as [|fuel]; [lia|]); unfold sched_from; simpl.
  - rewrite Nat.add_0_r in Hf. rewrite Hf, Nat.add_0_r, bind_assoc.
    apply bind_ext. intros w1. now rewrite bind_ret_l.
  - rewrite (Ht step) by lia. rewrite bind_assoc. apply bind_ext. intros w1.
    rewrite bind_assoc. apply bind_ext. intros [[s2 w2] x2].
    change (t0 + nofnat (Datatypes.S step) * dt) with (grid t0 dt (Datatypes.S step)).
    replace (step + Datatypes.S n)%nat with (Datatypes.S step + n)%nat in * by lia.
    rewrite IH; [reflexivity | intros; apply Ht; lia | exact Hf | lia].
Qed.

Lemma integrate_const_exec fuel s w x t0 tend dt n :
  first_false (fun k => less_eq_with_sign (grid t0 dt k + dt) tend dt) n ->
  (n < fuel)%nat ->
  integrate_const obs do_step fuel s w x t0 tend dt =
  let* (s1, w1, x1) := exec obs do_step (grid_schedule t0 dt n) s w x in
  ret (s1, w1, x1, n).
Proof.
  intros [H1 H2] Hf. apply (ic_loop_exec t0 tend dt n fuel 0); auto.
  intros; apply H1; lia.
Qed.

Lemma ic_loop_ok_inv t0 tend dt : forall fuel step s w x time tr r m,
  time = grid t0 dt step ->
  ic_loop obs do_step fuel t0 tend dt step s w x time = (tr, Ok (r, m)) ->
  (step <= m)%nat /\ (m < step + fuel)%nat /\
  (forall k, (step <= k < m)%nat -> less_eq_with_sign (grid t0 dt k + dt) tend dt = true) /\
  less_eq_with_sign (grid t0 dt m + dt) tend dt = false.
Proof.
  induction fuel as [|fuel IH]; intros step s w x time tr r m -> H; simpl in H; [discriminate|].
  destruct (less_eq_with_sign (grid t0 dt step + dt) tend dt) eqn:E.
  - apply bind_ok_inv in H as (tr1 & w1 & tr2 & _ & H & _).
    apply bind_ok_inv in H as (tr3 & [[s2 w2] x2] & tr4 & _ & H & _).
    apply IH in H; [|reflexivity]. destruct H as (H1 & H2 & H3 & H4).
    repeat split; auto; try lia. intros k Hk.
    destruct (Nat.eq_dec k step) as [->|]; auto. apply H3. lia.
  - apply bind_ok_inv in H as (tr1 & w1 & tr2 & _ & H & _).
    injection H as _ _ <-. repeat split; auto; try lia.
Qed.

Lemma integrate_const_ok_inv fuel s w x t0 tend dt tr r m :
  integrate_const obs do_step fuel s w x t0 tend dt = (tr, Ok (r, m)) ->
  first_false (fun k => less_eq_with_sign (grid t0 dt k + dt) tend dt) m /\ (m < fuel)%nat.
Proof.
  intros H. apply ic_loop_ok_inv in H; [|reflexivity].
  destruct H as (H1 & H2 & H3 & H4). split; [split|]; auto. intros k Hk. apply H3. lia.
Qed.
End Plain.

(** Pure steppers: closed form of the schedule's effects. *)
Section Pure.
Context {N : Num} {S W X : Type}.
Variable f : S -> X -> N -> N -> S * X.

Notation pexec := (exec (W := W) rec_obs (plain_step f)).

Definition x_at t0 dt s x k := snd (after f t0 dt s x k).

Lemma exec_grid_pure t0 dt s x w : forall n,
  pexec (flat_map (fun k => [CObs (grid t0 dt k); CStep (grid t0 dt k) dt]) (seq 0 n)) s w x =
  (flat_map (fun k => [EObs (snd (after f t0 dt s x k)) (grid t0 dt k);
                       EStep (snd (after f t0 dt s x k)) (grid t0 dt k) dt]) (seq 0 n),
   Ok (fst (after f t0 dt s x n), w, snd (after f t0 dt s x n))).
Proof.
  induction n as [|n IH]; [reflexivity|].
  rewrite seq_S, !flat_map_app, exec_app, IH. simpl.
  destruct (after f t0 dt s x n) as [s' x'] eqn:E. simpl. unfold plain_step.
  destruct (f s' x' (grid t0 dt n) dt) as [s2 x2] eqn:E2. simpl.
  unfold bind, rec_obs, ret. rewrite E2. reflexivity.
Qed.

Lemma exec_schedule_pure t0 dt s x w n :
  pexec (grid_schedule t0 dt n) s w x =
  (flat_map (fun k => [EObs (snd (after f t0 dt s x k)) (grid t0 dt k);
                       EStep (snd (after f t0 dt s x k)) (grid t0 dt k) dt]) (seq 0 n)
   ++ [EObs (snd (after f t0 dt s x n)) (grid t0 dt n)],
   Ok (fst (after f t0 dt s x n), w, snd (after f t0 dt s x n))).
Proof. unfold grid_schedule. rewrite exec_app, exec_grid_pure. reflexivity. Qed.

Lemma schedule_obs t0 dt s x n :
  obs_of (flat_map (fun k => [EObs (snd (after f t0 dt s x k)) (grid t0 dt k);
                       EStep (snd (after f t0 dt s x k)) (grid t0 dt k) dt]) (seq 0 n)
   ++ [EObs (snd (after f t0 dt s x n)) (grid t0 dt n)])
  = map (fun k => (snd (after f t0 dt s x k), grid t0 dt k)) (seq 0 (Datatypes.S n)).
Proof.
  rewrite obs_of_app, seq_S, map_app. f_equal.
  induction (seq 0 n); [reflexivity|]. simpl. now f_equal.
Qed.

Lemma schedule_steps t0 dt s x n :
  steps_of (flat_map (fun k => [EObs (snd (after f t0 dt s x k)) (grid t0 dt k);
                       EStep (snd (after f t0 dt s x k)) (grid t0 dt k) dt]) (seq 0 n)
   ++ [EObs (snd (after f t0 dt s x n)) (grid t0 dt n)])
  = map (fun k => (snd (after f t0 dt s x k), grid t0 dt k, dt)) (seq 0 n).
Proof.
  rewrite steps_of_app. simpl. rewrite app_nil_r.
  induction (seq 0 n); [reflexivity|]. simpl. now f_equal.
Qed.
End Pure.

(** Proofs about the plain-stepper drivers over the reals. *)
From Coq Require Import List Arith ZArith Reals Lia Lra.
From Verif Require Import M_Num M_Sign M_Run M_Plain S_Grid S_Real P_Run P_Plain P_R.
Import ListNotations.
Local Open Scope R_scope.

Section C.
Variable eps : R.
Notation N := (RNum eps).

(** The number of whole steps that fit (integrate_const's loop count). *)
Lemma const_count t0 tend dt : dt <> 0 ->
  exists n, first_false (fun k => @less_eq_with_sign N (@grid N t0 dt k + dt) tend dt) n.
Proof.
  intros Hdt.
  destruct (INR_archimed (Rabs dt) (eps + dir dt * (tend - t0))) as [k Hk].
  { now apply Rabs_pos_lt. }
  destruct (first_false_exists
     (fun k => @less_eq_with_sign N (@grid N t0 dt k + dt) tend dt) k) as (n & _ & Hn); eauto.
  apply leq_R_false. rewrite grid_R. rnum.
  replace (dir dt * (t0 + INR k * dt + dt - tend))
    with (INR k * (dir dt * dt) + dir dt * dt - dir dt * (tend - t0)) by ring.
  rewrite dir_abs. pose proof (Rabs_pos dt). lra.
Qed.

Lemma const_count_before t0 tend dt n k :
  first_false (fun k => @less_eq_with_sign N (@grid N t0 dt k + dt) tend dt) n ->
  (1 <= k <= n)%nat -> dir dt * (t0 + INR k * dt - tend) <= eps.
Proof.
  intros [H _] Hk. specialize (H (k - 1)%nat ltac:(lia)). apply leq_R in H.
  rewrite grid_R in H. rnum. replace (INR k) with (INR (k - 1) + 1); [lra|].
  rewrite <- S_INR. f_equal. lia.
Qed.

Lemma const_count_last t0 tend dt n :
  first_false (fun k => @less_eq_with_sign N (@grid N t0 dt k + dt) tend dt) n ->
  dir dt * (tend - (t0 + INR n * dt)) < Rabs dt - eps.
Proof.
  intros [_ H]. apply leq_R_false in H. rewrite grid_R in H. rnum.
  rewrite <- dir_abs. lra.
Qed.
End C.

(** chain lemmas *)
Lemma chain_app a l1 b l2 c : chain a l1 b -> chain b l2 c -> chain a (l1 ++ l2) c.
Proof.
  revert a. induction l1 as [|[t d] l1 IH]; simpl; intros a H1 H2.
  - now subst.
  - destruct H1 as [-> H1]. split; auto.
Qed.

Lemma chain_grid t0 dt n :
  chain t0 (map (fun k => (t0 + INR k * dt, dt)) (seq 0 n)) (t0 + INR n * dt).
Proof.
  induction n as [|n IH]; [simpl; lra|].
  rewrite seq_S, map_app. eapply chain_app; [exact IH|]. simpl map.
  change (chain (t0 + INR n * dt) [(t0 + INR n * dt, dt)] (t0 + INR (S n) * dt)).
  cbn [chain]. split; auto. rewrite S_INR. lra.
Qed.

(** integrate_times *)
From Verif Require Import S_Times.

Section Times.
Variable eps : R.
Hypothesis Heps : 0 <= eps.
Notation N := (RNum eps).
Context {S W X : Type}.
Notation V := (ev X R).
Variable obs     : W -> X -> R -> M V W.
Variable do_step : S -> W -> X -> R -> R -> M V (S * W * X).
Local Open Scope run_scope.

Notation steps_cmd l := (map (fun td : R * R => CStep (fst td) (snd td)) l).

Lemma it_inner_R dt target : dt <> 0 -> forall m fuel cur cdt,
  (m < fuel)%nat -> dir cdt = dir dt ->
  0 <= dir dt * (target - cur) <= INR m * Rabs dt ->
  exists l b cdt',
    chain cur l b /\ 0 <= dir dt * (target - b) <= eps /\ good_widths dt l /\ dir cdt' = dir dt /\
    forall s w x steps,
    @it_inner N S W X do_step fuel dt target s w x cur cdt steps =
      (let* (s1, w1, x1) := @exec N S W X obs do_step (steps_cmd l) s w x in
       ret (s1, w1, x1, cdt', (steps + length l)%nat)).
Proof.
  intros Hdt.
  assert (Habs : 0 < Rabs dt) by now apply Rabs_pos_lt.
  induction m as [|m IH]; intros fuel cur cdt Hf Hdir [Hlo Hhi];
   (destruct fuel as [|fuel]; [lia|]); cbn [it_inner];
   destruct (@less_with_sign N cur target cdt) eqn:E;
   try (apply less_R_false in E; rewrite Hdir in E;
    exists [], cur, cdt; repeat split; auto; [constructor|];
    intros; simpl; rewrite bind_ret_l, Nat.add_0_r; reflexivity);
   apply less_R in E; rewrite Hdir in E.
  - simpl in Hhi. lra.
  - assert (Hd : 0 < dir dt * (target - cur)) by lra.
    destruct (min_abs_R eps dt (target - cur) Hdt Hd) as [Hm Hc].
    rnum. set (c := @min_abs N dt (target - cur)%R) in *.
    assert (Hcpos : 0 < dir dt * c).
    { rewrite Hm. unfold Rmin. destruct (Rle_dec _ _); lra. }
    destruct (IH fuel (cur + c) c) as (l & b & cdt' & H1 & H2 & H3 & H4 & H5); try lia.
    { now apply dir_eq_of_pos. }
    { replace (dir dt * (target - (cur + c))) with (dir dt * (target - cur) - dir dt * c) by ring.
      rewrite S_INR in Hhi. rewrite Hm. unfold Rmin. destruct (Rle_dec _ _); [lra|].
      pose proof (pos_INR m). split; [lra|]. assert (0 <= INR m * Rabs dt) by (apply Rmult_le_pos; lra). lra. }
    exists ((cur, c) :: l), b, cdt'. repeat split; auto; try lra.
    + constructor; auto. simpl. split; auto.
      rewrite <- (dir_abs c), (dir_eq_of_pos dt c Hcpos), Hm. apply Rmin_l.
    + intros s w x steps. cbn [map exec fst snd]. rewrite bind_assoc. apply bind_ext.
      intros [[s1 w1] x1]. rewrite H5. cbn [length].
      now replace (Datatypes.S steps + length l)%nat with (steps + Datatypes.S (length l))%nat by lia.
Qed.

Lemma count_steps_app {T} (a b : list (cmd T)) : count_steps (a ++ b) = (count_steps a + count_steps b)%nat.
Proof. induction a as [|[] a IH]; simpl; auto. Qed.
Lemma count_steps_map l : count_steps (steps_cmd l) = length l.
Proof. induction l; simpl; auto. Qed.

Lemma it_outer_cons fuel dt t t' rest s w x cdt steps :
  @it_outer N S W X obs do_step fuel dt (t :: t' :: rest) s w x cdt steps =
  (let* w1 := obs w x t in
   let* (s2, w2, x2, cdt2, steps2) := @it_inner N S W X do_step fuel dt t' s w1 x t cdt steps in
   @it_outer N S W X obs do_step fuel dt (t' :: rest) s2 w2 x2 cdt2 steps2).
Proof. reflexivity. Qed.

Lemma it_outer_R dt : dt <> 0 -> forall times, times <> [] -> monotone (dir dt) times ->
  exists F, forall fuel cdt, (F <= fuel)%nat -> dir cdt = dir dt ->
  exists cs, times_schedule eps dt times cs /\
    forall s w x steps,
    @it_outer N S W X obs do_step fuel dt times s w x cdt steps =
    (let* (s1, w1, x1) := @exec N S W X obs do_step cs s w x in
     ret (s1, w1, x1, (steps + count_steps cs)%nat)).
Proof.
  intros Hdt times. induction times as [|t times IH]; intros Hne Hmon; [easy|].
  destruct times as [|t' rest].
  - exists O. intros fuel cdt _ _. exists [CObs t]. split; [constructor|].
    intros s w x steps. cbn [it_outer exec count_steps]. rewrite bind_assoc, Nat.add_0_r.
    apply bind_ext. intros w1. now rewrite bind_ret_l.
  - destruct Hmon as [Htt Hmon].
    destruct IH as [F HF]; [easy|exact Hmon|].
    destruct (INR_archimed (Rabs dt) (dir dt * (t' - t))) as [m Hm]; [now apply Rabs_pos_lt|].
    exists (Nat.max F (Datatypes.S m)). intros fuel cdt Hfuel Hdir.
    destruct (it_inner_R dt t' Hdt m fuel t cdt) as (l & b & cdt' & H1 & H2 & H3 & H4 & H5);
      [lia|auto|lra|].
    destruct (HF fuel cdt') as (cs & Hcs & Hrun); [lia|auto|].
    eexists. split; [eapply ts_cons; eauto|].
    intros s w x steps. rewrite it_outer_cons. cbn [exec]. rewrite bind_assoc. apply bind_ext. intros w1.
    rewrite H5, (@exec_app N S W X), !bind_assoc.
    apply bind_ext. intros [[s1 w1'] x1]. rewrite bind_ret_l, Hrun.
    cbn [count_steps]. rewrite count_steps_app, count_steps_map, Nat.add_assoc. reflexivity.
Qed.
End Times.

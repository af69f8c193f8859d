(** integrate_adaptive for plain steppers, final forms of the plain-driver results. *)
From Coq Require Import List Arith ZArith Reals Lia Lra.
From Verif Require Import M_Num M_Sign M_Run M_Plain S_Grid S_Real S_Times P_Run P_Plain P_R P_PlainR.
Import ListNotations.
Local Open Scope run_scope.

Section LawFree.
Context {N : Num} {S W X : Type}.
Notation V := (ev X (carrier N)).
Variable obs     : W -> X -> N -> M V W.
Variable do_step : S -> W -> X -> N -> N -> M V (S * W * X).
Local Open Scope num_scope.

Lemma integrate_adaptive_plain_exec fuel s w x t0 tend dt n :
  first_false (fun k => less_eq_with_sign (grid t0 dt k + dt) tend dt) n ->
  (n < fuel)%nat ->
  integrate_adaptive_plain obs do_step fuel s w x t0 tend dt =
  (let* (_, w1, x1) := exec obs do_step (grid_schedule t0 dt n) s w x in
   let e := t0 + dt * nofnat n in
   if less_with_sign e tend dt then
     let* (s2, w2, x2) := exec obs do_step [CStep e (tend - e); CObs tend] s w1 x1 in
     ret (s2, w2, x2, Datatypes.S n)
   else ret (s, w1, x1, n)).
Proof.
  intros Hn Hf. unfold integrate_adaptive_plain.
  rewrite (integrate_const_exec obs do_step fuel s w x t0 tend dt n Hn Hf), bind_assoc.
  apply bind_ext. intros [[s1 w1] x1]. rewrite bind_ret_l. cbv zeta.
  destruct (less_with_sign _ tend dt); [|reflexivity].
  cbn [exec]. rewrite bind_assoc. apply bind_ext. intros [[s2 w2] x2].
  rewrite bind_assoc. apply bind_ext. intros w3. now rewrite bind_ret_l.
Qed.

Lemma n_steps_pure (f : S -> X -> N -> N -> S * X) (s : S) (w : W) (x : X) (t0 dt : N) (n : nat) :
  exists tr,
    integrate_n_steps rec_obs (plain_step f) s w x t0 dt n
      = (tr, Ok (fst (after f t0 dt s x n), w, snd (after f t0 dt s x n), grid t0 dt n)) /\
    obs_of tr = map (fun k => (snd (after f t0 dt s x k), grid t0 dt k)) (seq 0 (Datatypes.S n)) /\
    steps_of tr = map (fun k => (snd (after f t0 dt s x k), grid t0 dt k, dt)) (seq 0 n).
Proof.
  eexists. split.
  - rewrite integrate_n_steps_exec, exec_schedule_pure. unfold bind, ret. reflexivity.
  - rewrite app_nil_r. split; [apply schedule_obs|apply schedule_steps].
Qed.

Lemma const_pure (f : S -> X -> N -> N -> S * X) fuel (s : S) (w : W) (x : X) (t0 tend dt : N) (n : nat) :
  first_false (fun k => less_eq_with_sign (grid t0 dt k + dt) tend dt) n -> (n < fuel)%nat ->
  exists tr,
    integrate_const rec_obs (plain_step f) fuel s w x t0 tend dt
      = (tr, Ok (fst (after f t0 dt s x n), w, snd (after f t0 dt s x n), n)) /\
    obs_of tr = map (fun k => (snd (after f t0 dt s x k), grid t0 dt k)) (seq 0 (Datatypes.S n)) /\
    steps_of tr = map (fun k => (snd (after f t0 dt s x k), grid t0 dt k, dt)) (seq 0 n).
Proof.
  intros Hn Hf. eexists. split.
  - rewrite (integrate_const_exec _ _ fuel s w x t0 tend dt n Hn Hf), exec_schedule_pure.
    unfold bind, ret. reflexivity.
  - rewrite app_nil_r. split; [apply schedule_obs|apply schedule_steps].
Qed.
End LawFree.

Section Real.
Variable eps : R.
Hypothesis Heps : (0 <= eps)%R.
Notation N := (RNum eps).
Context {S W X : Type}.
Variable f : S -> X -> R -> R -> S * X.
Local Open Scope R_scope.

Lemma adaptive_plain_R (s : S) (w : W) (x : X) t0 tend dt :
  dt <> 0 -> 0 <= dir dt * (tend - t0) ->
  exists F, forall fuel, (F <= fuel)%nat -> exists tr s' x' n,
    @integrate_adaptive_plain N S W X rec_obs (plain_step f) fuel s w x t0 tend dt
      = (tr, Ok (s', w, x', n)) /\
    let steps := map (fun e => (snd (fst e), snd e)) (steps_of tr) in
    n = length steps /\
    good_widths dt steps /\
    map snd (obs_of tr) = t0 :: map (fun td => fst td + snd td) steps /\
    (exists b, chain t0 steps b /\ Rabs (tend - b) <= eps) /\
    exists tl, last (obs_of tr) (x, t0) = (x', tl) /\ Rabs (tend - tl) <= eps.
Proof.
  intros Hdt Hdir.
  destruct (const_count eps t0 tend dt Hdt) as [n Hn].
  pose proof (const_count_last eps t0 tend dt n Hn) as Hlast.
  assert (Hlow : 0 <= dir dt * (tend - (t0 + INR n * dt)) + eps).
  { destruct n as [|n]; [simpl; lra|].
    pose proof (const_count_before eps t0 tend dt (Datatypes.S n) (Datatypes.S n) Hn ltac:(lia)). lra. }
  assert (Habs : forall z, -eps <= dir dt * z <= eps -> Rabs z <= eps).
  { intros z Hz. apply Rabs_le. destruct (dir_cases dt) as [[_ E]|[_ E]]; rewrite E in Hz; lra. }
  exists (Datatypes.S n). intros fuel Hfuel.
  assert (Hwid : good_widths dt (map (fun k => (t0 + INR k * dt, dt)) (seq 0 n))).
  { apply Forall_forall. intros td Hin. apply in_map_iff in Hin as (k & <- & _). simpl.
    rewrite dir_abs. split; [now apply Rabs_pos_lt|lra]. }
  assert (Hgrid : forall l, map (fun k => (snd (after (N := N) f t0 dt s x k), @grid N t0 dt k)) l
                = map (fun k => (snd (after (N := N) f t0 dt s x k), t0 + INR k * dt)) l).
  { intros l. apply map_ext. intros k. now rewrite grid_R. }
  assert (Hst : map (fun e => (snd (fst e), snd e))
       (map (fun k => (snd (after (N := N) f t0 dt s x k), @grid N t0 dt k, dt)) (seq 0 n))
       = map (fun k => (t0 + INR k * dt, dt)) (seq 0 n)).
  { rewrite map_map. apply map_ext. intros k. simpl. now rewrite grid_R. }
  assert (Hobs : map snd (map (fun k => (snd (after (N := N) f t0 dt s x k), @grid N t0 dt k)) (seq 0 (Datatypes.S n)))
       = t0 :: map (fun td => fst td + snd td) (map (fun k => (t0 + INR k * dt, dt)) (seq 0 n))).
  { rewrite Hgrid, !map_map. cbn [seq map snd fst]. f_equal; [simpl; lra|].
    rewrite <- seq_shift, map_map. apply map_ext. intros k. cbn [snd fst]. rewrite S_INR. lra. }
  pose proof (integrate_adaptive_plain_exec (N := N) (@rec_obs R X W) (plain_step f) fuel s w x t0 tend dt n Hn ltac:(lia)) as Hrun.
  rewrite (exec_schedule_pure (N := N)) in Hrun. unfold bind at 1 in Hrun.
  destruct (@less_with_sign N _ tend dt) eqn:E.
  - apply less_R in E. rnum. rewrite nofnat_R in *.
    remember (f s (snd (after (N := N) f t0 dt s x n)) (t0 + dt * INR n) (tend - (t0 + dt * INR n))) as p eqn:Ep.
    destruct p as [s2 x2].
    unfold exec, plain_step, rec_obs, bind, ret in Hrun. rnum. rewrite <- Ep in Hrun.
    do 4 eexists. split; [exact Hrun|]. cbv zeta.
    rewrite steps_of_app, obs_of_app, (schedule_steps (N := N)), (schedule_obs (N := N)), map_app. rnum. rewrite Hst.
    cbn [app steps_of obs_of flat_map map fst snd].
    rewrite app_length, map_length, seq_length. cbn [length].
    split; [lia|]. split; [|split; [|split]].
    + apply Forall_app. split; auto. constructor; [|constructor]. cbn [snd].
      replace (t0 + dt * INR n) with (t0 + INR n * dt) in * by ring. split; [lra|].
      set (d := tend - (t0 + INR n * dt)) in *.
      rewrite <- (dir_abs d), (dir_eq_of_pos dt d) by lra. lra.
    + rewrite map_app, Hobs, map_app. cbn [map snd fst app]. do 3 f_equal. lra.
    + exists tend. split; [|rewrite Rminus_diag_eq, Rabs_R0; auto; lra].
      eapply chain_app; [apply chain_grid|]. cbn [chain]. split; lra.
    + exists tend. rewrite last_last. split; [reflexivity|].
      rewrite Rminus_diag_eq, Rabs_R0; auto; lra.
  - apply less_R_false in E. rnum. rewrite nofnat_R in *.
    unfold ret in Hrun. rewrite app_nil_r in Hrun.
    do 4 eexists. split; [exact Hrun|]. cbv zeta.
    rewrite (schedule_steps (N := N)), (schedule_obs (N := N)). rnum. rewrite Hst, Hobs.
    rewrite map_length, seq_length.
    split; [lia|]. split; [auto|]. split; [auto|]. split.
    + exists (t0 + INR n * dt). split; [apply chain_grid|]. apply Habs. 
      replace (t0 + INR n * dt) with (t0 + dt * INR n) in * by ring. lra.
    + rewrite seq_S, map_app. cbn [map]. rewrite last_last.
      exists (t0 + INR n * dt). rewrite grid_R. split; [reflexivity|].
      apply Habs. replace (t0 + INR n * dt) with (t0 + dt * INR n) in * by ring. lra.
Qed.
End Real.

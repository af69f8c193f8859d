(** Proofs about the adaptive iterator for dense output steppers (reals). *)
From Coq Require Import List Arith ZArith Lia Reals Lra Bool.
From Verif Require Import M_Num M_Sign M_Run M_Dense M_Iter S_Grid S_Real S_Dense P_Run P_R.
Import ListNotations.
Local Open Scope run_scope.
Local Open Scope R_scope.

Section D.
Variable eps : R.
Hypothesis Heps : 0 <= eps.
Notation NN := (RNum eps).
Context {S W X : Type}.
Variable init : S -> X -> R -> R -> S.
Variable step : S -> S.
Variable calc : S -> R -> X.
Variable ct : S -> R.
Variable cx : S -> X.
Variable cdt : S -> R.
Hypothesis HD : dense_contract init step ct cx cdt.
Variable sg : R.
Hypothesis Hsg : sg = 1 \/ sg = -1.
(** Step sizes never become as small as epsilon. *)
Hypothesis Hmin : forall s, cdt s <> 0 -> 2 * eps < Rabs (cdt (step s)).
Let D : DenseOps NN S W X := @dense_of NN S W X init step calc ct cx cdt.
Variable tend : R.

Inductive drun : S -> list (X * R) -> Prop :=
| dr_end s : @less_with_sign NN (ct s) tend (cdt s) = false -> drun s [(cx s, ct s)]
| dr_step s l : @less_with_sign NN (ct s) tend (cdt s) = true ->
    drun (step (if @less_with_sign NN tend (ct s + cdt s)%R (cdt s)
                then init s (cx s) (ct s) (tend - ct s) else s)) l ->
    drun s ((cx s, ct s) :: l).

Lemma drun_for_each s l : drun s l -> forall (w : W) calls, exists tr it,
  for_each rec_obs (adaptive_dense_inc D tend) di_end (di_deref D) (Datatypes.S (length l))
           (@mkDit NN S s (ct s) false) w calls = (tr, Ok (it, w, (calls + length l)%nat)) /\
  obs_of tr = l.
Proof.
  induction 1 as [s H | s l H HR IH]; intros w calls.
  - eexists _, _. split.
    + cbn [length]. cbn [for_each di_end]. unfold adaptive_dense_inc. cbn [di_s di_t di_deref].
      unfold D at 3 4. cbn [dense_of d_dt]. rewrite H. unfold rec_obs, bind, ret. cbn [fst snd di_end].
      rewrite Nat.add_1_r. reflexivity.
    + reflexivity.
  - set (s1 := if @less_with_sign NN tend (ct s + cdt s)%R (cdt s)
               then init s (cx s) (ct s) (tend - ct s) else s) in *.
    destruct (IH w (Datatypes.S calls)) as (tr & it & E & Eo).
    assert (Ei : exists tr0, adaptive_dense_inc D tend (@mkDit NN S s (ct s) false) w =
                 (tr0, Ok (@mkDit NN S (step s1) (ct (step s1)) false, w)) /\ obs_of tr0 = []).
    { unfold adaptive_dense_inc. cbn [di_s di_t di_end].
      change (d_dt D s) with (cdt s). rewrite H.
      change (@nadd NN (ct s) (cdt s)) with (ct s + cdt s).
      subst s1. destruct (@less_with_sign NN tend (ct s + cdt s)%R (cdt s));
        eexists; split; reflexivity. }
    destruct Ei as (tr0 & Ei & Ei0).
    cbn [length]. remember (Datatypes.S (length l)) as n. cbn [for_each di_end].
    unfold rec_obs at 1, bind at 1. rewrite Ei. unfold bind. rewrite E.
    eexists _, _. split; [subst n; rewrite Nat.add_succ_r; reflexivity|].
    cbn [obs_of flat_map app]. change (obs_of (tr0 ++ tr)) with (obs_of (tr0 ++ tr)).
    change ((cx s, ct s) :: obs_of (tr0 ++ tr) = (cx s, ct s) :: l).
    now rewrite obs_of_app, Ei0, Eo.
Qed.

Definition okst (s : S) : Prop :=
  sg * (ct s - tend) <= eps /\
  (2 * eps < sg * cdt s \/ (cdt s = tend - ct s /\ eps < sg * cdt s)).

Lemma okst_pos s : okst s -> 0 < sg * cdt s.
Proof. intros [_ [H|[_ H]]]; lra. Qed.
Lemma pos_dir d : 0 < sg * d -> dir d = sg.
Proof. intros H. destruct (dir_cases d) as [[H1 ->]|[H1 ->]]; destruct Hsg as [-> | ->]; lra. Qed.

Lemma okst_step s : okst s -> @less_eq_with_sign NN (ct s + cdt s)%R tend (cdt s) = true ->
  okst (step s) /\ @less_with_sign NN (ct s) tend (cdt s) = true /\
  @less_with_sign NN tend (ct s + cdt s)%R (cdt s) = false.
Proof.
  intros H E. pose proof (okst_pos s H) as Hp. pose proof (pos_dir _ Hp) as Hd.
  apply leq_R in E. rewrite Hd in E.
  assert (Hn : cdt s <> 0) by (intros H0; rewrite H0 in Hp; lra).
  pose proof (dc_adv _ _ _ _ _ HD s Hn) as Ha. pose proof (dc_dir _ _ _ _ _ HD s Hn) as Hb.
  pose proof (Hmin s Hn) as Hm. rewrite <- (dir_abs (cdt s)), Hd in Ha. rewrite Hd in Hb.
  pose proof (pos_dir _ Hb) as Hd2. rewrite <- dir_abs, Hd2 in Hm.
  destruct H as [Hle H]. split; [|split].
  - split; [|left; exact Hm].
    replace (sg * (ct (step s) - tend)) with (sg * (ct (step s) - ct s) + sg * (ct s - tend)) by ring.
    replace (sg * (ct s + cdt s - tend)) with (sg * cdt s + sg * (ct s - tend)) in E by ring. lra.
  - apply less_R. rewrite Hd. destruct H as [H|[H1 H2]].
    + replace (sg * (ct s + cdt s - tend)) with (sg * cdt s - sg * (tend - ct s)) in E by ring. lra.
    + now rewrite <- H1.
  - apply less_R_false. now rewrite Hd.
Qed.

Lemma inner_drun : forall fuel s (w : W) c tr s1 w1 c1,
  okst s -> iad_inner D rec_obs fuel tend s w c = (tr, Ok (s1, w1, c1)) ->
  okst s1 /\ @less_eq_with_sign NN (ct s1 + cdt s1)%R tend (cdt s1) = false /\
  forall l, drun s1 l -> drun s (obs_of tr ++ l).
Proof.
  induction fuel as [|fuel IH]; intros s w c tr s1 w1 c1 Ho H; [discriminate|].
  cbn [iad_inner] in H. change (d_t D s) with (ct s) in H. change (d_dt D s) with (cdt s) in H.
  change (@nadd NN (ct s) (cdt s)) with (ct s + cdt s) in H.
  destruct (@less_eq_with_sign NN (ct s + cdt s)%R tend (cdt s)) eqn:E.
  - unfold rec_obs at 1, bind at 1 in H.
    change (d_step D s w) with (([EDo (ct s) (ct (step s)) (cx (step s))], Ok (step s, w)) : M (ev X R) (S * W)) in H.
    unfold bind at 1 in H.
    destruct (iad_inner D rec_obs fuel tend (step s) w (Datatypes.S c)) as [tr2 r] eqn:E2.
    injection H as <- ->. destruct (okst_step s Ho E) as (H1 & H2 & H3).
    destruct (IH _ _ _ _ _ _ _ H1 E2) as (Ha & Hb & Hc). split; [exact Ha|]. split; [exact Hb|].
    intros l Hl. cbn [obs_of flat_map app]. apply dr_step; [exact H2|]. rewrite H3. now apply Hc.
  - unfold ret in H. injection H as <- <- <- <-. auto.
Qed.

Lemma drun_reinit s l : okst s -> eps < sg * (tend - ct s) ->
  @less_eq_with_sign NN (ct s + cdt s)%R tend (cdt s) = false ->
  drun (init s (cx s) (ct s) (tend - ct s)) l -> drun s l.
Proof.
  intros Ho Hlt Hle H. pose proof (pos_dir _ (okst_pos s Ho)) as Hd.
  assert (Hd2 : dir (tend - ct s) = sg) by (apply pos_dir; lra).
  inversion H as [s0 E El | s0 l0 E HR El]; subst.
  - exfalso. rewrite (dc_t _ _ _ _ _ HD), (dc_dt _ _ _ _ _ HD) in E.
    apply less_R_false in E. rewrite Hd2 in E. lra.
  - rewrite (dc_t _ _ _ _ _ HD), (dc_x _ _ _ _ _ HD), (dc_dt _ _ _ _ _ HD) in *.
    replace (@less_with_sign NN tend (ct s + (tend - ct s))%R (tend - ct s)%R) with false in HR.
    2: { symmetry. apply less_R_false. rewrite Hd2.
         replace (ct s + (tend - ct s) - tend) with 0 by ring. lra. }
    apply dr_step.
    + apply less_R. now rewrite Hd.
    + replace (@less_with_sign NN tend (ct s + cdt s)%R (cdt s)) with true; [exact HR|].
      symmetry. apply less_R. apply leq_R_false in Hle. exact Hle.
Qed.

Lemma sg_small z : sg * z <= eps -> - eps <= sg * z -> dir z * z <= eps.
Proof. rewrite dir_abs. unfold Rabs. destruct (Rcase_abs z), Hsg as [-> | ->]; lra. Qed.

Lemma outer_drun : forall fuel s (w : W) c tr s1 w1 c1,
  okst s -> iad_outer D rec_obs fuel tend s w c = (tr, Ok (s1, w1, c1)) ->
  drun s (obs_of tr ++ [(cx s1, ct s1)]).
Proof.
  induction fuel as [|fuel IH]; intros s w c tr s1 w1 c1 Ho H; [discriminate|].
  cbn [iad_outer] in H. change (d_t D s) with (ct s) in H. change (d_dt D s) with (cdt s) in H.
  destruct (@less_with_sign NN (ct s) tend (cdt s)) eqn:E.
  - apply bind_ok_inv in H as (tra & [[s2 w2] c2] & trb & Ea & Eb & ->).
    apply bind_ok_inv in Eb as (trc & s3 & trd & Ec & Ed & ->).
    unfold reinit_to, call_init in Ec. injection Ec as <- <-.
    change (d_x D s2) with (cx s2) in *. change (d_t D s2) with (ct s2) in *.
    change (@nsub NN tend (ct s2)) with (tend - ct s2) in *.
    change (d_init D) with init in *.
    destruct (inner_drun _ _ _ _ _ _ _ _ Ho Ea) as (Ho2 & Hle & Hc).
    rewrite !obs_of_app. cbn [obs_of flat_map app]. fold (@obs_of X R). rewrite <- app_assoc. apply Hc.
    destruct (Rlt_dec eps (sg * (tend - ct s2))) as [Hlt|Hge].
    + apply drun_reinit; auto. eapply IH; [|exact Ed].
      split; [|right]; rewrite ?(dc_t _ _ _ _ _ HD), ?(dc_dt _ _ _ _ _ HD); [exact (proj1 Ho2) | auto].
    + destruct fuel as [|fuel]; [discriminate|].
      cbn [iad_outer] in Ed. change (d_t D) with ct in Ed. change (d_dt D) with cdt in Ed.
      rewrite (dc_t _ _ _ _ _ HD), (dc_dt _ _ _ _ _ HD) in Ed.
      replace (@less_with_sign NN (ct s2) tend (tend - ct s2)%R) with false in Ed.
      2: { symmetry. apply less_R_false. apply sg_small; [lra|].
           destruct Ho2 as [Ho2 _]. replace (sg * (tend - ct s2)) with (- (sg * (ct s2 - tend))) by ring. lra. }
      unfold ret in Ed. injection Ed as <- <- <- <-. cbn [obs_of flat_map app].
      rewrite (dc_t _ _ _ _ _ HD), (dc_x _ _ _ _ _ HD). apply dr_end. apply less_R_false.
      rewrite (pos_dir _ (okst_pos _ Ho2)). lra.
  - unfold ret in H. injection H as <- <- <- <-. now apply dr_end.
Qed.

Lemma adaptive_dense_iter fuel s (w : W) x t0 dt tr s' w' x' n :
  dir dt = sg -> 2 * eps < Rabs dt -> sg * (t0 - tend) <= eps ->
  integrate_adaptive_dense D rec_obs fuel s w x t0 tend dt = (tr, Ok (s', w', x', n)) ->
  exists fuel2 tr2 it,
    (let* it0 := adaptive_dense_begin D s x t0 tend dt in
     for_each rec_obs (adaptive_dense_inc D tend) di_end (di_deref D) fuel2 it0 w 0)
    = (tr2, Ok (it, w, length (obs_of tr))) /\ obs_of tr2 = obs_of tr.
Proof.
  intros Hd Hdt H0 H. unfold integrate_adaptive_dense in H.
  apply bind_ok_inv in H as (tri & si & tr1 & Ei & E1 & ->).
  unfold call_init in Ei. injection Ei as <- <-. change (d_init D) with init in E1.
  apply bind_ok_inv in E1 as (tra & [[s2 w2] c2] & trb & Ea & Eb & ->).
  change (d_x D) with cx in Eb. change (d_t D) with ct in Eb.
  unfold rec_obs at 1, bind, ret in Eb. injection Eb as <- -> -> <- ->.
  assert (Ho : okst (init s x t0 dt)).
  { split; [now rewrite (dc_t _ _ _ _ _ HD)|]. left. rewrite (dc_dt _ _ _ _ _ HD).
    now rewrite <- Hd, dir_abs. }
  pose proof (outer_drun _ _ _ _ _ _ _ _ Ho Ea) as Hr.
  destruct (drun_for_each _ _ Hr w 0%nat) as (tr2 & it & E2 & Eo).
  rewrite (dc_t _ _ _ _ _ HD) in E2.
  change (carrier NN) with R in *.
  assert (Eob : obs_of ([EInit x t0 dt] ++ tra ++ [EObs (cx s') (ct s')]) = obs_of tra ++ [(cx s', ct s')]).
  { rewrite !obs_of_app. reflexivity. }
  exists (Datatypes.S (length (obs_of tra ++ [(cx s', ct s')]))), (EInit x t0 dt :: tr2), it.
  rewrite Eob. split; [|exact Eo].
  unfold adaptive_dense_begin.
  replace (@less_eq_with_sign NN t0 tend dt) with true by (symmetry; apply leq_R; now rewrite Hd).
  unfold call_init, bind, ret. cbn [app]. change (d_init D) with init. rewrite E2. reflexivity.
Qed.
End D.

(** Times iterator of a plain stepper in exact arithmetic. *)
From Verif Require Import M_Plain P_Iter.
Section T.
Context {S W X : Type}.
Notation N0 := (RNum 0).
Variable obs     : W -> X -> R -> M (ev X R) W.
Variable do_step : S -> W -> X -> R -> R -> M (ev X R) (S * W * X).
Variable dt : R.
Hypothesis Hdt : dt <> 0.

Lemma dir_pos_dt : 0 < dir dt * dt.
Proof. rewrite dir_abs. now apply Rabs_pos_lt. Qed.

Lemma times_loop_eq target : forall fuel s w x t cdt n,
  0 < dir dt * cdt -> 0 <= dir dt * (target - t) ->
  times_loop (N := N0) do_step fuel dt target s w x t =
  let* (s1, w1, x1, _, _) := it_inner (N := N0) do_step fuel dt target s w x t cdt n in
  ret (s1, w1, x1, target).
Proof.
  pose proof dir_pos_dt as Hp.
  induction fuel as [|fuel IH]; intros s w x t cdt n Hc Ht; [reflexivity|].
  cbn [times_loop it_inner].
  assert (E : @less_with_sign N0 t target dt = @less_with_sign N0 t target cdt).
  { destruct (@less_with_sign N0 t target cdt) eqn:E1.
    - apply less_R in E1. apply less_R. now rewrite (dir_eq_of_pos dt cdt Hc) in E1.
    - apply less_R_false in E1. apply less_R_false. now rewrite (dir_eq_of_pos dt cdt Hc) in E1. }
  rewrite <- E. destruct (@less_with_sign N0 t target dt) eqn:E1.
  - apply less_R in E1. cbv zeta.
    change (@nsub N0 target t) with (target - t).
    destruct (min_abs_R 0 dt (target - t) Hdt ltac:(lra)) as [Hm _].
    set (c := @min_abs N0 dt (target - t)%R) in *.
    rewrite bind_assoc. apply bind_ext. intros [[s2 w2] x2].
    change (@nadd N0 t c) with (t + c). apply IH.
    + rewrite Hm. apply Rmin_pos; [now apply Rabs_pos_lt | lra].
    + replace (dir dt * (target - (t + c))) with (dir dt * (target - t) - dir dt * c) by ring.
      rewrite Hm. pose proof (Rmin_r (Rabs dt) (dir dt * (target - t))). lra.
  - apply less_R_false in E1. rewrite bind_ret_l. replace target with t; [reflexivity|].
    destruct (dir_cases dt) as [[_ Hd]|[_ Hd]]; rewrite Hd in *; lra.
Qed.

Lemma it_inner_cdt target : forall fuel s w x t cdt n tr s1 w1 x1 c1 n1,
  0 < dir dt * cdt ->
  it_inner (N := N0) do_step fuel dt target s w x t cdt n = (tr, Ok (s1, w1, x1, c1, n1)) ->
  0 < dir dt * c1.
Proof.
  induction fuel as [|fuel IH]; intros s w x t cdt n tr s1 w1 x1 c1 n1 Hc H; [discriminate|].
  cbn [it_inner] in H. destruct (@less_with_sign N0 t target cdt) eqn:E.
  - apply less_R in E. rewrite (dir_eq_of_pos dt cdt Hc) in E. cbv zeta in H.
    change (@nsub N0 target t) with (target - t) in H.
    destruct (min_abs_R 0 dt (target - t) Hdt ltac:(lra)) as [Hm _].
    apply bind_ok_inv in H as (tr1 & [[s2 w2] x2] & tr2 & _ & H & _).
    apply IH in H; auto. rewrite Hm. apply Rmin_pos; [now apply Rabs_pos_lt | lra].
  - injection H as <- <- <- <- <- <-. exact Hc.
Qed.

Lemma times_for_each fuel : forall rest t s w x cdt n calls fuel2,
  0 < dir dt * cdt -> strictly_mono (dir dt) (t :: rest) -> (length rest + 1 < fuel2)%nat ->
  (let* (it, w1, c) := for_each obs (times_inc (N := N0) do_step fuel dt) ti_end ti_deref fuel2
                         (@mkTit N0 S X s x t rest false) w calls in ret (ti_s it, w1, ti_x it)) =
  (let* (s1, w1, x1, k) := @it_outer N0 S W X obs do_step fuel dt (t :: rest) s w x cdt n in ret (s1, w1, x1)).
Proof.
  induction rest as [|target rest IH]; intros t s w x cdt n calls fuel2 Hc Hm Hf;
    (destruct fuel2 as [|fuel2]; [lia|]); cbn [for_each it_outer ti_end ti_deref fst snd ti_x ti_t];
    rewrite !bind_assoc; apply bind_ext; intros w1; cbn [times_inc ti_rest ti_s ti_x ti_t ti_end];
    unfold times_inc at 1; cbn [ti_rest ti_s ti_x ti_t ti_end].
  - rewrite !bind_ret_l. destruct fuel2 as [|fuel2]; [lia|]. cbn [for_each ti_end]. now rewrite bind_ret_l.
  - destruct Hm as [Hm1 Hm2].
    rewrite (times_loop_eq target fuel s w1 x t cdt n Hc) by lra. rewrite !bind_assoc.
    apply bind_cong. intros tr [[[[s2 w2] x2] c2] n2] E. rewrite !bind_ret_l.
    apply IH; [exact (it_inner_cdt _ _ _ _ _ _ _ _ _ _ _ _ _ _ Hc E) | exact Hm2 | cbn [length] in Hf; lia].
Qed.
End T.

Lemma times_iter_eq (S W X : Type) (obs : W -> X -> R -> M (ev X R) W)
  (do_step : S -> W -> X -> R -> R -> M (ev X R) (S * W * X))
  (fuel : nat) (s : S) (w : W) (x : X) (times : list R) (dt : R) (fuel2 : nat) :
  times <> [] -> dt <> 0 -> strictly_mono (dir dt) times -> (length times < fuel2)%nat ->
  (let* it0 := times_begin (N := RNum 0) s x times in
   let* (it, w1, calls) := for_each obs (times_inc (N := RNum 0) do_step fuel dt) ti_end ti_deref fuel2 it0 w 0 in
   ret (ti_s it, w1, ti_x it)) =
  (let* (s1, w1, x1, n) := @integrate_times_plain (RNum 0) S W X obs do_step fuel s w x times dt in ret (s1, w1, x1)).
Proof.
  intros Hn Hdt Hm Hf. destruct times as [|t rest]; [contradiction|].
  cbn [times_begin]. rewrite bind_ret_l. unfold integrate_times_plain.
  apply times_for_each; auto. now apply dir_pos_dt. cbn [length] in Hf. lia.
Qed.

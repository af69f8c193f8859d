(** Proofs about step checking. *)
From Coq Require Import List Arith ZArith Lia.
From Verif Require Import M_Num M_Sign M_Run M_Checker M_Plain M_Controlled M_Dense M_Checked
  S_Grid S_Check P_Run P_Ctrl.
Import ListNotations.
Local Open Scope run_scope.

Section Mon.
Context {X T : Type}.
Notation V := (ev X T).
Variables (m : nat) (pre : bool).

Fixpoint scan (c : nat) (tr : list V) : list V * option nat :=
  match tr with
  | [] => ([], Some c)
  | e :: r =>
      if is_obs e then let (l, o) := scan 0 r in (e :: l, o)
      else if is_step e then
        if Nat.leb m c then (if pre then [] else [e], None)
        else let (l, o) := scan (S c) r in (e :: l, o)
      else let (l, o) := scan c r in (e :: l, o)
  end.

Definition mon {A} (c : nat) (run : M V A) : M V (nat * A) :=
  match scan c (fst run) with
  | (l, None) => (l, Exc NoProgress)
  | (l, Some c') => (l, map_res (pair c') (snd run))
  end.

Lemma scan_app tr : forall c tr2,
  scan c (tr ++ tr2) =
  match scan c tr with
  | (l, None) => (l, None)
  | (l, Some c') => let (l2, o) := scan c' tr2 in (l ++ l2, o)
  end.
Proof.
  induction tr as [|e tr IH]; intros c tr2; cbn [scan app].
  - now destruct (scan c tr2).
  - destruct (is_obs e).
    + rewrite IH. destruct (scan 0 tr) as [l [c'|]]; [destruct (scan c' tr2)|]; reflexivity.
    + destruct (is_step e).
      * destruct (Nat.leb m c); [reflexivity|].
        rewrite IH. destruct (scan (S c) tr) as [l [c'|]]; [destruct (scan c' tr2)|]; reflexivity.
      * rewrite IH. destruct (scan c tr) as [l [c'|]]; [destruct (scan c' tr2)|]; reflexivity.
Qed.

Lemma mon_bind {A B} c (run : M V A) (f : A -> M V B) :
  mon c (bind run f) = bind (mon c run) (fun p => mon (fst p) (f (snd p))).
Proof.
  destruct run as [tr [a|e| |]]; unfold mon, bind; cbn [fst snd];
    try (destruct (scan c tr) as [l [c'|]]; reflexivity).
  destruct (f a) as [tr2 r] eqn:E. cbn [fst snd]. rewrite scan_app.
  destruct (scan c tr) as [l [c'|]]; [|reflexivity]. cbn [map_res]. cbn [fst snd]. rewrite E. cbn [fst snd].
  destruct (scan c' tr2) as [l2 [c2|]]; reflexivity.
Qed.
Lemma mon_ret {A} c (a : A) : mon c (ret a) = ret (c, a).
Proof. reflexivity. Qed.
Lemma mon_fail {A} c (r : res A) : mon c (fail r) = fail (map_res (pair c) r).
Proof. reflexivity. Qed.

(** The monitor meets the specification. *)
Lemma steps_since_app (a b : list V) :
  steps_since (a ++ b) = fold_left (fun c e => if is_obs e then 0 else if is_step e then S c else c) b (steps_since a).
Proof. apply fold_left_app. Qed.

Lemma scan_some c tr : forall done l c',
  steps_since done = c -> ~ violates m done -> scan c tr = (l, Some c') ->
  l = tr /\ c' = steps_since (done ++ tr) /\ ~ violates m (done ++ tr).
Proof.
  revert c. induction tr as [|e tr IH]; intros c done l c' Hd Hv H; cbn [scan] in H.
  - injection H as <- <-. rewrite app_nil_r. auto.
  - assert (G : forall c1, steps_since (done ++ [e]) = c1 -> c1 <= m ->
       (let (l, o) := scan c1 tr in (e :: l, o)) = (l, Some c') ->
       l = e :: tr /\ c' = steps_since (done ++ e :: tr) /\ ~ violates m (done ++ e :: tr)).
    { intros c1 Hc1 Hle Hs. destruct (scan c1 tr) as [l1 o] eqn:E. injection Hs as <- ->.
      apply (IH c1 (done ++ [e])) in E; auto.
      - destruct E as (-> & E2 & E3). rewrite <- app_assoc in *. auto.
      - intros (a & b & Eab & Ha). destruct b as [|b0 b] using rev_ind.
        + rewrite app_nil_r in Eab. subst a. lia.
        + rewrite app_assoc in Eab. apply app_inj_tail in Eab as [Eab _]. apply Hv. exists a, b. auto. }
    assert (Hm : c <= m).
    { destruct (Nat.le_gt_cases c m); auto. exfalso. apply Hv. exists done, []. rewrite app_nil_r. split; [auto|rewrite Hd; lia]. }
    destruct (is_obs e) eqn:Eo.
    + apply G in H; auto; [|lia]. rewrite steps_since_app. simpl. now rewrite Eo.
    + destruct (is_step e) eqn:Es.
      * destruct (Nat.leb m c) eqn:El; [discriminate|]. apply Nat.leb_gt in El.
        apply G in H; auto. rewrite steps_since_app. simpl. rewrite Eo, Es. now subst.
      * apply G in H; auto. rewrite steps_since_app. simpl. rewrite Eo, Es. now subst.
Qed.

Lemma scan_none c tr : forall done l,
  steps_since done = c -> ~ violates m done -> scan c tr = (l, None) ->
  exists a e b, tr = a ++ e :: b /\ ~ violates m (done ++ a) /\ steps_since (done ++ a) = m /\
    is_step e = true /\ l = if pre then a else a ++ [e].
Proof.
  revert c. induction tr as [|e tr IH]; intros c done l Hd Hv H; cbn [scan] in H; [discriminate|].
  assert (Hm : c <= m).
  { destruct (Nat.le_gt_cases c m); auto. exfalso. apply Hv. exists done, []. rewrite app_nil_r. split; [auto|rewrite Hd; lia]. }
  assert (G : forall c1, steps_since (done ++ [e]) = c1 -> c1 <= m ->
       (let (l, o) := scan c1 tr in (e :: l, o)) = (l, None) ->
       exists a e0 b, e :: tr = a ++ e0 :: b /\ ~ violates m (done ++ a) /\ steps_since (done ++ a) = m /\
         is_step e0 = true /\ l = if pre then a else a ++ [e0]).
  { intros c1 Hc1 Hle Hs. destruct (scan c1 tr) as [l1 o] eqn:E. injection Hs as <- ->.
    apply (IH c1 (done ++ [e])) in E; auto.
    - destruct E as (a & e0 & b & -> & E2 & E3 & E4 & ->). exists (e :: a), e0, b.
      rewrite <- !app_assoc in *. repeat split; auto. now destruct pre.
    - intros (a & b & Eab & Ha). destruct b as [|b0 b] using rev_ind.
      + rewrite app_nil_r in Eab. subst a. lia.
      + rewrite app_assoc in Eab. apply app_inj_tail in Eab as [Eab _]. apply Hv. exists a, b. auto. }
  destruct (is_obs e) eqn:Eo.
  - apply G in H; auto; [|lia]. rewrite steps_since_app. simpl. now rewrite Eo.
  - destruct (is_step e) eqn:Es.
    + destruct (Nat.leb m c) eqn:El.
      * apply Nat.leb_le in El. injection H as <-. exists [], e, tr. rewrite app_nil_r.
        split; [auto|]. split; [auto|]. split; [rewrite Hd; lia|]. split; [auto|]. now destruct pre.
      * apply Nat.leb_gt in El. apply G in H; auto. rewrite steps_since_app. simpl. rewrite Eo, Es. now subst.
    + apply G in H; auto. rewrite steps_since_app. simpl. rewrite Eo, Es. now subst.
Qed.

Lemma mon_checked {A B} (K : nat -> A -> B) (un : M V A) :
  checked_run m pre K un (bind (mon 0 un) (fun p => ret (K (fst p) (snd p)))).
Proof.
  assert (Hn : ~ violates m (@nil V)).
  { intros (a & b & E & H). symmetry in E. apply app_eq_nil in E as [-> ->]. change (m < 0) in H. lia. }
  destruct un as [tr r]. unfold checked_run, mon, trace_of, result_of. cbn [fst snd].
  destruct (scan 0 tr) as [l [c|]] eqn:E.
  - apply (scan_some 0 tr []) in E; auto. cbn [app] in E. destruct E as (-> & -> & Hv). split.
    + intros _. destruct r; unfold bind, ret; cbn [map_res fst snd]; now rewrite ?app_nil_r.
    + intros Hv'. contradiction.
  - apply (scan_none 0 tr []) in E; auto. cbn [app] in E.
    destruct E as (a & e & b & -> & E2 & E3 & E4 & ->). split.
    + intros Hv. exfalso. apply Hv. exists (a ++ [e]), b. rewrite <- app_assoc. split; auto.
      assert (Eo : is_obs e = false) by (destruct e; easy).
      rewrite steps_since_app. simpl. rewrite E4, E3, Eo. lia.
    + intros _. exists a, e, b. repeat split; auto.
Qed.
End Mon.

Section PlainL1.
Context {N : Num} {S W X : Type}.
Notation V := (ev X (carrier N)).
Variable m : nat.
Notation mon := (mon m false).
Variable obs : W -> X -> N -> M V W.
Variable do_step : S -> W -> X -> N -> N -> M V (S * W * X).
Hypothesis Hobs : forall w x t, exists r, obs w x t = ([EObs x t], r).
Hypothesis Hdo : forall s w x t dt, exists p, do_step s w x t dt = ([EStep x t dt], Ok p).

Lemma obs_mon c w x t : checked_obs obs (c, w) x t = mon c (obs w x t).
Proof. unfold checked_obs, mon. cbn [fst snd]. destruct (Hobs w x t) as [r ->]. now destruct r. Qed.

Definition sh1 (p : nat * (S * W * X)) : S * (nat * W) * X :=
  let '(c, (s, w, x)) := p in (s, (c, w), x).
Definition sh2 {B} (p : nat * (S * W * X * B)) : S * (nat * W) * X * B :=
  let '(c, (s, w, x, b)) := p in (s, (c, w), x, b).
Definition sh3 {B C} (p : nat * (S * W * X * B * C)) : S * (nat * W) * X * B * C :=
  let '(c, (s, w, x, b, d)) := p in (s, (c, w), x, b, d).

Lemma do_mon s c w x t dt :
  checked_do m do_step s (c, w) x t dt = bind (mon c (do_step s w x t dt)) (fun p => ret (sh1 p)).
Proof.
  unfold checked_do, mon, checker_call. cbn [fst snd]. destruct (Hdo s w x t dt) as [[[s1 w1] x1] ->].
  cbn [fst snd scan is_obs is_step]. unfold bind, fail, ret. destruct (Nat.leb m c); reflexivity.
Qed.

Ltac step_m := rewrite ?bind_assoc; apply bind_ext; intros; cbn [fst snd sh1 sh2 sh3].

Lemma ins_loop_mon t0 dt : forall todo step s c w x time,
  ins_loop (checked_obs obs) (checked_do m do_step) t0 dt todo step s (c, w) x time =
  bind (mon c (ins_loop obs do_step t0 dt todo step s w x time)) (fun p => ret (sh2 p)).
Proof.
  induction todo as [|todo IH]; intros; cbn [ins_loop].
  - rewrite obs_mon, mon_bind, bind_assoc. apply bind_ext. intros [c1 w1]. reflexivity.
  - rewrite obs_mon, mon_bind, bind_assoc. apply bind_ext. intros [c1 w1]. cbn [fst snd].
    rewrite do_mon, mon_bind, !bind_assoc. apply bind_ext. intros [c2 [[s2 w2] x2]].
    rewrite bind_ret_l. cbn [fst snd sh1]. apply IH.
Qed.

Lemma ic_loop_mon t0 tend dt : forall fuel step s c w x time,
  ic_loop (checked_obs obs) (checked_do m do_step) fuel t0 tend dt step s (c, w) x time =
  bind (mon c (ic_loop obs do_step fuel t0 tend dt step s w x time)) (fun p => ret (sh2 p)).
Proof.
  induction fuel as [|fuel IH]; intros; cbn [ic_loop]; [reflexivity|].
  destruct (less_eq_with_sign _ tend dt).
  - rewrite obs_mon, mon_bind, bind_assoc. apply bind_ext. intros [c1 w1]. cbn [fst snd].
    rewrite do_mon, mon_bind, !bind_assoc. apply bind_ext. intros [c2 [[s2 w2] x2]].
    rewrite bind_ret_l. cbn [fst snd sh1]. apply IH.
  - rewrite obs_mon, mon_bind, bind_assoc. apply bind_ext. intros [c1 w1]. reflexivity.
Qed.

Lemma it_inner_mon dt target : forall fuel s c w x cur cdt steps,
  it_inner (checked_do m do_step) fuel dt target s (c, w) x cur cdt steps =
  bind (mon c (it_inner do_step fuel dt target s w x cur cdt steps)) (fun p => ret (sh3 p)).
Proof.
  induction fuel as [|fuel IH]; intros; cbn [it_inner]; [reflexivity|].
  destruct (less_with_sign cur target cdt); [|reflexivity].
  rewrite do_mon, mon_bind, !bind_assoc. apply bind_ext. intros [c2 [[s2 w2] x2]].
  rewrite bind_ret_l. cbn [fst snd sh1]. apply IH.
Qed.

Lemma it_outer_mon fuel dt : forall times s c w x cdt steps,
  it_outer (checked_obs obs) (checked_do m do_step) fuel dt times s (c, w) x cdt steps =
  bind (mon c (it_outer obs do_step fuel dt times s w x cdt steps)) (fun p => ret (sh2 p)).
Proof.
  induction times as [|t rest IH]; intros; cbn [it_outer]; [reflexivity|].
  rewrite obs_mon, mon_bind, bind_assoc. apply bind_ext. intros [c1 w1]. cbn [fst snd].
  destruct rest as [|target rest']; [reflexivity|].
  rewrite it_inner_mon, mon_bind, !bind_assoc. apply bind_ext. intros [c2 [[[[s2 w2] x2] cdt2] st2]].
  rewrite bind_ret_l. cbn [fst snd sh3]. apply IH.
Qed.
End PlainL1.

Section CtrlL1.
Context {N : Num} {S W X : Type}.
Notation V := (ev X (carrier N)).
Variable m : nat.
Notation mon := (mon m false).
Variable obs : W -> X -> N -> M V W.
Variable try_step : S -> W -> X -> N -> N -> M V (S * W * X * N * N * bool).
Hypothesis Hobs : forall w x t, exists r, obs w x t = ([EObs x t], r).
Hypothesis Htry : forall s w x t dt, exists s1 w1 x1 t1 dt1 ok,
  try_step s w x t dt = ([ETry x t dt ok], Ok (s1, w1, x1, t1, dt1, ok)).

Definition sh4 {B C E} (p : nat * (S * W * X * B * C * E)) : S * (nat * W) * X * B * C * E :=
  let '(c, (s, w, x, b, d, e)) := p in (s, (c, w), x, b, d, e).
Definition shw {B} (p : nat * (W * X * B)) : (nat * W) * X * B :=
  let '(c, (w, x, b)) := p in ((c, w), x, b).

Lemma try_mon s c w x t dt :
  checked_try m try_step s (c, w) x t dt = bind (mon c (try_step s w x t dt)) (fun p => ret (sh4 p)).
Proof.
  unfold checked_try, mon, checker_call. cbn [fst snd].
  destruct (Htry s w x t dt) as (s1 & w1 & x1 & t1 & dt1 & ok & ->).
  cbn [fst snd scan is_obs is_step]. unfold bind, fail, ret. destruct ok; [|reflexivity]. destruct (Nat.leb m c); reflexivity.
Qed.

Lemma try_loop_mon : forall fuel cnt s c w x t dt,
  try_loop (checked_try m try_step) fuel cnt s (c, w) x t dt =
  bind (mon c (try_loop try_step fuel cnt s w x t dt)) (fun p => ret (sh3 p)).
Proof.
  induction fuel as [|fuel IH]; intros; cbn [try_loop]; [reflexivity|].
  rewrite try_mon, mon_bind, !bind_assoc. apply bind_ext. intros [c1 [[[[[s1 w1] x1] t1] dt1] ok]].
  rewrite bind_ret_l. cbn [fst snd sh4]. rewrite mon_bind, mon_fail, !bind_assoc.
  destruct (fail_check cnt) as [cnt1|e| |]; try reflexivity. cbn [map_res].
  change (fail (Ok cnt1)) with (@ret V nat cnt1). change (fail (Ok (c1, cnt1))) with (@ret V (nat * nat) (c1, cnt1)).
  rewrite !bind_ret_l. cbn [fst snd]. destruct ok; [reflexivity|apply IH].
Qed.

Lemma ia_loop_mon tend : forall fuel s c w x t dt count,
  ia_loop (checked_try m try_step) null_obs fuel tend s (c, w) x t dt count =
  bind (mon c (ia_loop try_step null_obs fuel tend s w x t dt count)) (fun p => ret (sh4 p)).
Proof.
  induction fuel as [|fuel IH]; intros; [reflexivity|].
  cbn -[try_loop default_max_steps Nat.add less_with_sign bind].
  destruct (less_with_sign t tend dt).
  - unfold null_obs. change (@pair (list V) (res (nat * W)) [] (Ok (c, w))) with (@ret V _ (c, w)).
    change (@pair (list V) (res W) [] (Ok w)) with (@ret V _ w). rewrite !bind_ret_l.
    rewrite try_loop_mon, mon_bind, !bind_assoc. apply bind_ext. intros [c1 [[[[s1 w1] x1] t1] dt1]].
    rewrite bind_ret_l. cbn [fst snd sh3]. apply IH.
  - reflexivity.
Qed.

Lemma icc_loop_mon t0 tend ts : forall fuel step real s c w x time dt,
  icc_loop (checked_try m try_step) (checked_obs obs) fuel t0 tend ts step real s (c, w) x time dt =
  bind (mon c (icc_loop try_step obs fuel t0 tend ts step real s w x time dt)) (fun p => ret (shw p)).
Proof.
  induction fuel as [|fuel IH]; intros; cbn [icc_loop]; [reflexivity|].
  destruct (less_eq_with_sign _ tend dt).
  - rewrite (obs_mon m obs Hobs), mon_bind, !bind_assoc. apply bind_ext. intros [c1 w1]. cbn [fst snd].
    unfold integrate_adaptive_ctrl. rewrite ia_loop_mon, mon_bind, !bind_assoc. apply bind_ext.
    intros [c2 [[[[[s2 w2] x2] t2] dt2] k]]. rewrite bind_ret_l. cbn [fst snd sh4]. apply IH.
  - rewrite (obs_mon m obs Hobs), mon_bind, !bind_assoc. apply bind_ext. intros [c1 w1]. reflexivity.
Qed.

Lemma insc_loop_mon fuel t0 ts : forall todo step s c w x time dt,
  insc_loop (checked_try m try_step) (checked_obs obs) fuel t0 ts todo step s (c, w) x time dt =
  bind (mon c (insc_loop try_step obs fuel t0 ts todo step s w x time dt)) (fun p => ret (shw p)).
Proof.
  induction todo as [|todo IH]; intros; cbn [insc_loop].
  - rewrite (obs_mon m obs Hobs), mon_bind, !bind_assoc. apply bind_ext. intros [c1 w1]. reflexivity.
  - rewrite (obs_mon m obs Hobs), mon_bind, !bind_assoc. apply bind_ext. intros [c1 w1]. cbn [fst snd].
    unfold integrate_adaptive_ctrl. rewrite ia_loop_mon, mon_bind, !bind_assoc. apply bind_ext.
    intros [c2 [[[[[s2 w2] x2] t2] dt2] k]]. rewrite bind_ret_l. cbn [fst snd sh4]. apply IH.
Qed.

Lemma itc_inner_mon target : forall fuel cnt s c w x cur dt steps,
  itc_inner (checked_try m try_step) fuel target cnt s (c, w) x cur dt steps =
  bind (mon c (itc_inner try_step fuel target cnt s w x cur dt steps)) (fun p => ret (sh4 p)).
Proof.
  induction fuel as [|fuel IH]; intros; cbn [itc_inner]; [reflexivity|].
  destruct (less_with_sign cur target dt); [|reflexivity].
  rewrite try_mon, mon_bind, !bind_assoc. apply bind_ext. intros [c1 [[[[[s1 w1] x1] t1] dt1] ok]].
  rewrite bind_ret_l. cbn [fst snd sh4]. destruct ok; [apply IH|].
  rewrite mon_bind, mon_fail, !bind_assoc.
  destruct (fail_check cnt) as [cnt1|e| |]; try reflexivity. cbn [map_res].
  change (fail (Ok cnt1)) with (@ret V nat cnt1). change (fail (Ok (c1, cnt1))) with (@ret V (nat * nat) (c1, cnt1)).
  rewrite !bind_ret_l. cbn [fst snd]. apply IH.
Qed.

Lemma itc_outer_mon fuel : forall times cnt s c w x dt steps,
  itc_outer (checked_try m try_step) (checked_obs obs) fuel times cnt s (c, w) x dt steps =
  bind (mon c (itc_outer try_step obs fuel times cnt s w x dt steps)) (fun p => ret (sh2 p)).
Proof.
  induction times as [|t rest IH]; intros; cbn [itc_outer]; [reflexivity|].
  rewrite (obs_mon m obs Hobs), mon_bind, !bind_assoc. apply bind_ext. intros [c1 w1]. cbn [fst snd].
  destruct rest as [|target rest']; [reflexivity|].
  rewrite itc_inner_mon, mon_bind, !bind_assoc. apply bind_ext. intros [c2 [[[[[s2 w2] x2] dt2] cnt2] st2]].
  rewrite bind_ret_l. cbn [fst snd sh4]. apply IH.
Qed.
End CtrlL1.

Section DenseL1.
Context {N : Num} {S W X : Type}.
Notation V := (ev X (carrier N)).
Variable m : nat.
Notation mon := (mon m true).
Variable obs : W -> X -> N -> M V W.
Variable D : DenseOps N S W X.
Notation CD := (checked_dense m D).
Hypothesis Hobs : forall w x t, exists r, obs w x t = ([EObs x t], r).
Hypothesis Hdo : forall s w, exists a b x p, d_step D s w = ([EDo a b x], Ok p).

Lemma obs_monp c w x t : checked_obs obs (c, w) x t = mon c (obs w x t).
Proof. unfold checked_obs, mon. cbn [fst snd]. destruct (Hobs w x t) as [r ->]. now destruct r. Qed.

Definition shd (p : nat * (S * W)) : S * (nat * W) := let '(c, (s, w)) := p in (s, (c, w)).
Definition shd1 {B} (p : nat * (S * W * B)) : S * (nat * W) * B := let '(c, (s, w, b)) := p in (s, (c, w), b).
Definition sho (p : nat * (W * X * N * nat)) : (nat * W) * X * N * nat :=
  let '(c, (w, x, t, k)) := p in ((c, w), x, t, k).

Lemma dstep_mon s c w :
  d_step CD s (c, w) = bind (mon c (d_step D s w)) (fun p => ret (shd p)).
Proof.
  cbn [checked_dense d_step]. unfold mon, checker_call. cbn [fst snd].
  destruct (Hdo s w) as (a & b & x & [s1 w1] & ->).
  cbn [fst snd scan is_obs is_step]. unfold bind, fail, ret. destruct (Nat.leb m c); reflexivity.
Qed.

(** calc_state and initialize emit no checked event. *)
Lemma calc_mon {B} c s t (f : X -> M V B) :
  mon c (bind (call_calc D s t) f) = bind (call_calc D s t) (fun x => mon c (f x)).
Proof. unfold call_calc. rewrite mon_bind. reflexivity. Qed.
Lemma init_mon {B} c s x t dt (f : S -> M V B) :
  mon c (bind (call_init D s x t dt) f) = bind (call_init D s x t dt) (fun x => mon c (f x)).
Proof. unfold call_init. rewrite mon_bind. reflexivity. Qed.

Lemma icd_obs_mon t0 dt : forall fuel s c w x time k,
  icd_obs CD (checked_obs obs) fuel t0 dt s (c, w) x time k =
  bind (mon c (icd_obs D obs fuel t0 dt s w x time k)) (fun p => ret (sho p)).
Proof.
  induction fuel as [|fuel IH]; intros; cbn [icd_obs]; [reflexivity|].
  cbn [checked_dense d_t]. destruct (less_eq_with_sign time _ dt); [|reflexivity].
  rewrite calc_mon, bind_assoc. change (call_calc CD s time) with (call_calc D s time). apply bind_ext. intros x1.
  rewrite obs_monp, mon_bind, !bind_assoc. apply bind_ext. intros [c1 w1]. cbn [fst snd]. apply IH.
Qed.

Lemma icd_steps_mon dt time : forall fuel s c w real,
  icd_steps CD fuel dt time s (c, w) real =
  bind (mon c (icd_steps D fuel dt time s w real)) (fun p => ret (shd1 p)).
Proof.
  induction fuel as [|fuel IH]; intros; cbn [icd_steps]; [reflexivity|].
  change (d_t CD s) with (d_t D s). destruct (less_eq_with_sign _ time dt); [|reflexivity].
  rewrite dstep_mon, mon_bind, !bind_assoc. apply bind_ext. intros [c1 [s1 w1]].
  rewrite bind_ret_l. cbn [fst snd shd]. apply IH.
Qed.

Lemma icd_loop_mon t0 tend dt : forall fuel s c w x time k real,
  icd_loop CD (checked_obs obs) fuel t0 tend dt s (c, w) x time k real =
  bind (mon c (icd_loop D obs fuel t0 tend dt s w x time k real)) (fun p => ret (sh2 p)).
Proof.
  induction fuel as [|fuel IH]; intros; cbn [icd_loop]; [reflexivity|].
  destruct (less_eq_with_sign _ tend dt).
  - rewrite icd_obs_mon, mon_bind, !bind_assoc. apply bind_ext. intros [c1 [[[w1 x1] time1] k1]].
    rewrite bind_ret_l. cbn [fst snd sho]. rewrite mon_bind, !bind_assoc.
    change (d_t CD s) with (d_t D s). change (d_dt CD s) with (d_dt D s).
    transitivity (bind (mon c1 (if less_with_sign (d_t D s + d_dt D s)%num tend (d_dt D s)
         then icd_steps D fuel dt time1 s w1 real
         else if less_with_sign (d_t D s) tend (d_dt D s)
         then let* s' := reinit_to D s tend in let* (s'', w'') := d_step D s' w1 in ret (s'', w'', Datatypes.S real)
         else ret (s, w1, real)))
      (fun p => let '(s2, w2, real2) := shd1 p in
         icd_loop CD (checked_obs obs) fuel t0 tend dt s2 w2 x1 time1 k1 real2)).
    + destruct (less_with_sign (d_t D s + d_dt D s)%num tend (d_dt D s)).
      * rewrite icd_steps_mon, !bind_assoc. apply bind_ext. intros [c2 [[s2 w2] r2]]. now rewrite bind_ret_l.
      * destruct (less_with_sign (d_t D s) tend (d_dt D s)); [|reflexivity].
        unfold reinit_to. rewrite init_mon, !bind_assoc.
        change (call_init CD s (d_x CD s) (d_t CD s) (tend - d_t CD s)%num) with (call_init D s (d_x D s) (d_t D s) (tend - d_t D s)%num).
        apply bind_ext. intros s'. rewrite dstep_mon, mon_bind, !bind_assoc. apply bind_ext. intros [c2 [s2 w2]].
        rewrite !bind_ret_l. cbn [fst snd shd]. rewrite mon_ret, !bind_ret_l. reflexivity.
    + apply bind_ext. intros [c2 [[s2 w2] r2]]. cbn [fst snd shd1]. apply IH.
  - destruct (less_eq_with_sign time tend dt); [|reflexivity].
    rewrite calc_mon, bind_assoc. change (call_calc CD s time) with (call_calc D s time). apply bind_ext. intros x1.
    rewrite obs_monp, mon_bind, !bind_assoc. apply bind_ext. intros [c1 w1]. reflexivity.
Qed.

Lemma integrate_const_dense_mon fuel s c w x t0 tend dt :
  integrate_const_dense CD (checked_obs obs) fuel s (c, w) x t0 tend dt =
  bind (mon c (integrate_const_dense D obs fuel s w x t0 tend dt)) (fun p => ret (sh2 p)).
Proof.
  unfold integrate_const_dense. rewrite init_mon, bind_assoc.
  change (call_init CD s x t0 dt) with (call_init D s x t0 dt). apply bind_ext. intros s1.
  rewrite obs_monp, mon_bind, !bind_assoc. apply bind_ext. intros [c1 w1]. cbn [fst snd]. apply icd_loop_mon.
Qed.

Lemma insd_obs_mon t0 dt : forall fuel s c w x time k,
  insd_obs CD (checked_obs obs) fuel t0 dt s (c, w) x time k =
  bind (mon c (insd_obs D obs fuel t0 dt s w x time k)) (fun p => ret (sho p)).
Proof.
  induction fuel as [|fuel IH]; intros; cbn [insd_obs]; [reflexivity|].
  cbn [checked_dense d_t d_dt]. destruct (less_with_sign time _ _); [|reflexivity].
  rewrite calc_mon, bind_assoc. change (call_calc CD s time) with (call_calc D s time). apply bind_ext. intros x1.
  rewrite obs_monp, mon_bind, !bind_assoc. apply bind_ext. intros [c1 w1]. cbn [fst snd]. apply IH.
Qed.

Lemma insd_loop_mon t0 tend dt n : forall fuel s c w x time k,
  insd_loop CD (checked_obs obs) fuel t0 tend dt n s (c, w) x time k =
  bind (mon c (insd_loop D obs fuel t0 tend dt n s w x time k)) (fun p => ret (sh2 p)).
Proof.
  induction fuel as [|fuel IH]; intros; cbn [insd_loop]; [reflexivity|].
  destruct (Nat.ltb k n); [|reflexivity].
  rewrite insd_obs_mon, mon_bind, !bind_assoc. apply bind_ext. intros [c1 [[[w1 x1] time1] k1]].
  rewrite bind_ret_l. cbn [fst snd sho]. rewrite mon_bind, !bind_assoc.
  change (d_t CD s) with (d_t D s). change (d_dt CD s) with (d_dt D s).
  transitivity (bind (mon c1 (if less_with_sign (d_t D s + d_dt D s)%num tend (d_dt D s)
         then d_step D s w1
         else if less_with_sign (d_t D s) tend (d_dt D s)
         then let* s' := reinit_to D s tend in d_step D s' w1
         else ret (s, w1)))
      (fun p => let '(s2, w2) := shd p in
         insd_loop CD (checked_obs obs) fuel t0 tend dt n s2 w2 x1 time1 k1)).
  - destruct (less_with_sign (d_t D s + d_dt D s)%num tend (d_dt D s)).
    + rewrite dstep_mon, !bind_assoc. apply bind_ext. intros [c2 [s2 w2]]. now rewrite bind_ret_l.
    + destruct (less_with_sign (d_t D s) tend (d_dt D s)); [|reflexivity].
      unfold reinit_to. rewrite init_mon, !bind_assoc.
      change (call_init CD s (d_x CD s) (d_t CD s) (tend - d_t CD s)%num) with (call_init D s (d_x D s) (d_t D s) (tend - d_t D s)%num).
      apply bind_ext. intros s'. rewrite dstep_mon, !bind_assoc. apply bind_ext. intros [c2 [s2 w2]]. now rewrite bind_ret_l.
  - apply bind_ext. intros [c2 [s2 w2]]. cbn [fst snd shd]. apply IH.
Qed.

Lemma insd_final_mon tend : forall fuel s c w,
  insd_final CD fuel tend s (c, w) = bind (mon c (insd_final D fuel tend s w)) (fun p => ret (shd p)).
Proof.
  induction fuel as [|fuel IH]; intros; cbn [insd_final]; [reflexivity|].
  change (d_t CD s) with (d_t D s). change (d_dt CD s) with (d_dt D s).
  destruct (d_t D s <? tend)%num; [|reflexivity].
  destruct (less_with_sign tend _ (d_dt D s)).
  - unfold reinit_to. rewrite init_mon, bind_assoc.
    change (call_init CD s (d_x CD s) (d_t CD s) (tend - d_t CD s)%num) with (call_init D s (d_x D s) (d_t D s) (tend - d_t D s)%num).
    apply bind_ext. intros s'. rewrite dstep_mon, mon_bind, !bind_assoc. apply bind_ext. intros [c2 [s2 w2]].
    rewrite bind_ret_l. cbn [fst snd shd]. apply IH.
  - rewrite !bind_ret_l. rewrite dstep_mon, mon_bind, !bind_assoc. apply bind_ext. intros [c2 [s2 w2]].
    rewrite bind_ret_l. cbn [fst snd shd]. apply IH.
Qed.

Lemma integrate_n_steps_dense_mon fuel s c w x t0 dt n :
  integrate_n_steps_dense CD (checked_obs obs) fuel s (c, w) x t0 dt n =
  bind (mon c (integrate_n_steps_dense D obs fuel s w x t0 dt n)) (fun p => ret (sh2 p)).
Proof.
  unfold integrate_n_steps_dense. rewrite init_mon, bind_assoc.
  change (call_init CD s x t0 dt) with (call_init D s x t0 dt). apply bind_ext. intros s1.
  rewrite insd_loop_mon, mon_bind, !bind_assoc. apply bind_ext. intros [c2 [[[s2 w2] x2] tm]].
  rewrite bind_ret_l. cbn [fst snd sh2].
  rewrite insd_final_mon, mon_bind, !bind_assoc. apply bind_ext. intros [c3 [s3 w3]].
  rewrite bind_ret_l. cbn [fst snd shd]. change (d_x CD s3) with (d_x D s3).
  rewrite obs_monp, mon_bind, !bind_assoc. apply bind_ext. intros [c1 w1]. reflexivity.
Qed.

Definition shl (p : nat * (list N * W * X)) : list N * (nat * W) * X :=
  let '(c, (l, w, x)) := p in (l, (c, w), x).
Lemma itd_obs_mon : forall times s c w x,
  itd_obs CD (checked_obs obs) times s (c, w) x =
  bind (mon c (itd_obs D obs times s w x)) (fun p => ret (shl p)).
Proof.
  induction times as [|t rest IH]; intros; cbn [itd_obs]; [reflexivity|].
  cbn [checked_dense d_t d_dt]. destruct (less_eq_with_sign t _ _); [|reflexivity].
  rewrite calc_mon, bind_assoc. change (call_calc CD s t) with (call_calc D s t). apply bind_ext. intros x1.
  rewrite obs_monp, mon_bind, !bind_assoc. apply bind_ext. intros [c1 w1]. cbn [fst snd]. apply IH.
Qed.

Lemma itd_loop_mon last : forall fuel times s c w x count,
  itd_loop CD (checked_obs obs) fuel last times s (c, w) x count =
  bind (mon c (itd_loop D obs fuel last times s w x count)) (fun p => ret (sh2 p)).
Proof.
  induction fuel as [|fuel IH]; intros; cbn [itd_loop]; [reflexivity|].
  destruct times as [|t rest]; [reflexivity|].
  rewrite itd_obs_mon, mon_bind, !bind_assoc. apply bind_ext. intros [c1 [[l1 w1] x1]].
  rewrite bind_ret_l. cbn [fst snd shl].
  change (d_t CD s) with (d_t D s). change (d_dt CD s) with (d_dt D s).
  destruct (less_eq_with_sign _ last (d_dt D s)).
  - rewrite dstep_mon, mon_bind, !bind_assoc. apply bind_ext. intros [c2 [s2 w2]].
    rewrite bind_ret_l. cbn [fst snd shd]. apply IH.
  - destruct l1 as [|t1 l1]; [apply IH|].
    unfold reinit_to. rewrite init_mon, !bind_assoc.
    change (call_init CD s (d_x CD s) (d_t CD s) (last - d_t CD s)%num) with (call_init D s (d_x D s) (d_t D s) (last - d_t D s)%num).
    apply bind_ext. intros s'. rewrite dstep_mon, mon_bind, !bind_assoc. apply bind_ext. intros [c2 [s2 w2]].
    rewrite bind_ret_l. cbn [fst snd shd]. apply IH.
Qed.

Lemma integrate_times_dense_mon fuel s c w x times dt :
  integrate_times_dense CD (checked_obs obs) fuel s (c, w) x times dt =
  bind (mon c (integrate_times_dense D obs fuel s w x times dt)) (fun p => ret (sh2 p)).
Proof.
  unfold integrate_times_dense. destruct times as [|t rest]; [reflexivity|].
  rewrite init_mon, bind_assoc.
  change (call_init CD s x t dt) with (call_init D s x t dt). apply bind_ext. intros s1.
  rewrite obs_monp, mon_bind, !bind_assoc. apply bind_ext. intros [c1 w1]. cbn [fst snd]. apply itd_loop_mon.
Qed.
End DenseL1.

(** A stepper held by reference gives the same run as one held by value, except where the
    driver copies the stepper. *)
Section RefPlain.
Context {N : Num} {S W X : Type}.
Notation V := (ev X (carrier N)).
Variable obs : W -> X -> N -> M V W.
Variable do_step : S -> W -> X -> N -> N -> M V (S * W * X).

Definition rf2 {B} (p : S * W * X * B) : unit * (S * W) * X * B :=
  let '(s, w, x, b) := p in (tt, (s, w), x, b).
Definition rf3 {B C} (p : S * W * X * B * C) : unit * (S * W) * X * B * C :=
  let '(s, w, x, b, c) := p in (tt, (s, w), x, b, c).
Definition rf4 {B C D} (p : S * W * X * B * C * D) : unit * (S * W) * X * B * C * D :=
  let '(s, w, x, b, c, d) := p in (tt, (s, w), x, b, c, d).

Lemma ins_loop_ref t0 dt : forall todo step s w x time,
  ins_loop (ref_obs obs) (ref_do do_step) t0 dt todo step tt (s, w) x time =
  bind (ins_loop obs do_step t0 dt todo step s w x time) (fun p => ret (rf2 p)).
Proof.
  induction todo as [|todo IH]; intros; cbn [ins_loop]; unfold ref_obs at 1; cbn [fst snd].
  - rewrite !bind_assoc. apply bind_ext. intros w1. rewrite !bind_ret_l. reflexivity.
  - rewrite !bind_assoc. apply bind_ext. intros w1. rewrite !bind_ret_l. unfold ref_do at 1. cbn [fst snd].
    rewrite !bind_assoc. apply bind_ext. intros [[s2 w2] x2]. rewrite !bind_ret_l. apply IH.
Qed.

Lemma ic_loop_ref t0 tend dt : forall fuel step s w x time,
  ic_loop (ref_obs obs) (ref_do do_step) fuel t0 tend dt step tt (s, w) x time =
  bind (ic_loop obs do_step fuel t0 tend dt step s w x time) (fun p => ret (rf2 p)).
Proof.
  induction fuel as [|fuel IH]; intros; cbn [ic_loop]; [reflexivity|].
  destruct (less_eq_with_sign _ tend dt); unfold ref_obs at 1; cbn [fst snd];
    rewrite !bind_assoc; apply bind_ext; intros w1; rewrite !bind_ret_l; [|reflexivity].
  unfold ref_do at 1. cbn [fst snd].
  rewrite !bind_assoc. apply bind_ext. intros [[s2 w2] x2]. rewrite !bind_ret_l. apply IH.
Qed.

Lemma it_inner_ref dt target : forall fuel s w x cur cdt steps,
  it_inner (ref_do do_step) fuel dt target tt (s, w) x cur cdt steps =
  bind (it_inner do_step fuel dt target s w x cur cdt steps) (fun p => ret (rf3 p)).
Proof.
  induction fuel as [|fuel IH]; intros; cbn [it_inner]; [reflexivity|].
  destruct (less_with_sign cur target cdt); [|reflexivity]. unfold ref_do at 1. cbn [fst snd].
  rewrite !bind_assoc. apply bind_ext. intros [[s2 w2] x2]. rewrite !bind_ret_l. apply IH.
Qed.

Lemma it_outer_ref fuel dt : forall times s w x cdt steps,
  it_outer (ref_obs obs) (ref_do do_step) fuel dt times tt (s, w) x cdt steps =
  bind (it_outer obs do_step fuel dt times s w x cdt steps) (fun p => ret (rf2 p)).
Proof.
  induction times as [|t rest IH]; intros; cbn [it_outer]; [reflexivity|].
  unfold ref_obs at 1; cbn [fst snd]. rewrite !bind_assoc. apply bind_ext. intros w1. rewrite !bind_ret_l.
  destruct rest as [|target rest']; [reflexivity|].
  rewrite it_inner_ref, !bind_assoc. apply bind_ext. intros [[[[s2 w2] x2] cdt2] st2].
  rewrite !bind_ret_l. apply IH.
Qed.
End RefPlain.

Section RefCtrl.
Context {N : Num} {S W X : Type}.
Notation V := (ev X (carrier N)).
Variable obs : W -> X -> N -> M V W.
Variable try_step : S -> W -> X -> N -> N -> M V (S * W * X * N * N * bool).

Lemma try_loop_ref : forall fuel cnt s w x t dt,
  try_loop (ref_try try_step) fuel cnt tt (s, w) x t dt =
  bind (try_loop try_step fuel cnt s w x t dt) (fun p => ret (rf3 p)).
Proof.
  induction fuel as [|fuel IH]; intros; cbn [try_loop]; [reflexivity|].
  unfold ref_try at 1. cbn [fst snd]. rewrite !bind_assoc. apply bind_ext. intros [[[[[s1 w1] x1] t1] dt1] ok].
  rewrite !bind_ret_l, !bind_assoc. apply bind_ext. intros cnt1. destruct ok; [reflexivity|]. apply IH.
Qed.

Lemma ia_loop_ref tend : forall fuel s w x t dt count,
  ia_loop (ref_try try_step) null_obs fuel tend tt (s, w) x t dt count =
  bind (ia_loop try_step null_obs fuel tend s w x t dt count) (fun p => ret (rf4 p)).
Proof.
  induction fuel as [|fuel IH]; intros; [reflexivity|].
  cbn -[try_loop default_max_steps Nat.add less_with_sign bind].
  destruct (less_with_sign t tend dt); [|reflexivity].
  unfold null_obs. change (@pair (list V) (res (S * W)) [] (Ok (s, w))) with (@ret V _ (s, w)).
  change (@pair (list V) (res W) [] (Ok w)) with (@ret V _ w). rewrite !bind_ret_l.
  rewrite try_loop_ref, !bind_assoc. apply bind_ext. intros [[[[s1 w1] x1] t1] dt1].
  rewrite bind_ret_l. cbn [rf3]. apply IH.
Qed.

Lemma itc_inner_ref target : forall fuel cnt s w x cur dt steps,
  itc_inner (ref_try try_step) fuel target cnt tt (s, w) x cur dt steps =
  bind (itc_inner try_step fuel target cnt s w x cur dt steps) (fun p => ret (rf4 p)).
Proof.
  induction fuel as [|fuel IH]; intros; cbn [itc_inner]; [reflexivity|].
  destruct (less_with_sign cur target dt); [|reflexivity].
  unfold ref_try at 1. cbn [fst snd]. rewrite !bind_assoc. apply bind_ext. intros [[[[[s1 w1] x1] t1] dt1] ok].
  rewrite !bind_ret_l. destruct ok; [apply IH|]. rewrite !bind_assoc. apply bind_ext. intros cnt1. apply IH.
Qed.

Lemma itc_outer_ref fuel : forall times cnt s w x dt steps,
  itc_outer (ref_try try_step) (ref_obs obs) fuel times cnt tt (s, w) x dt steps =
  bind (itc_outer try_step obs fuel times cnt s w x dt steps) (fun p => ret (rf2 p)).
Proof.
  induction times as [|t rest IH]; intros; cbn [itc_outer]; [reflexivity|].
  unfold ref_obs at 1; cbn [fst snd]. rewrite !bind_assoc. apply bind_ext. intros w1. rewrite !bind_ret_l.
  destruct rest as [|target rest']; [reflexivity|].
  rewrite itc_inner_ref, !bind_assoc. apply bind_ext. intros [[[[[s2 w2] x2] dt2] cnt2] st2].
  rewrite !bind_ret_l. apply IH.
Qed.

(** integrate_const and integrate_n_steps copy a controlled stepper for each interval; with a
    stepper object that its steps do not change this makes no difference. *)
Variable s : S.
Hypothesis Hs : forall w x t dt tr s1 w1 x1 t1 dt1 ok,
  try_step s w x t dt = (tr, Ok (s1, w1, x1, t1, dt1, ok)) -> s1 = s.

Definition rfw {B} (p : W * X * B) : (S * W) * X * B := let '(w, x, b) := p in ((s, w), x, b).

Lemma bind_ext_ok {A B} (r : M V A) (f g : A -> M V B) :
  (forall tr a, r = (tr, Ok a) -> f a = g a) -> bind r f = bind r g.
Proof.
  intros H. destruct r as [tr [a|e| |]]; unfold bind; try reflexivity. now rewrite (H tr a).
Qed.

Lemma try_loop_same : forall fuel cnt w x t dt tr s1 w1 x1 t1 dt1,
  try_loop try_step fuel cnt s w x t dt = (tr, Ok (s1, w1, x1, t1, dt1)) -> s1 = s.
Proof.
  induction fuel as [|fuel IH]; intros * H; cbn [try_loop] in H; [discriminate|].
  apply bind_ok_inv in H as (tr1 & [[[[[s2 w2] x2] t2] dt2] ok] & tr2 & H1 & H & _).
  apply Hs in H1. subst s2. apply bind_ok_inv in H as (tr3 & cnt1 & tr4 & _ & H & _).
  destruct ok; [now injection H|]. now apply IH in H.
Qed.

Lemma ia_loop_same tend : forall fuel w x t dt count tr s1 w1 x1 t1 dt1 n,
  ia_loop try_step null_obs fuel tend s w x t dt count = (tr, Ok (s1, w1, x1, t1, dt1, n)) -> s1 = s.
Proof.
  induction fuel as [|fuel IH]; intros * H; [discriminate|].
  cbn -[try_loop default_max_steps Nat.add less_with_sign bind] in H.
  destruct (less_with_sign t tend dt).
  - apply bind_ok_inv in H as (tr1 & w2 & tr2 & _ & H & _).
    apply bind_ok_inv in H as (tr3 & [[[[s2 w3] x2] t2] dt2] & tr4 & H1 & H & _).
    apply try_loop_same in H1. subst s2. now apply IH in H.
  - apply bind_ok_inv in H as (tr1 & w2 & tr2 & _ & H & _). now injection H.
Qed.

Lemma icc_loop_ref t0 tend ts : forall fuel step real w x time dt,
  icc_loop (ref_try try_step) (ref_obs obs) fuel t0 tend ts step real tt (s, w) x time dt =
  bind (icc_loop try_step obs fuel t0 tend ts step real s w x time dt) (fun p => ret (rfw p)).
Proof.
  induction fuel as [|fuel IH]; intros; cbn [icc_loop]; [reflexivity|].
  destruct (less_eq_with_sign _ tend dt); unfold ref_obs at 1; cbn [fst snd];
    rewrite !bind_assoc; apply bind_ext; intros w1; rewrite !bind_ret_l; [|reflexivity].
  unfold integrate_adaptive_ctrl. rewrite ia_loop_ref, !bind_assoc. apply bind_ext_ok.
  intros tr [[[[[s2 w2] x2] t2] dt2] k] H. apply ia_loop_same in H. subst s2.
  rewrite bind_ret_l. cbn [rf4]. apply IH.
Qed.

Lemma insc_loop_ref fuel t0 ts : forall todo step w x time dt,
  insc_loop (ref_try try_step) (ref_obs obs) fuel t0 ts todo step tt (s, w) x time dt =
  bind (insc_loop try_step obs fuel t0 ts todo step s w x time dt) (fun p => ret (rfw p)).
Proof.
  induction todo as [|todo IH]; intros; cbn [insc_loop]; unfold ref_obs at 1; cbn [fst snd];
    rewrite !bind_assoc; apply bind_ext; intros w1; rewrite !bind_ret_l; [reflexivity|].
  unfold integrate_adaptive_ctrl. rewrite ia_loop_ref, !bind_assoc. apply bind_ext_ok.
  intros tr [[[[[s2 w2] x2] t2] dt2] k] H. apply ia_loop_same in H. subst s2.
  rewrite bind_ret_l. cbn [rf4]. apply IH.
Qed.
End RefCtrl.

(** Putting both together. *)
Lemma finish {X T A B C} m pre (rf : A -> B) (sh : nat * B -> C) (K : nat -> A -> C) (un : M (ev X T) A) ch :
  ch = bind (mon m pre 0 (bind un (fun p => ret (rf p)))) (fun p => ret (sh p)) ->
  (forall c p, K c p = sh (c, rf p)) -> checked_run m pre K un ch.
Proof.
  intros -> HK. pose proof (mon_checked m pre (fun c p => sh (c, p)) (bind un (fun p => ret (rf p)))) as [H1 H2].
  destruct un as [tr r]. unfold checked_run, trace_of, result_of in *.
  assert (E : bind (tr, r) (fun p => ret (rf p)) = (tr, map_res rf r)).
  { unfold bind, ret. destruct r; try reflexivity. now rewrite app_nil_r. }
  rewrite E in *. cbn [fst snd] in *.
  assert (G : bind (mon m pre 0 (tr, map_res rf r)) (fun p => ret (sh p)) =
              bind (mon m pre 0 (tr, map_res rf r)) (fun p => ret (sh (fst p, snd p)))).
  { apply bind_ext. now intros [c p]. }
  rewrite G. split.
  - intros Hv. rewrite (H1 Hv). f_equal. destruct r; try reflexivity. cbn. now rewrite HK.
  - exact H2.
Qed.

Section Final.
Context {N : Num} {S W X : Type}.
Notation V := (ev X (carrier N)).
Variable m : nat.
Variable g : W -> X -> N -> res W.

Lemma user_obs_ref (w : S * W) x t : exists r, ref_obs (user_obs g) w x t = ([EObs x t], r).
Proof. unfold ref_obs, user_obs, bind, ret. destruct (g (snd w) x t); eauto. Qed.
Lemma user_obs_one (w : W) x t : exists r, user_obs g w x t = ([EObs x t], r).
Proof. unfold user_obs; eauto. Qed.

Section FPlain.
Variable f : S -> X -> N -> N -> S * X.
Lemma plain_ref (s : unit) (w : S * W) x t dt : exists p, ref_do (plain_step f) s w x t dt = ([EStep x t dt], Ok p).
Proof. unfold ref_do, plain_step, bind, ret. destruct (f (fst w) x t dt). eauto. Qed.

Definition KP {B} (c : nat) (p : S * W * X * B) : unit * (nat * (S * W)) * X * B :=
  let '(s, w, x, b) := p in (tt, (c, (s, w)), x, b).

Lemma n_steps_checked s w x t0 dt n :
  checked_run m false KP (integrate_n_steps (user_obs g) (plain_step f) s w x t0 dt n)
   (integrate_n_steps (checked_obs (ref_obs (user_obs g))) (checked_do m (ref_do (plain_step f))) tt (0, (s, w)) x t0 dt n).
Proof.
  unfold integrate_n_steps. eapply finish.
  - rewrite (ins_loop_mon m _ _ user_obs_ref plain_ref), ins_loop_ref. reflexivity.
  - now intros c [[[? ?] ?] ?].
Qed.
Lemma const_checked fuel s w x t0 tend dt :
  checked_run m false KP (integrate_const (user_obs g) (plain_step f) fuel s w x t0 tend dt)
   (integrate_const (checked_obs (ref_obs (user_obs g))) (checked_do m (ref_do (plain_step f))) fuel tt (0, (s, w)) x t0 tend dt).
Proof.
  unfold integrate_const. eapply finish.
  - rewrite (ic_loop_mon m _ _ user_obs_ref plain_ref), ic_loop_ref. reflexivity.
  - now intros c [[[? ?] ?] ?].
Qed.
Lemma times_checked fuel s w x times dt :
  checked_run m false KP (integrate_times_plain (user_obs g) (plain_step f) fuel s w x times dt)
   (integrate_times_plain (checked_obs (ref_obs (user_obs g))) (checked_do m (ref_do (plain_step f))) fuel tt (0, (s, w)) x times dt).
Proof.
  unfold integrate_times_plain. eapply finish.
  - rewrite (it_outer_mon m _ _ user_obs_ref plain_ref), it_outer_ref. reflexivity.
  - now intros c [[[? ?] ?] ?].
Qed.
End FPlain.

Section FCtrl.
Variable f : S -> X -> N -> N -> S * X * N * N * bool.
Lemma try_ref (s : unit) (w : S * W) x t dt : exists s1 w1 x1 t1 dt1 ok,
  ref_try (ctrl_step f) s w x t dt = ([ETry x t dt ok], Ok (s1, w1, x1, t1, dt1, ok)).
Proof.
  unfold ref_try, ctrl_step, bind, ret. destruct (f (fst w) x t dt) as [[[[s1 x1] t1] dt1] ok].
  exists tt, (s1, snd w), x1, t1, dt1, ok. reflexivity.
Qed.
Lemma try_one (s : S) (w : W) x t dt : exists s1 w1 x1 t1 dt1 ok,
  ctrl_step f s w x t dt = ([ETry x t dt ok], Ok (s1, w1, x1, t1, dt1, ok)).
Proof.
  unfold ctrl_step. destruct (f s x t dt) as [[[[s1 x1] t1] dt1] ok].
  exists s1, w, x1, t1, dt1, ok. reflexivity.
Qed.
Lemma times_ctrl_checked fuel s w x times dt :
  checked_run m false KP (integrate_times_ctrl (ctrl_step f) (user_obs g) fuel s w x times dt)
   (integrate_times_ctrl (checked_try m (ref_try (ctrl_step f))) (checked_obs (ref_obs (user_obs g))) fuel tt (0, (s, w)) x times dt).
Proof.
  unfold integrate_times_ctrl. eapply finish.
  - rewrite (itc_outer_mon m _ _ user_obs_ref try_ref), itc_outer_ref. reflexivity.
  - now intros c [[[? ?] ?] ?].
Qed.

(** integrate_const, integrate_n_steps: the stepper shared through the reference. *)
Definition KW {W' B} (c : nat) (p : W' * X * B) : (nat * W') * X * B := let '(w, x, b) := p in ((c, w), x, b).
Lemma const_ctrl_checked fuel s w x t0 tend dt :
  checked_run m false KW
   (integrate_const_ctrl (ref_try (ctrl_step f)) (ref_obs (user_obs g)) fuel tt (s, w) x t0 tend dt)
   (integrate_const_ctrl (checked_try m (ref_try (ctrl_step f))) (checked_obs (ref_obs (user_obs g))) fuel tt (0, (s, w)) x t0 tend dt).
Proof.
  unfold integrate_const_ctrl. eapply (finish m false (fun p => p)).
  - rewrite (icc_loop_mon m _ _ user_obs_ref try_ref). f_equal. f_equal. symmetry. apply bind_ret_r.
  - now intros c [[? ?] ?].
Qed.
Lemma n_steps_ctrl_checked fuel s w x t0 dt n :
  checked_run m false KW
   (integrate_n_steps_ctrl (ref_try (ctrl_step f)) (ref_obs (user_obs g)) fuel tt (s, w) x t0 dt n)
   (integrate_n_steps_ctrl (checked_try m (ref_try (ctrl_step f))) (checked_obs (ref_obs (user_obs g))) fuel tt (0, (s, w)) x t0 dt n).
Proof.
  unfold integrate_n_steps_ctrl. eapply (finish m false (fun p => p)).
  - rewrite (insc_loop_mon m _ _ user_obs_ref try_ref). f_equal. f_equal. symmetry. apply bind_ret_r.
  - now intros c [[? ?] ?].
Qed.
Definition KS {B} (s : S) (c : nat) (p : W * X * B) : (nat * (S * W)) * X * B := let '(w, x, b) := p in ((c, (s, w)), x, b).
Hypothesis Hf : forall s x t dt, fst (fst (fst (fst (f s x t dt)))) = s.
Lemma ctrl_same s w x t dt tr s1 (w1 : W) x1 t1 dt1 ok :
  ctrl_step f s w x t dt = (tr, Ok (s1, w1, x1, t1, dt1, ok)) -> s1 = s.
Proof.
  unfold ctrl_step. pose proof (Hf s x t dt) as H. destruct (f s x t dt) as [[[[s2 x2] t2] dt2] ok2].
  cbn in H. intros E. injection E as _ <- _ _ _ _ _. exact H.
Qed.
Lemma const_ctrl_checked_stateless fuel s w x t0 tend dt :
  checked_run m false (KS s)
   (integrate_const_ctrl (ctrl_step f) (user_obs g) fuel s w x t0 tend dt)
   (integrate_const_ctrl (checked_try m (ref_try (ctrl_step f))) (checked_obs (ref_obs (user_obs g))) fuel tt (0, (s, w)) x t0 tend dt).
Proof.
  unfold integrate_const_ctrl. eapply finish.
  - rewrite (icc_loop_mon m _ _ user_obs_ref try_ref), (icc_loop_ref _ _ s (ctrl_same s)). reflexivity.
  - now intros c [[? ?] ?].
Qed.
Lemma n_steps_ctrl_checked_stateless fuel s w x t0 dt n :
  checked_run m false (KS s)
   (integrate_n_steps_ctrl (ctrl_step f) (user_obs g) fuel s w x t0 dt n)
   (integrate_n_steps_ctrl (checked_try m (ref_try (ctrl_step f))) (checked_obs (ref_obs (user_obs g))) fuel tt (0, (s, w)) x t0 dt n).
Proof.
  unfold integrate_n_steps_ctrl. eapply finish.
  - rewrite (insc_loop_mon m _ _ user_obs_ref try_ref), (insc_loop_ref _ _ s (ctrl_same s)). reflexivity.
  - now intros c [[? ?] ?].
Qed.
End FCtrl.

Section FDense.
Variables (init : S -> X -> N -> N -> S) (step : S -> S) (calc : S -> N -> X) (ct : S -> N) (cx : S -> X) (cdt : S -> N).
Notation D := (dense_of (W := W) init step calc ct cx cdt).
Lemma dense_one s w : exists a b x p, d_step D s w = ([EDo a b x], Ok p).
Proof. cbn. eauto 6. Qed.
Definition KD {B} (c : nat) (p : S * W * X * B) : S * (nat * W) * X * B := let '(s, w, x, b) := p in (s, (c, w), x, b).
Lemma const_dense_checked fuel s w x t0 tend dt :
  checked_run m true KD (integrate_const_dense D (user_obs g) fuel s w x t0 tend dt)
   (integrate_const_dense (checked_dense m D) (checked_obs (user_obs g)) fuel s (0, w) x t0 tend dt).
Proof.
  eapply (finish m true (fun p => p)).
  - rewrite (integrate_const_dense_mon m _ _ user_obs_one dense_one). f_equal. f_equal. symmetry. apply bind_ret_r.
  - now intros c [[[? ?] ?] ?].
Qed.
Lemma n_steps_dense_checked fuel s w x t0 dt n :
  checked_run m true KD (integrate_n_steps_dense D (user_obs g) fuel s w x t0 dt n)
   (integrate_n_steps_dense (checked_dense m D) (checked_obs (user_obs g)) fuel s (0, w) x t0 dt n).
Proof.
  eapply (finish m true (fun p => p)).
  - rewrite (integrate_n_steps_dense_mon m _ _ user_obs_one dense_one). f_equal. f_equal. symmetry. apply bind_ret_r.
  - now intros c [[[? ?] ?] ?].
Qed.
Lemma times_dense_checked fuel s w x times dt :
  checked_run m true KD (integrate_times_dense D (user_obs g) fuel s w x times dt)
   (integrate_times_dense (checked_dense m D) (checked_obs (user_obs g)) fuel s (0, w) x times dt).
Proof.
  eapply (finish m true (fun p => p)).
  - rewrite (integrate_times_dense_mon m _ _ user_obs_one dense_one). f_equal. f_equal. symmetry. apply bind_ret_r.
  - now intros c [[[? ?] ?] ?].
Qed.
End FDense.
End Final.

Lemma checked_throws_iff {X T A B} m pre (K : nat -> A -> B) (un : M (ev X T) A) ch :
  checked_run m pre K un ch -> result_of un <> Exc NoProgress ->
  (result_of ch = Exc NoProgress <-> violates m (trace_of un)).
Proof.
  intros [H1 H2] Hn. split.
  - intros Hc.
    assert (D : violates m (trace_of un) \/ ~ violates m (trace_of un)).
    { clear. generalize (trace_of un) as tr. intros tr. induction tr as [|e tr IH] using rev_ind.
      - right. intros (a & b & E & H). symmetry in E. apply app_eq_nil in E as [-> ->]. change (m < 0) in H. lia.
      - destruct IH as [(a & b & -> & H)|IH].
        + left. exists a, (b ++ [e]). now rewrite app_assoc.
        + destruct (Nat.lt_ge_cases m (steps_since (tr ++ [e]))) as [H|H].
          * left. exists (tr ++ [e]), []. now rewrite app_nil_r.
          * right. intros (a & b & E & Ha). destruct b as [|b0 b] using rev_ind.
            -- rewrite app_nil_r in E. subst a. lia.
            -- rewrite app_assoc in E. apply app_inj_tail in E as [E _]. apply IH. exists a, b. auto. }
    destruct D as [D|D]; auto. exfalso. specialize (H1 D). subst ch. unfold result_of in *. cbn [snd] in Hc.
    destruct (snd un); cbn in Hc; congruence.
  - intros Hv. destruct (H2 Hv) as (a & e & b & _ & _ & _ & _ & ->). reflexivity.
Qed.

Lemma scan_no_violation {X T} m (tr : list (ev X T)) :
  snd (scan m false 0 tr) <> None -> ~ violates m tr.
Proof.
  destruct (scan m false 0 tr) as [l [c|]] eqn:E; [|now intros []]. intros _.
  apply (scan_some m false 0 tr []) in E; [|reflexivity|].
  - apply E.
  - intros (a & b & E1 & H). symmetry in E1. apply app_eq_nil in E1 as [-> ->]. change (m < 0) in H. lia.
Qed.

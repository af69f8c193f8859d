(** Proofs about the drivers for controlled steppers. *)
From Coq Require Import List Arith ZArith Reals Lia Lra.
From Verif Require Import M_Num M_Sign M_Run M_Checker M_Controlled S_Grid S_Real S_Ctrl P_Run P_R P_PlainR.
Import ListNotations.
Local Open Scope run_scope.

Lemma fail_check_inv cnt r : fail_check cnt = r ->
  ((500 <= cnt)%nat /\ r = Exc StepAdjustment) \/ ((cnt < 500)%nat /\ r = Ok (S cnt)).
Proof.
  unfold fail_check, checker_call, default_max_steps. intros <-.
  destruct (Nat.leb_spec 500 cnt); [left|right]; auto.
Qed.

(** Generic decomposition of a bind, whatever the outcome. *)
Lemma bind_inv {V A B} (m : M V A) (f : A -> M V B) tr r :
  bind m f = (tr, r) ->
  (exists tr1 a tr2, m = (tr1, Ok a) /\ f a = (tr2, r) /\ tr = tr1 ++ tr2) \/
  (exists r1, m = (tr, r1) /\ (forall a, r1 <> Ok a) /\
     match r1 with Ok _ => False | Exc e => r = Exc e | UB => r = UB | Fuel => r = Fuel end).
Proof.
  destruct m as [tr1 [a|e| |]]; unfold bind; intros H.
  - destruct (f a) as [tr2 r2] eqn:E. injection H as <- <-. left. exists tr1, a, tr2. auto.
  - injection H as <- <-. right. exists (Exc e). repeat split; auto; discriminate.
  - injection H as <- <-. right. exists UB. repeat split; auto; discriminate.
  - injection H as <- <-. right. exists Fuel. repeat split; auto; discriminate.
Qed.

Section LawFree.
Context {N : Num} {S W X : Type}.
Notation V := (ev X (carrier N)).
Variable f : S -> X -> N -> N -> S * X * N * N * bool.
Notation tstep := (ctrl_step (W := W) f).

Lemma try_loop_events : forall fuel cnt s w x t dt tr r,
  try_loop tstep fuel cnt s w x t dt = (tr, r) ->
  only_tries tr /\
  (forall s' w' x' t' dt', r = Ok (s', w', x', t', dt') -> w' = w /\ length (accepted_of tr) = 1%nat).
Proof.
  induction fuel as [|fuel IH]; intros cnt s w x t dt tr r H; cbn [try_loop] in H.
  - injection H as <- <-. split; [constructor|discriminate].
  - unfold ctrl_step in H at 1. destruct (f s x t dt) as [[[[s1 x1] t1] dt1] ok] eqn:E.
    unfold bind at 1 in H. destruct (bind (fail (fail_check cnt)) _) as [tr2 r2] eqn:E2.
    injection H as <- <-. apply bind_inv in E2 as [(tr3 & c & tr4 & Hc & H & ->)|(r1 & Hc & Hn & Hr)].
    + injection Hc as <- Hc. destruct ok.
      * injection H as <- <-. split; [repeat constructor|].
        intros s' w' x' t' dt' H. injection H as <- <- <- <- <-. auto.
      * apply IH in H as [H1 H2]. split; [constructor; auto|]. apply H2.
    + injection Hc as <- <-. split; [repeat constructor|].
      destruct (fail_check cnt); intros; subst; try easy.
Qed.

(** integrate_adaptive with the null observer: only attempts, result counts accepted ones. *)
Lemma ia_null_events : forall fuel tend s w x t dt count tr r,
  ia_loop tstep null_obs fuel tend s w x t dt count = (tr, r) ->
  only_tries tr /\
  (forall s' w' x' t' dt' n, r = Ok (s', w', x', t', dt', n) ->
     w' = w /\ n = (count + length (accepted_of tr))%nat).
Proof.
  induction fuel as [|fuel IH]; intros tend s w x t dt count tr r H; cbn [ia_loop] in H.
  - injection H as <- <-. split; [constructor|discriminate].
  - destruct (less_with_sign t tend dt).
    + unfold null_obs in H at 1. unfold bind at 1 in H. cbv zeta in H.
      destruct (bind (try_loop _ _ _ _ _ _ _ _) _) as [tr2 r2] eqn:E.
      injection H as <- <-. simpl.
      apply bind_inv in E as [(tr3 & [[[[s2 w2] x2] t2] dt2] & tr4 & Hc & H & ->)|(r1 & Hc & Hn & Hr)].
      * apply try_loop_events in Hc as [Hc1 Hc2]. apply IH in H as [H1 H2].
        destruct (Hc2 _ _ _ _ _ eq_refl) as [-> Hl].
        split; [apply Forall_app; auto|]. intros s' w' x' t' dt' n ->.
        destruct (H2 _ _ _ _ _ _ eq_refl) as [-> ->]. split; auto.
        rewrite accepted_of_app, app_length, Hl. lia.
      * apply try_loop_events in Hc as [Hc1 Hc2]. split; auto.
        intros; subst. destruct r1; easy.
    + unfold null_obs, bind, ret in H. injection H as <- <-. split; [constructor|].
      intros s' w' x' t' dt' n H. injection H as <- <- <- <- <- <-. split; simpl; auto; lia.
Qed.

(** integrate_const *)
Lemma icc_loop_trace t0 tend time_step : forall fuel step real s w x time dt tr w' x' r,
  time = grid t0 time_step step ->
  icc_loop tstep rec_obs fuel t0 tend time_step step real s w x time dt = (tr, Ok (w', x', r)) ->
  exists segs,
    tr = grid_trace (grid t0 time_step) step segs x' /\
    hd x (map fst segs ++ [x']) = x /\
    Forall (fun p => only_tries (snd p)) segs /\
    r = (real + seg_accepted segs)%nat.
Proof.
  induction fuel as [|fuel IH]; intros step real s w x time dt tr w' x' r -> H; cbn [icc_loop] in H;
   [discriminate|].
  destruct (less_eq_with_sign _ tend dt).
  - apply bind_ok_inv in H as (tr1 & w1 & tr2 & H1 & H & ->). injection H1 as <- <-.
    apply bind_ok_inv in H as (tr3 & [[[[[s2 w2] x2] t2] dt2] k] & tr4 & H1 & H & ->).
    apply ia_null_events in H1 as [Ho Hk]. destruct (Hk _ _ _ _ _ _ eq_refl) as [-> ->].
    apply IH in H; [|reflexivity]. destruct H as (segs & -> & Hhd & Hf & ->).
    exists ((x, tr3) :: segs). repeat split; auto.
    unfold seg_accepted. cbn [flat_map snd]. rewrite app_length. lia.
  - apply bind_ok_inv in H as (tr1 & w1 & tr2 & H1 & H & ->). injection H1 as <- <-.
    injection H as <- <- <- <-. exists []. repeat split; auto.
Qed.

(** integrate_n_steps *)
Lemma insc_loop_trace fuel t0 time_step : forall todo step s w x time dt tr w' x' tm,
  time = grid t0 time_step step ->
  insc_loop tstep rec_obs fuel t0 time_step todo step s w x time dt = (tr, Ok (w', x', tm)) ->
  exists segs,
    tr = grid_trace (grid t0 time_step) step segs x' /\
    hd x (map fst segs ++ [x']) = x /\
    length segs = todo /\
    Forall (fun p => only_tries (snd p)) segs /\
    tm = grid t0 time_step (step + todo).
Proof.
  induction todo as [|todo IH]; intros step s w x time dt tr w' x' tm -> H; cbn [insc_loop] in H.
  - apply bind_ok_inv in H as (tr1 & w1 & tr2 & H1 & H & ->). injection H1 as <- <-.
    injection H as <- <- <- <-. exists []. rewrite Nat.add_0_r. repeat split; auto.
  - apply bind_ok_inv in H as (tr1 & w1 & tr2 & H1 & H & ->). injection H1 as <- <-.
    apply bind_ok_inv in H as (tr3 & [[[[[s2 w2] x2] t2] dt2] k] & tr4 & H1 & H & ->).
    apply ia_null_events in H1 as [Ho Hk].
    apply IH in H; [|reflexivity]. destruct H as (segs & -> & Hhd & Hl & Hf & ->).
    exists ((x, tr3) :: segs). repeat split; auto.
    + simpl. now rewrite Hl.
    + now replace (Datatypes.S step + todo)%nat with (step + Datatypes.S todo)%nat by lia.
Qed.

Lemma grid_trace_obs (tm : nat -> N) : forall (segs : list (X * list V)) k (xN : X),
  Forall (fun p => only_tries (snd p)) segs ->
  map snd (obs_of (grid_trace tm k segs xN)) = map tm (seq k (Datatypes.S (length segs))).
Proof.
  induction segs as [|[x seg] segs IH]; intros k xN H; [reflexivity|].
  inversion H; subst. cbn [grid_trace].
  change (EObs x (tm k) :: seg ++ grid_trace tm (Datatypes.S k) segs xN)
    with ([EObs x (tm k)] ++ (seg ++ grid_trace tm (Datatypes.S k) segs xN)).
  rewrite !obs_of_app. 
  assert (E : obs_of seg = []).
  { cbn [snd] in H2. clear -H2. induction H2 as [|e l He Hl IHl]; [reflexivity|].
    destruct e; try easy. }
  rewrite E. cbn [obs_of flat_map app map snd length seq]. f_equal.
  now rewrite IH.
Qed.

(** Bound on consecutive rejections. *)
Definition rr_from (c : nat) (tr : list V) : nat :=
  fold_left (fun n e => match e with ETry _ _ _ false => Datatypes.S n | ETry _ _ _ true => O | _ => n end) tr c.
(** Every prefix of tr keeps the counter (started at c) at most m. *)
Definition rr_bounded (m c : nat) (tr : list V) : Prop :=
  forall a b, tr = a ++ b -> (rr_from c a <= m)%nat.

Lemma rr_bounded_nil m c : (c <= m)%nat -> rr_bounded m c [].
Proof. intros H a b E. symmetry in E. apply app_eq_nil in E as [-> ->]. exact H. Qed.
Lemma rr_bounded_app m c l1 l2 :
  rr_bounded m c l1 -> rr_bounded m (rr_from c l1) l2 -> rr_bounded m c (l1 ++ l2).
Proof.
  revert c. induction l1 as [|e l1 IH]; intros c H1 H2; [exact H2|].
  intros a b E. destruct a as [|e' a]; [apply (H1 [] (e :: l1)); reflexivity|].
  cbn [app] in E. injection E as <- E.
  change (rr_from c (e :: a)) with (rr_from (rr_from c [e]) a).
  apply (IH (rr_from c [e])) with (b := b); auto.
  intros a' b' E'. apply (H1 (e :: a') b'). now rewrite E'.
Qed.
Lemma rr_bounded_cons m c e l :
  (c <= m)%nat -> rr_bounded m (rr_from c [e]) l -> rr_bounded m c (e :: l).
Proof.
  intros H1 H2 a b E. destruct a as [|e' a]; [exact H1|].
  cbn [app] in E. injection E as <- E. apply (H2 a b E).
Qed.
Lemma rr_from_app c a b : rr_from c (a ++ b) = rr_from (rr_from c a) b.
Proof. apply fold_left_app. Qed.

Lemma try_loop_rr : forall fuel cnt s w x t dt tr r, (cnt <= 500)%nat ->
  try_loop tstep fuel cnt s w x t dt = (tr, r) ->
  rr_bounded 501 cnt tr /\
  (forall a, r = Ok a -> rr_from cnt tr = O) /\
  ((501 - cnt < fuel)%nat -> r <> Fuel).
Proof.
  induction fuel as [|fuel IH]; intros cnt s w x t dt tr r Hc H; cbn [try_loop] in H.
  - injection H as <- <-. repeat split; [apply rr_bounded_nil; lia|discriminate|lia].
  - unfold ctrl_step in H at 1. destruct (f s x t dt) as [[[[s1 x1] t1] dt1] ok] eqn:E.
    unfold bind at 1 in H. destruct (bind (fail (fail_check cnt)) _) as [tr2 r2] eqn:E2.
    injection H as <- <-. apply bind_inv in E2 as [(tr3 & c & tr4 & H1 & H & ->)|(r1 & H1 & Hn & Hr)].
    + injection H1 as <- H1. apply fail_check_inv in H1 as [[_ H1]|[Hlt H1]]; [discriminate|].
      injection H1 as ->. destruct ok.
      * injection H as <- <-. repeat split; try discriminate.
        apply rr_bounded_cons; [lia|]. apply rr_bounded_nil. simpl. lia.
      * apply IH in H; [|lia]. destruct H as (H1 & H2 & H3). repeat split.
        -- apply rr_bounded_cons; [lia|]. exact H1.
        -- exact H2.
        -- intros Hf. apply H3. lia.
    + injection H1 as <- H1. apply fail_check_inv in H1 as [[Hge H1]|[Hlt H1]]; subst r1.
      * subst r2. repeat split; try discriminate.
        apply rr_bounded_cons; [lia|]. apply rr_bounded_nil. destruct ok; simpl; lia.
      * exfalso. eapply Hn; reflexivity.
Qed.

Lemma ia_loop_rr obs : (forall w x t, exists r, obs w x t = ([], r)) \/ (forall w x t, exists r, obs w x t = ([EObs x t], r)) ->
  forall fuel tend s w x t dt count tr r,
  ia_loop tstep obs fuel tend s w x t dt count = (tr, r) ->
  rr_bounded 501 0 tr /\ (forall a, r = Ok a -> rr_from 0 tr = O).
Proof.
  intros Hobs.
  assert (Ho : forall w x t tr r, obs w x t = (tr, r) -> rr_bounded 501 0 tr /\ rr_from 0 tr = O).
  { intros w x t tr r E. destruct Hobs as [Ho|Ho]; destruct (Ho w x t) as [r0 E0];
     rewrite E in E0; injection E0 as -> ->; (split; [|reflexivity]).
    - apply rr_bounded_nil; lia.
    - apply rr_bounded_cons; [lia|apply rr_bounded_nil; simpl; lia]. }
  induction fuel as [|fuel IH]; intros tend s w x t dt count tr r H; cbn [ia_loop] in H.
  - injection H as <- <-. split; [apply rr_bounded_nil; lia|discriminate].
  - destruct (less_with_sign t tend dt); cbv zeta in H.
    + apply bind_inv in H as [(tr1 & w1 & tr2 & H1 & H & ->)|(r1 & H1 & Hn & Hr)].
      * apply Ho in H1 as [H1 H1'].
        apply bind_inv in H as [(tr3 & [[[[s2 w2] x2] t2] dt2] & tr4 & H2 & H & ->)|(r1 & H2 & Hn & Hr)].
        -- apply try_loop_rr in H2 as (H2 & H3 & _); [|lia]. apply IH in H as [H4 H5].
           specialize (H3 _ eq_refl). split.
           ++ apply rr_bounded_app; auto. rewrite H1'. apply rr_bounded_app; auto. now rewrite H3.
           ++ intros a Ha. rewrite !rr_from_app, H1', H3. eauto.
        -- apply try_loop_rr in H2 as (H2 & H3 & _); [|lia]. split.
           ++ apply rr_bounded_app; auto. now rewrite H1'.
           ++ intros a ->. destruct r1; easy.
      * apply Ho in H1 as [H1 _]. split; auto. intros a ->. destruct r1; easy.
    + apply bind_inv in H as [(tr1 & w1 & tr2 & H1 & H & ->)|(r1 & H1 & Hn & Hr)].
      * apply Ho in H1 as [H1 H1']. injection H as <- <-. rewrite app_nil_r. auto.
      * apply Ho in H1 as [H1 H1']. auto.
Qed.

Lemma rr_obs1 x t : rr_bounded 501 0 [EObs x t].
Proof. apply rr_bounded_cons; [lia|apply rr_bounded_nil; simpl; lia]. Qed.

Lemma icc_loop_rr t0 tend time_step : forall fuel step real s w x time dt tr r,
  icc_loop tstep rec_obs fuel t0 tend time_step step real s w x time dt = (tr, r) ->
  rr_bounded 501 0 tr.
Proof.
  induction fuel as [|fuel IH]; intros step real s w x time dt tr r H; cbn [icc_loop] in H.
  - injection H as <- <-. apply rr_bounded_nil; lia.
  - destruct (less_eq_with_sign _ tend dt).
    + apply bind_inv in H as [(tr1 & w1 & tr2 & H1 & H & ->)|(r1 & H1 & Hn & Hr)].
      * injection H1 as <- <-. apply rr_bounded_app; [apply rr_obs1|].
        apply bind_inv in H as [(tr3 & [[[[[s2 w2] x2] t2] dt2] k] & tr4 & H2 & H & ->)|(r1 & H2 & Hn & Hr)].
        -- apply ia_loop_rr in H2 as [H2 H3]; [|left; intros; eexists; reflexivity].
           apply rr_bounded_app; auto. change (rr_from 0 [EObs x time]) with O. rewrite (H3 _ eq_refl). eauto.
        -- apply ia_loop_rr in H2 as [H2 H3]; [|left; intros; eexists; reflexivity]. exact H2.
      * injection H1 as <- <-. apply rr_obs1.
    + injection H as <- <-. apply rr_obs1.
Qed.

Lemma insc_loop_rr fuel t0 time_step : forall todo step s w x time dt tr r,
  insc_loop tstep rec_obs fuel t0 time_step todo step s w x time dt = (tr, r) ->
  rr_bounded 501 0 tr.
Proof.
  induction todo as [|todo IH]; intros step s w x time dt tr r H; cbn [insc_loop] in H.
  - injection H as <- <-. apply rr_obs1.
  - apply bind_inv in H as [(tr1 & w1 & tr2 & H1 & H & ->)|(r1 & H1 & Hn & Hr)].
    * injection H1 as <- <-. apply rr_bounded_app; [apply rr_obs1|].
      apply bind_inv in H as [(tr3 & [[[[[s2 w2] x2] t2] dt2] k] & tr4 & H2 & H & ->)|(r1 & H2 & Hn & Hr)].
      -- apply ia_loop_rr in H2 as [H2 H3]; [|left; intros; eexists; reflexivity].
         apply rr_bounded_app; auto. change (rr_from 0 [EObs x time]) with O. rewrite (H3 _ eq_refl). eauto.
      -- apply ia_loop_rr in H2 as [H2 H3]; [|left; intros; eexists; reflexivity]. exact H2.
    * injection H1 as <- <-. apply rr_obs1.
Qed.

Lemma itc_inner_rr target : forall fuel cnt s w x cur dt steps tr r, (cnt <= 500)%nat ->
  itc_inner tstep fuel target cnt s w x cur dt steps = (tr, r) ->
  rr_bounded 501 cnt tr /\
  (forall a c n, r = Ok (a, c, n) -> rr_from cnt tr = c /\ (c <= 500)%nat).
Proof.
  induction fuel as [|fuel IH]; intros cnt s w x cur dt steps tr r Hc H; cbn [itc_inner] in H.
  - injection H as <- <-. split; [apply rr_bounded_nil; lia|discriminate].
  - destruct (less_with_sign cur target dt); cbv zeta in H.
    + unfold ctrl_step in H at 1.
      destruct (f s x cur (min_abs dt (target - cur)%num)) as [[[[s1 x1] t1] dt1] ok] eqn:E.
      unfold bind at 1 in H. destruct ok.
      * destruct (itc_inner _ _ _ _ _ _ _ _ _ _) as [tr2 r2] eqn:E2. injection H as <- <-.
        apply IH in E2; [|lia]. destruct E2 as [H1 H2]. split.
        -- apply rr_bounded_cons; [lia|]. exact H1.
        -- exact H2.
      * destruct (bind _ _) as [tr2 r2] eqn:E2 in H. injection H as <- <-.
        apply bind_inv in E2 as [(tr3 & c & tr4 & H1 & H & ->)|(r1 & H1 & Hn & Hr)].
        -- injection H1 as <- H1. apply fail_check_inv in H1 as [[_ H1]|[Hlt H1]]; [discriminate|].
           injection H1 as ->. apply IH in H; [|lia]. destruct H as [H1 H2]. split.
           ++ apply rr_bounded_cons; [lia|]. exact H1.
           ++ exact H2.
        -- injection H1 as <- H1. apply fail_check_inv in H1 as [[Hge H1]|[Hlt H1]]; subst r1.
           ++ subst r2. split; [|discriminate]. apply rr_bounded_cons; [lia|].
              apply rr_bounded_nil. simpl; lia.
           ++ exfalso. eapply Hn; reflexivity.
    + injection H as <- <-. split; [apply rr_bounded_nil; lia|].
      intros a c n H. injection H as <- <- <-. split; auto.
Qed.

Lemma itc_outer_rr fuel : forall times cnt s w x dt steps tr r, (cnt <= 500)%nat ->
  itc_outer tstep rec_obs fuel times cnt s w x dt steps = (tr, r) ->
  rr_bounded 501 cnt tr.
Proof.
  induction times as [|t times IH]; intros cnt s w x dt steps tr r Hc H.
  - injection H as <- <-. apply rr_bounded_nil; lia.
  - cbn [itc_outer] in H.
    apply bind_inv in H as [(tr1 & w1 & tr2 & H1 & H & ->)|(r1 & H1 & Hn & Hr)].
    + injection H1 as <- <-. cbn [app].
      apply rr_bounded_cons; [lia|]. change (rr_from cnt [EObs x t]) with cnt.
      destruct times as [|t' rest].
      * injection H as <- <-. apply rr_bounded_nil; lia.
      * apply bind_inv in H as [(tr3 & [[[[[s2 w2] x2] dt2] cnt2] k] & tr4 & H2 & H & ->)|(r1 & H2 & Hn & Hr)].
        -- apply itc_inner_rr in H2 as [H2 H3]; [|lia]. destruct (H3 _ _ _ eq_refl) as [H4 H5].
           apply rr_bounded_app; auto. rewrite H4. eapply IH; [exact H5|]. exact H.
        -- apply itc_inner_rr in H2 as [H2 H3]; [|lia]. exact H2.
    + injection H1 as <- <-. apply rr_bounded_cons; [lia|]. apply rr_bounded_nil. simpl. lia.
Qed.

(** When the exception is raised. *)
Definition exc_at (m c : nat) (tr : list V) : Prop :=
  exists a x t d ok, tr = a ++ [ETry x t d ok] /\ rr_from c a = m.

Lemma exc_at_app m c l1 l2 : exc_at m (rr_from c l1) l2 -> exc_at m c (l1 ++ l2).
Proof.
  intros (a & x & t & d & ok & -> & H). exists (l1 ++ a), x, t, d, ok.
  split; [now rewrite app_assoc|]. now rewrite rr_from_app.
Qed.

Lemma try_loop_exc : forall fuel cnt s w x t dt tr e, (cnt <= 500)%nat ->
  try_loop tstep fuel cnt s w x t dt = (tr, Exc e) -> e = StepAdjustment /\ exc_at 500 cnt tr.
Proof.
  induction fuel as [|fuel IH]; intros cnt s w x t dt tr e Hc H; cbn [try_loop] in H; [discriminate|].
  unfold ctrl_step in H at 1. destruct (f s x t dt) as [[[[s1 x1] t1] dt1] ok] eqn:E.
  unfold bind at 1 in H. destruct (bind (fail (fail_check cnt)) _) as [tr2 r2] eqn:E2.
  injection H as <- ->. apply bind_inv in E2 as [(tr3 & c & tr4 & H1 & H & ->)|(r1 & H1 & Hn & Hr)].
  - injection H1 as <- H1. apply fail_check_inv in H1 as [[_ H1]|[Hlt H1]]; [discriminate|].
    injection H1 as ->. destruct ok; [discriminate|].
    apply IH in H as [-> H]; [|lia]. split; auto.
    apply (exc_at_app 500 cnt [ETry x t dt false] tr4). exact H.
  - injection H1 as <- H1. apply fail_check_inv in H1 as [[Hge H1]|[Hlt H1]]; subst r1.
    + injection Hr as ->. split; auto. exists [], x, t, dt, ok. split; auto. simpl. lia.
    + exfalso. eapply Hn; reflexivity.
Qed.

Lemma ia_loop_exc obs : (forall w x t, exists tr, obs w x t = (tr, Ok w) /\ (tr = [] \/ tr = [EObs x t])) ->
  forall fuel tend s w x t dt count tr e,
  ia_loop tstep obs fuel tend s w x t dt count = (tr, Exc e) ->
  e = StepAdjustment /\ exc_at 500 0 tr.
Proof.
  intros Hobs. induction fuel as [|fuel IH]; intros tend s w x t dt count tr e H; cbn [ia_loop] in H; [discriminate|].
  destruct (Hobs w x t) as (tro & Eo & Ho). rewrite Eo in H.
  assert (Hz : rr_from 0 tro = O) by (destruct Ho; subst; reflexivity).
  destruct (less_with_sign t tend dt); cbv zeta in H.
  - unfold bind at 1 in H. destruct (bind (try_loop _ _ _ _ _ _ _ _) _) as [tr2 r2] eqn:E2.
    injection H as <- ->.
    cut (e = StepAdjustment /\ exc_at 500 0 tr2).
    { intros [-> H]. split; auto. apply exc_at_app. now rewrite Hz. }
    apply bind_inv in E2 as [(tr3 & [[[[s2 w2] x2] t2] dt2] & tr4 & H2 & H & ->)|(r1 & H2 & Hn & Hr)].
    + apply try_loop_rr in H2 as (_ & H3 & _); [|lia]. apply IH in H as [-> H]. split; auto.
      apply exc_at_app. now rewrite (H3 _ eq_refl).
    + destruct r1; try easy. injection Hr as ->. apply try_loop_exc in H2; auto. lia.
  - unfold bind, ret in H. discriminate.
Qed.

Lemma icc_loop_exc t0 tend time_step : forall fuel step real s w x time dt tr e,
  icc_loop tstep rec_obs fuel t0 tend time_step step real s w x time dt = (tr, Exc e) ->
  e = StepAdjustment /\ exc_at 500 0 tr.
Proof.
  induction fuel as [|fuel IH]; intros step real s w x time dt tr e H; cbn [icc_loop] in H; [discriminate|].
  destruct (less_eq_with_sign _ tend dt); [|discriminate].
  apply bind_inv in H as [(tr1 & w1 & tr2 & H1 & H & ->)|(r1 & H1 & Hn & Hr)];
    [|injection H1 as <- <-; exfalso; eapply Hn; reflexivity].
  injection H1 as <- <-.
  cut (e = StepAdjustment /\ exc_at 500 0 tr2).
  { intros [-> H0]. split; auto. apply exc_at_app. exact H0. }
  apply bind_inv in H as [(tr3 & [[[[[s2 w2] x2] t2] dt2] k] & tr4 & H2 & H & ->)|(r1 & H2 & Hn & Hr)].
  - apply ia_loop_rr in H2 as [_ H3]; [|left; intros; eexists; reflexivity].
    apply IH in H as [-> H]. split; auto. apply exc_at_app. now rewrite (H3 _ eq_refl).
  - destruct r1; try easy. injection Hr as ->. apply ia_loop_exc in H2; auto.
    intros; eexists; split; [reflexivity|auto].
Qed.

Lemma insc_loop_exc fuel t0 time_step : forall todo step s w x time dt tr e,
  insc_loop tstep rec_obs fuel t0 time_step todo step s w x time dt = (tr, Exc e) ->
  e = StepAdjustment /\ exc_at 500 0 tr.
Proof.
  induction todo as [|todo IH]; intros step s w x time dt tr e H; cbn [insc_loop] in H; [discriminate|].
  apply bind_inv in H as [(tr1 & w1 & tr2 & H1 & H & ->)|(r1 & H1 & Hn & Hr)];
    [|injection H1 as <- <-; exfalso; eapply Hn; reflexivity].
  injection H1 as <- <-.
  cut (e = StepAdjustment /\ exc_at 500 0 tr2).
  { intros [-> H0]. split; auto. apply exc_at_app. exact H0. }
  apply bind_inv in H as [(tr3 & [[[[[s2 w2] x2] t2] dt2] k] & tr4 & H2 & H & ->)|(r1 & H2 & Hn & Hr)].
  - apply ia_loop_rr in H2 as [_ H3]; [|left; intros; eexists; reflexivity].
    apply IH in H as [-> H]. split; auto. apply exc_at_app. now rewrite (H3 _ eq_refl).
  - destruct r1; try easy. injection Hr as ->. apply ia_loop_exc in H2; auto.
    intros; eexists; split; [reflexivity|auto].
Qed.

Lemma itc_inner_exc target : forall fuel cnt s w x cur dt steps tr e, (cnt <= 500)%nat ->
  itc_inner tstep fuel target cnt s w x cur dt steps = (tr, Exc e) ->
  e = StepAdjustment /\ rr_from cnt tr = 501%nat.
Proof.
  induction fuel as [|fuel IH]; intros cnt s w x cur dt steps tr e Hc H; cbn [itc_inner] in H; [discriminate|].
  destruct (less_with_sign cur target dt); cbv zeta in H; [|discriminate].
  unfold ctrl_step in H at 1.
  destruct (f s x cur (min_abs dt (target - cur)%num)) as [[[[s1 x1] t1] dt1] ok] eqn:E.
  unfold bind at 1 in H. destruct ok.
  - destruct (itc_inner _ _ _ _ _ _ _ _ _ _) as [tr2 r2] eqn:E2. injection H as <- ->.
    apply IH in E2; [|lia]. exact E2.
  - destruct (bind _ _) as [tr2 r2] eqn:E2 in H. injection H as <- ->.
    apply bind_inv in E2 as [(tr3 & c & tr4 & H1 & H & ->)|(r1 & H1 & Hn & Hr)].
    + injection H1 as <- H1. apply fail_check_inv in H1 as [[_ H1]|[Hlt H1]]; [discriminate|].
      injection H1 as ->. apply IH in H; [|lia]. exact H.
    + injection H1 as <- H1. apply fail_check_inv in H1 as [[Hge H1]|[Hlt H1]]; subst r1.
      * injection Hr as ->. split; auto. simpl. lia.
      * exfalso. eapply Hn; reflexivity.
Qed.

Lemma itc_outer_exc fuel : forall times cnt s w x dt steps tr e, (cnt <= 500)%nat ->
  itc_outer tstep rec_obs fuel times cnt s w x dt steps = (tr, Exc e) ->
  e = StepAdjustment /\ rr_from cnt tr = 501%nat.
Proof.
  induction times as [|t times IH]; intros cnt s w x dt steps tr e Hc H; [discriminate|].
  cbn [itc_outer] in H.
  apply bind_inv in H as [(tr1 & w1 & tr2 & H1 & H & ->)|(r1 & H1 & Hn & Hr)];
    [|injection H1 as <- <-; exfalso; eapply Hn; reflexivity].
  injection H1 as <- <-. rewrite rr_from_app. change (rr_from cnt [EObs x t]) with cnt.
  destruct times as [|t' rest]; [discriminate|].
  apply bind_inv in H as [(tr3 & [[[[[s2 w2] x2] dt2] cnt2] k] & tr4 & H2 & H & ->)|(r1 & H2 & Hn & Hr)].
  - apply itc_inner_rr in H2 as [H2 H3]; [|lia]. destruct (H3 _ _ _ eq_refl) as [H4 H5].
    rewrite rr_from_app, H4. eapply IH; [exact H5|]. exact H.
  - destruct r1; try easy. injection Hr as ->. eapply itc_inner_exc; eauto.
Qed.

(** Precise behaviour of one step search. *)
Lemma try_loop_accept (w : W) : forall k fuel cnt s x t dt r,
  (forall j, (j < k)%nat -> snd (attempt f j s x t dt) = false) ->
  attempt f k s x t dt = (r, true) -> (cnt + k < 500)%nat -> (k < fuel)%nat ->
  exists tr, length tr = Datatypes.S k /\
    try_loop tstep fuel cnt s w x t dt =
     (tr, Ok (let '(s', x', t', dt') := r in (s', w, x', t', dt'))).
Proof.
  induction k as [|k IH]; intros fuel cnt s x t dt r Hj Ha Hc Hf; (destruct fuel as [|fuel]; [lia|]);
   cbn [try_loop]; unfold ctrl_step at 1.
  - cbn [attempt] in Ha. rewrite Ha. destruct r as [[[s' x'] t'] dt'].
    unfold fail_check, checker_call, default_max_steps.
    destruct (Nat.leb_spec 500 cnt); [lia|]. unfold bind, fail, ret. eexists. split; [|reflexivity]. reflexivity.
  - pose proof (Hj O ltac:(lia)) as H0. cbn [attempt] in H0, Ha.
    destruct (f s x t dt) as [[[[s1 x1] t1] dt1] ok] eqn:E. cbn [snd] in H0. subst ok.
    destruct (IH fuel (Datatypes.S cnt) s1 x1 t1 dt1 r) as (tr & Hl & Hr); try lia; auto.
    { intros j Hjk. specialize (Hj (Datatypes.S j) ltac:(lia)). cbn [attempt] in Hj. now rewrite E in Hj. }
    unfold fail_check, checker_call, default_max_steps.
    destruct (Nat.leb_spec 500 cnt); [lia|]. unfold bind, fail. rewrite Hr.
    eexists. split; [|reflexivity]. simpl. now rewrite Hl.
Qed.

Lemma try_loop_reject (w : W) : forall k fuel cnt s x t dt,
  (forall j, (j < k)%nat -> snd (attempt f j s x t dt) = false) -> (cnt + k = 500)%nat -> (k < fuel)%nat ->
  exists tr, length tr = Datatypes.S k /\ only_tries tr /\
    try_loop tstep fuel cnt s w x t dt = (tr, Exc StepAdjustment).
Proof.
  induction k as [|k IH]; intros fuel cnt s x t dt Hj Hc Hf; (destruct fuel as [|fuel]; [lia|]);
   cbn [try_loop]; unfold ctrl_step at 1;
   destruct (f s x t dt) as [[[[s1 x1] t1] dt1] ok] eqn:E;
    unfold fail_check, checker_call, default_max_steps.
  - destruct (Nat.leb_spec 500 cnt); [|lia]. unfold bind, fail, ret.
    eexists. split; [|split; [|reflexivity]]; repeat constructor.
  - pose proof (Hj O ltac:(lia)) as H0. cbn [attempt] in H0. rewrite E in H0. cbn [snd] in H0. subst ok.
    destruct (IH fuel (Datatypes.S cnt) s1 x1 t1 dt1) as (tr & Hl & Ho & Hr); try lia; auto.
    { intros j Hjk. specialize (Hj (Datatypes.S j) ltac:(lia)). cbn [attempt] in Hj. now rewrite E in Hj. }
    destruct (Nat.leb_spec 500 cnt); [lia|]. unfold bind, fail. rewrite Hr.
    eexists. split; [|split; [|reflexivity]]. { simpl. now rewrite Hl. } repeat constructor; auto.
Qed.

(** integrate_adaptive with a stepper that keeps rejecting. *)
Lemma adaptive_persistent_reject fuel s (w : W) x t0 tend dt :
  let dt1 := if less_with_sign tend (t0 + dt)%num dt then (tend - t0)%num else dt in
  less_with_sign t0 tend dt = true ->
  (forall k, (k < 500)%nat -> snd (attempt f k s x t0 dt1) = false) ->
  exists tr, length tr = 501%nat /\ only_tries tr /\
   integrate_adaptive_ctrl tstep rec_obs (Datatypes.S fuel) s w x t0 tend dt =
   (EObs x t0 :: tr, Exc StepAdjustment).
Proof.
  cbv zeta. intros H Hk.
  destruct (try_loop_reject w 500 502 0 s x t0 _ Hk) as (tr & Hl & Ho & Hr); try lia.
  exists tr. repeat split; auto. unfold integrate_adaptive_ctrl. cbn [ia_loop]. rewrite H.
  change (2 + default_max_steps)%nat with 502%nat. cbv zeta.
  unfold bind at 1. unfold rec_obs at 1. rewrite Hr. reflexivity.
Qed.
End LawFree.

Lemma n_steps_ctrl_all :
  forall (N : Num) (S W X : Type) (f : S -> X -> N -> N -> S * X * N * N * bool)
         fuel (s : S) (w : W) (x : X) (t0 dt : N) (n : nat) tr w' x' tm,
  integrate_n_steps_ctrl (ctrl_step f) rec_obs fuel s w x t0 dt n = (tr, Ok (w', x', tm)) ->
  tm = grid t0 dt n /\
  map snd (obs_of tr) = map (grid t0 dt) (seq 0 (Datatypes.S n)) /\
  exists segs,
    tr = grid_trace (grid t0 dt) 0 segs x' /\
    hd x (map fst segs ++ [x']) = x /\
    length segs = n /\
    Forall (fun p => only_tries (snd p)) segs.
Proof.
  intros N S W X f fuel s w x t0 dt n tr w' x' tm H.
  apply insc_loop_trace in H; [|reflexivity]. destruct H as (segs & H1 & H2 & H3 & H4 & H5).
  split; [exact H5|]. split; [|exists segs; auto]. rewrite H1, grid_trace_obs, H3; auto.
Qed.

Lemma all_rr :
  forall (N : Num) (S W X : Type) (f : S -> X -> N -> N -> S * X * N * N * bool)
         fuel (s : S) (w : W) (x : X) (t0 tend dt : N) (n : nat) (times : list N) (a b : list (ev X (carrier N))),
  (trace_of (integrate_adaptive_ctrl (ctrl_step f) rec_obs fuel s w x t0 tend dt) = a ++ b \/
   trace_of (integrate_const_ctrl (ctrl_step f) rec_obs fuel s w x t0 tend dt) = a ++ b \/
   trace_of (integrate_n_steps_ctrl (ctrl_step f) rec_obs fuel s w x t0 dt n) = a ++ b \/
   trace_of (integrate_times_ctrl (ctrl_step f) rec_obs fuel s w x times dt) = a ++ b) ->
  (reject_run a <= 501)%nat.
Proof.
  intros N S W X f fuel s w x t0 tend dt n times a b H.
  destruct H as [H|[H|[H|H]]]; unfold trace_of in H;
   match type of H with fst ?r = _ => destruct r as [tr r'] eqn:E end; cbn [fst] in H; subst tr.
  - apply ia_loop_rr in E as [E _]; [exact (E a b eq_refl)|]. right; intros; eexists; reflexivity.
  - apply icc_loop_rr in E. exact (E a b eq_refl).
  - apply insc_loop_rr in E. exact (E a b eq_refl).
  - apply itc_outer_rr in E; [|lia]. exact (E a b eq_refl).
Qed.

Lemma all_exc :
  forall (N : Num) (S W X : Type) (f : S -> X -> N -> N -> S * X * N * N * bool)
         fuel (s : S) (w : W) (x : X) (t0 tend dt : N) (n : nat) (times : list N) tr e,
  (integrate_adaptive_ctrl (ctrl_step f) rec_obs fuel s w x t0 tend dt = (tr, Exc e) \/
   integrate_const_ctrl (ctrl_step f) rec_obs fuel s w x t0 tend dt = (tr, Exc e) \/
   integrate_n_steps_ctrl (ctrl_step f) rec_obs fuel s w x t0 dt n = (tr, Exc e) ->
   e = StepAdjustment /\
   exists a y t d ok, tr = a ++ [ETry y t d ok] /\ reject_run a = 500%nat) /\
  (integrate_times_ctrl (ctrl_step f) rec_obs fuel s w x times dt = (tr, Exc e) ->
   e = StepAdjustment /\ reject_run tr = 501%nat).
Proof.
  intros N S W X f fuel s w x t0 tend dt n times tr e. split.
  - intros [H|[H|H]].
    + apply ia_loop_exc in H; [exact H|]. intros; eexists; split; [reflexivity|auto].
    + apply icc_loop_exc in H. exact H.
    + apply insc_loop_exc in H. exact H.
  - intros H. apply itc_outer_exc in H; [exact H|lia].
Qed.

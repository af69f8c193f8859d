(** Controlled-stepper drivers over the reals, for steppers obeying the try_step contract. *)
From Coq Require Import List Arith ZArith Reals Lia Lra.
From Verif Require Import M_Num M_Sign M_Run M_Checker M_Controlled S_Grid S_Real S_Ctrl P_Run P_R P_PlainR P_Ctrl.
Import ListNotations.
Local Open Scope run_scope.
Local Open Scope R_scope.

Section R.
Variable eps : R.
Hypothesis Heps : 0 <= eps.
Notation N := (RNum eps).
Context {S W X : Type}.
Notation V := (ev X R).
Variable f : S -> X -> R -> R -> S * X * R * R * bool.
Hypothesis Hf : try_contract f.
Notation tstep := (ctrl_step (W := W) f).

Lemma dir_nz a d : 0 < dir a * d -> d <> 0.
Proof. intros H ->. lra. Qed.

Lemma try_loop_R : forall fuel cnt s w x t dt tr r,
  dt <> 0 -> @try_loop N S W X tstep fuel cnt s w x t dt = (tr, r) ->
  obs_of tr = [] /\
  forall s' w' x' t' dt', r = Ok (s', w', x', t', dt') ->
  w' = w /\ exists d, accepted_of tr = [(x, t, d)] /\ t' = t + d /\
    0 < dir dt * d <= Rabs dt /\ 0 < dir dt * dt'.
Proof.
  induction fuel as [|fuel IH]; intros cnt s w x t dt tr r Hdt H; cbn [try_loop] in H.
  - injection H as <- <-. split; [reflexivity|discriminate].
  - unfold ctrl_step in H at 1. pose proof (Hf s x t dt Hdt) as HC.
    destruct (f s x t dt) as [[[[s1 x1] t1] dt1] ok] eqn:E.
    unfold bind at 1 in H. destruct (bind (fail (fail_check cnt)) _) as [tr2 r2] eqn:E2.
    injection H as <- <-.
    apply bind_inv in E2 as [(tr3 & c & tr4 & H1 & H & ->)|(r1 & H1 & Hn & Hr)].
    + injection H1 as <- H1. destruct ok.
      * injection H as <- <-. split; [reflexivity|]. intros s' w' x' t' dt' H.
        injection H as <- <- <- <- <-. split; auto. exists dt. destruct HC as [-> HC].
        repeat split; auto; rewrite dir_abs; [now apply Rabs_pos_lt|lra].
      * destruct HC as (-> & -> & HC). apply IH in H; [|eapply dir_nz; apply HC].
        destruct H as [H2 H3]. split; [exact H2|]. intros s' w' x' t' dt' Hr.
        destruct (H3 _ _ _ _ _ Hr) as (-> & d & Hacc & -> & Hd & Hd').
        assert (E1 : dir dt1 = dir dt) by (apply dir_eq_of_pos; lra). rewrite E1 in *.
        assert (E3 : Rabs dt1 = dir dt * dt1) by (rewrite <- (dir_abs dt1), E1; reflexivity).
        split; auto. exists d. repeat split; auto; lra.
    + injection H1 as <- <-. split; [reflexivity|].
      intros; subst. destruct (fail_check cnt); easy.
Qed.

(** Accepted steps of integrate_adaptive, for an observer that does not interfere. *)
Lemma ia_loop_acc obs :
  (forall w x t, exists tr, obs w x t = (tr, Ok w) /\ accepted_of tr = []) ->
  forall fuel tend s w x t dt count tr s' w' x' t' dt' n,
  dt <> 0 -> dir dt * (t - tend) <= eps ->
  @ia_loop N S W X tstep obs fuel tend s w x t dt count = (tr, Ok (s', w', x', t', dt', n)) ->
  w' = w /\ n = (count + length (accepted_of tr))%nat /\
  chain t (map td (accepted_of tr)) t' /\
  Forall (fun p => 0 < dir dt * snd p) (map td (accepted_of tr)) /\
  Rabs (tend - t') <= eps /\ 0 < dir dt * dt'.
Proof.
  intros Hobs. induction fuel as [|fuel IH]; intros tend s w x t dt count tr s' w' x' t' dt' n Hdt Ht H;
   cbn [ia_loop] in H; [discriminate|].
  destruct (Hobs w x t) as (tro & Eo & Ho).
  destruct (@less_with_sign N t tend dt) eqn:El; cbv zeta in H.
  - apply less_R in El.
    apply bind_ok_inv in H as (tr1 & w1 & tr2 & H1 & H & ->). rewrite Eo in H1. injection H1 as <- <-.
    apply bind_ok_inv in H as (tr3 & [[[[s2 w2] x2] t2] dt2] & tr4 & H1 & H & ->).
    set (dt1 := if @less_with_sign N _ _ _ then _ else _) in H1.
    assert (Hdt1 : 0 < dir dt * dt1 /\ dir dt * (t + dt1 - tend) <= eps).
    { subst dt1. destruct (@less_with_sign N tend _ dt) eqn:E2.
      - split; rnum; [lra|]. replace (t + (tend - t) - tend) with 0 by ring. lra.
      - apply less_R_false in E2. rnum. rewrite dir_abs. split; [now apply Rabs_pos_lt|lra]. }
    clearbody dt1. destruct Hdt1 as [Hp Hb].
    assert (Ed : dir dt1 = dir dt) by now apply dir_eq_of_pos.
    apply try_loop_R in H1; [|eapply dir_nz; eauto]. destruct H1 as [_ H1].
    destruct (H1 _ _ _ _ _ eq_refl) as (-> & d & Hacc & -> & Hd & Hd2). rewrite Ed in *.
    assert (Ed2 : dir dt2 = dir dt) by now apply dir_eq_of_pos.
    assert (Ed1 : Rabs dt1 = dir dt * dt1) by (rewrite <- (dir_abs dt1), Ed; reflexivity).
    apply IH in H.
    + rewrite Ed2 in H. destruct H as (-> & -> & Hch & Hall & Hend & Hdt').
      rewrite !accepted_of_app, Ho, Hacc. cbn [app map length td fst snd].
      repeat split; auto; try lia. constructor; auto. simpl. lra.
    + eapply dir_nz; eauto.
    + rewrite Ed2. replace (t + d - tend) with (t + dt1 - tend - (dt1 - d)) by ring.
      rewrite Rmult_minus_distr_l. lra.
  - apply less_R_false in El. rewrite Eo in H. unfold bind, ret in H. injection H as <- <- <- <- <- <- <-.
    rewrite app_nil_r, Ho. simpl. repeat split; auto; try lia.
    + apply Rabs_le. destruct (dir_cases dt) as [[_ E]|[_ E]]; rewrite E in *; lra.
    + rewrite dir_abs. now apply Rabs_pos_lt.
Qed.

(** Observations of integrate_adaptive, whatever the outcome. *)
Lemma ia_loop_obs : forall fuel tend s w x t dt count tr r,
  dt <> 0 -> dir dt * (t - tend) <= eps ->
  @ia_loop N S W X tstep rec_obs fuel tend s w x t dt count = (tr, r) ->
  strictly_mono (dir dt) (map snd (obs_of tr)) /\
  Forall (fun T => dir dt * (T - tend) <= eps) (map snd (obs_of tr)) /\
  (fuel <> O -> exists rest, obs_of tr = (x, t) :: rest) /\
  (forall s' w' x' t' dt' n, r = Ok (s', w', x', t', dt', n) ->
     obs_of tr = map fst (accepted_of tr) ++ [(x', t')]).
Proof.
  induction fuel as [|fuel IH]; intros tend s w x t dt count tr r Hdt Ht H; cbn [ia_loop] in H.
  - injection H as <- <-. simpl. repeat split; auto; easy.
  - destruct (@less_with_sign N t tend dt) eqn:El; cbv zeta in H.
    + apply less_R in El.
      unfold bind at 1, rec_obs at 1 in H. destruct (bind (try_loop _ _ _ _ _ _ _ _) _) as [tr2 r2] eqn:E2.
      injection H as <- <-.
      set (dt1 := if @less_with_sign N _ _ _ then _ else _) in E2.
      assert (Hdt1 : 0 < dir dt * dt1 /\ dir dt * (t + dt1 - tend) <= eps).
      { subst dt1. destruct (@less_with_sign N tend _ dt) eqn:E3.
        - split; rnum; [lra|]. replace (t + (tend - t) - tend) with 0 by ring. lra.
        - apply less_R_false in E3. rnum. rewrite dir_abs. split; [now apply Rabs_pos_lt|lra]. }
      clearbody dt1. destruct Hdt1 as [Hp Hb].
      assert (Ed : dir dt1 = dir dt) by now apply dir_eq_of_pos.
      apply bind_inv in E2 as [(tr3 & [[[[s2 w2] x2] t2] dt2] & tr4 & H1 & H & ->)|(r1 & H1 & Hn & Hr)].
      * apply try_loop_R in H1; [|eapply dir_nz; eauto]. destruct H1 as [Hno H1].
        destruct (H1 _ _ _ _ _ eq_refl) as (-> & d & Hacc & -> & Hd & Hd2). rewrite Ed in *.
        assert (Ed2 : dir dt2 = dir dt) by now apply dir_eq_of_pos.
        assert (Ed1 : Rabs dt1 = dir dt * dt1) by (rewrite <- (dir_abs dt1), Ed; reflexivity).
        pose proof H as HIH. apply IH in HIH; [|eapply dir_nz; eauto|].
        2:{ rewrite Ed2. replace (t + d - tend) with (t + dt1 - tend - (dt1 - d)) by ring.
            rewrite Rmult_minus_distr_l. lra. }
        rewrite Ed2 in HIH. destruct HIH as (G1 & G2 & G3 & G4).
        cbn [app]. change (EObs x t :: tr3 ++ tr4) with ([EObs x t] ++ (tr3 ++ tr4)).
        rewrite !obs_of_app, Hno. cbn [app obs_of flat_map map snd].
        repeat split; auto.
        -- fold (obs_of tr4). destruct fuel as [|fuel'].
           ++ cbn [ia_loop] in H. injection H as <- <-. simpl. trivial.
           ++ destruct (G3 ltac:(lia)) as [rest E]. rewrite E. cbn [map snd].
              lra.
        -- intros _. eexists. reflexivity.
        -- intros s' w' x' t' dt' n Hr. fold (obs_of tr4). rewrite (G4 _ _ _ _ _ _ Hr).
           change (accepted_of (EObs x t :: tr3 ++ tr4)) with (accepted_of (tr3 ++ tr4)). rewrite accepted_of_app, Hacc. reflexivity.
      * apply try_loop_R in H1; [|eapply dir_nz; eauto]. destruct H1 as [Hno H1].
        cbn [app]. change (EObs x t :: tr2) with ([EObs x t] ++ tr2).
        rewrite !obs_of_app, Hno. cbn [app obs_of flat_map map snd].
        repeat split; auto.
        -- intros _. eexists. reflexivity.
        -- intros; subst. destruct r1; easy.
    + unfold bind, rec_obs, ret in H. injection H as <- <-. cbn [app obs_of flat_map map snd].
      repeat split; auto; [intros _; eexists; reflexivity|].
      intros s' w' x' t' dt' n H. injection H as <- <- <- <- <- <-. reflexivity.
Qed.

Lemma adaptive_ctrl_R fuel s w x t0 tend dt tr r :
  dt <> 0 -> 0 <= dir dt * (tend - t0) ->
  @integrate_adaptive_ctrl N S W X tstep rec_obs (Datatypes.S fuel) s w x t0 tend dt = (tr, r) ->
  (exists rest, obs_of tr = (x, t0) :: rest) /\
  strictly_mono (dir dt) (map snd (obs_of tr)) /\
  Forall (fun T => dir dt * (T - tend) <= eps) (map snd (obs_of tr)) /\
  (forall s' w' x' t' dt' n, r = Ok (s', w', x', t', dt', n) ->
     obs_of tr = map fst (accepted_of tr) ++ [(x', t')] /\
     n = length (accepted_of tr) /\
     chain t0 (map td (accepted_of tr)) t' /\
     Rabs (tend - t') <= eps).
Proof.
  intros Hdt Ht H. assert (Ht' : dir dt * (t0 - tend) <= eps) by lra.
  pose proof (ia_loop_obs _ _ _ _ _ _ _ _ _ _ Hdt Ht' H) as (H1 & H2 & H3 & H4).
  repeat split; auto; subst.
  - eauto.
  - eapply ia_loop_acc in H; auto; [tauto|]. intros; eexists; split; reflexivity.
  - eapply ia_loop_acc in H; auto; [tauto|]. intros; eexists; split; reflexivity.
  - eapply ia_loop_acc in H; auto; [tauto|]. intros; eexists; split; reflexivity.
Qed.

Lemma icc_loop_R t0 tend ts : ts <> 0 -> forall fuel step real s w x time dt tr w' x' r,
  time = @grid N t0 ts step -> 0 < dir ts * dt ->
  @icc_loop N S W X tstep rec_obs fuel t0 tend ts step real s w x time dt = (tr, Ok (w', x', r)) ->
  exists segs,
    tr = grid_trace (@grid N t0 ts) step segs x' /\
    segs_cover eps t0 ts step segs /\
    (forall k, (step <= k < step + length segs)%nat -> @less_eq_with_sign N (@grid N t0 ts k + ts) tend ts = true) /\
    @less_eq_with_sign N (@grid N t0 ts (step + length segs) + ts) tend ts = false.
Proof.
  intros Hts. induction fuel as [|fuel IH]; intros step real s w x time dt tr w' x' r -> Hd H;
   cbn [icc_loop] in H; [discriminate|].
  assert (Edir : dir dt = dir ts) by now apply dir_eq_of_pos.
  assert (Eq : @less_eq_with_sign N (@nadd N (@grid N t0 ts step) ts) tend dt
             = @less_eq_with_sign N (@nadd N (@grid N t0 ts step) ts) tend ts).
  { destruct (@less_eq_with_sign N _ tend ts) eqn:E.
    - apply leq_R. apply leq_R in E. now rewrite Edir.
    - apply leq_R_false. apply leq_R_false in E. now rewrite Edir. }
  rewrite Eq in H. destruct (@less_eq_with_sign N _ tend ts) eqn:E.
  - apply bind_ok_inv in H as (tr1 & w1 & tr2 & H1 & H & ->). injection H1 as <- <-.
    apply bind_ok_inv in H as (tr3 & [[[[[s2 w2] x2] t2] dt2] k] & tr4 & H1 & H & ->).
    apply ia_loop_acc in H1; [|intros; eexists; split; reflexivity|eapply dir_nz; eauto|].
    2:{ rnum. rewrite Edir. match goal with |- dir ts * (?a - (?a + ts)) <= eps =>
          replace (a - (a + ts)) with (- ts) by ring end.
        rewrite Ropp_mult_distr_r_reverse, dir_abs. pose proof (Rabs_pos ts). lra. }
    rewrite Edir in H1. destruct H1 as (-> & _ & Hch & _ & Hend & Hd2).
    apply IH in H; auto. destruct H as (segs & -> & Hc & Hlt & Hf2).
    exists ((x, tr3) :: segs). cbn [length]. repeat split; auto.
    + cbn [segs_cover]. exists t2. rnum. rewrite (grid_R eps) in Hch, Hend. split; [exact Hch|].
      rewrite S_INR. replace (t0 + (INR step + 1) * ts - t2) with (t0 + INR step * ts + ts - t2) by ring. auto.
    + intros j Hj. destruct (Nat.eq_dec j step) as [->|]; auto. apply Hlt. lia.
    + now replace (step + Datatypes.S (length segs))%nat with (Datatypes.S step + length segs)%nat by lia.
  - apply bind_ok_inv in H as (tr1 & w1 & tr2 & H1 & H & ->). injection H1 as <- <-.
    injection H as <- <- <- <-. exists []. cbn [length]. rewrite Nat.add_0_r. repeat split; auto. intros; lia.
Qed.

Lemma insc_loop_R fuel t0 ts : ts <> 0 -> forall todo step s w x time dt tr w' x' tm,
  time = @grid N t0 ts step -> 0 < dir ts * dt ->
  @insc_loop N S W X tstep rec_obs fuel t0 ts todo step s w x time dt = (tr, Ok (w', x', tm)) ->
  exists segs,
    tr = grid_trace (@grid N t0 ts) step segs x' /\ length segs = todo /\
    segs_cover eps t0 ts step segs.
Proof.
  intros Hts. induction todo as [|todo IH]; intros step s w x time dt tr w' x' r -> Hd H; cbn [insc_loop] in H.
  - apply bind_ok_inv in H as (tr1 & w1 & tr2 & H1 & H & ->). injection H1 as <- <-.
    injection H as <- <- <- <-. exists []. repeat split; auto.
  - assert (Edir : dir dt = dir ts) by now apply dir_eq_of_pos.
    apply bind_ok_inv in H as (tr1 & w1 & tr2 & H1 & H & ->). injection H1 as <- <-.
    apply bind_ok_inv in H as (tr3 & [[[[[s2 w2] x2] t2] dt2] k] & tr4 & H1 & H & ->).
    apply ia_loop_acc in H1; [|intros; eexists; split; reflexivity|eapply dir_nz; eauto|].
    2:{ rnum. rewrite Edir. match goal with |- dir ts * (?a - (?a + ts)) <= eps =>
          replace (a - (a + ts)) with (- ts) by ring end.
        rewrite Ropp_mult_distr_r_reverse, dir_abs. pose proof (Rabs_pos ts). lra. }
    rewrite Edir in H1. destruct H1 as (-> & _ & Hch & _ & Hend & Hd2).
    apply IH in H; auto. destruct H as (segs & -> & Hl & Hc).
    exists ((x, tr3) :: segs). cbn [length]. repeat split; auto.
    cbn [segs_cover]. exists t2. rnum. rewrite (grid_R eps) in Hch, Hend. split; [exact Hch|].
    rewrite S_INR. replace (t0 + (INR step + 1) * ts - t2) with (t0 + INR step * ts + ts - t2) by ring. auto.
Qed.

(** integrate_times *)
Lemma Rabs_dir a d : dir a = dir d -> Rabs a = dir d * a.
Proof. intros <-. symmetry. apply dir_abs. Qed.

Lemma itc_inner_R sg target : forall fuel cnt s w x cur dt steps tr s' w' x' dt' c n,
  dt <> 0 -> dir dt = sg -> 0 <= sg * (target - cur) ->
  @itc_inner N S W X tstep fuel target cnt s w x cur dt steps = (tr, Ok (s', w', x', dt', c, n)) ->
  w' = w /\ n = (steps + length (accepted_of tr))%nat /\ dt' <> 0 /\ dir dt' = sg /\
  exists b, approach target cur dt tr b dt' /\ 0 <= sg * (target - b) <= eps.
Proof.
  induction fuel as [|fuel IH]; intros cnt s w x cur dt steps tr s' w' x' dt' c n Hdt Hsg Hcur H;
   cbn [itc_inner] in H; [discriminate|].
  destruct (@less_with_sign N cur target dt) eqn:E; cbv zeta in H.
  - apply less_R in E. rewrite Hsg in E.
    assert (Hd0 : 0 < dir dt * (target - cur)) by (rewrite Hsg; lra).
    destruct (min_abs_R eps dt (target - cur) Hdt Hd0) as [Hm Hc].
    rnum. set (c0 := @min_abs N dt (target - cur)%R) in *.
    assert (Habs : 0 < Rabs dt) by now apply Rabs_pos_lt.
    assert (Hc0 : 0 < dir dt * c0) by (rewrite Hm; unfold Rmin; destruct (Rle_dec _ _); lra).
    assert (Ec0 : dir c0 = dir dt) by now apply dir_eq_of_pos.
    assert (Etc : Rabs (target - cur) = dir dt * (target - cur)).
    { apply Rabs_dir. now apply dir_eq_of_pos. }
    assert (Ecabs : Rabs c0 = Rmin (Rabs dt) (Rabs (target - cur))).
    { rewrite (Rabs_dir c0 dt), Etc; auto. }
    pose proof (Hf s x cur c0 (dir_nz _ _ Hc0)) as HC.
    unfold ctrl_step in H at 1. destruct (f s x cur c0) as [[[[s1 x1] t1] d1] ok] eqn:Ef.
    rewrite Ec0 in HC. unfold bind at 1 in H. destruct ok.
    + destruct HC as [-> Hd1].
      destruct (itc_inner _ _ _ _ _ _ _ _ _ _) as [tr2 r2] eqn:E2. injection H as <- ->.
      assert (Hdd : 0 < dir dt * dt) by (rewrite dir_abs; auto).
      destruct (max_abs_R eps dt d1 Hd1 Hdd) as [HM _].
      set (D := @max_abs N dt d1) in *.
      assert (HD : 0 < dir dt * D) by (rewrite HM; unfold Rmax; destruct (Rle_dec _ _); lra).
      assert (ED : dir D = dir dt) by now apply dir_eq_of_pos.
      apply IH in E2; [|eapply dir_nz; eauto|congruence|].
      * destruct E2 as (-> & -> & Hn & Hdir & b & Hap & Hb). 
        change (accepted_of (ETry x cur c0 true :: tr2)) with ((x, cur, c0) :: accepted_of tr2). (split; [auto|]); (split; [rnum; cbn [length]; rewrite ?Nat.add_succ_r; reflexivity|]); (split; [auto|]); (split; [auto|]); exists b; split; auto.
        econstructor; eauto. rewrite (Rabs_dir D dt ED), HM. apply Rmax_l.
      * rewrite <- Hsg. replace (target - (cur + c0)) with ((target - cur) - c0) by ring.
        rewrite Rmult_minus_distr_l, Hm. pose proof (Rmin_r (Rabs dt) (dir dt * (target - cur))). lra.
    + destruct HC as (-> & -> & Hd1).
      destruct (bind _ _) as [tr2 r2] eqn:E2 in H. injection H as <- ->.
      apply bind_ok_inv in E2 as (tr3 & c1 & tr4 & H1 & H & ->). injection H1 as <- H1.
      assert (Ed1 : dir d1 = dir dt) by (apply dir_eq_of_pos; lra).
      apply IH in H; [|eapply dir_nz; apply Hd1|congruence|auto].
      destruct H as (-> & -> & Hn & Hdir & b & Hap & Hb). 
      change (accepted_of (ETry x cur c0 false :: tr4)) with (accepted_of tr4). (split; [auto|]); (split; [rnum; cbn [length]; rewrite ?Nat.add_succ_r; reflexivity|]); (split; [auto|]); (split; [auto|]); exists b; split; auto.
      econstructor; eauto. rewrite (Rabs_dir d1 dt Ed1). lra.
  - apply less_R_false in E. rewrite Hsg in E. injection H as <- <- <- <- <- <- <-.
    simpl. repeat split; auto; try lia. exists cur. split; [constructor|]. lra.
Qed.

Lemma itc_outer_cons fuel t t' rest cnt s w x dt steps :
  @itc_outer N S W X tstep rec_obs fuel (t :: t' :: rest) cnt s w x dt steps =
  (let* w1 := rec_obs w x t in
   let* (s2, w2, x2, dt2, cnt2, steps2) := @itc_inner N S W X tstep fuel t' cnt s w1 x t dt steps in
   @itc_outer N S W X tstep rec_obs fuel (t' :: rest) cnt2 s2 w2 x2 dt2 steps2).
Proof. reflexivity. Qed.

Lemma itc_outer_R sg fuel : forall times cnt s w x dt steps tr s' w' x' n,
  dt <> 0 -> dir dt = sg -> S_Times.monotone sg times ->
  @itc_outer N S W X tstep rec_obs fuel times cnt s w x dt steps = (tr, Ok (s', w', x', n)) ->
  n = (steps + length (accepted_of tr))%nat /\ times_run eps sg times dt tr x'.
Proof.
  induction times as [|t times IH]; intros cnt s w x dt steps tr s' w' x' n Hdt Hsg Hm H; [discriminate|].
  destruct times as [|t' rest].
  - cbn [itc_outer] in H. apply bind_ok_inv in H as (tr1 & w1 & tr2 & H1 & H & ->).
    injection H1 as <- <-. injection H as <- <- <- <- <-. simpl. split; [lia|constructor].
  - rewrite itc_outer_cons in H. destruct Hm as [Htt Hm].
    apply bind_ok_inv in H as (tr1 & w1 & tr2 & H1 & H & ->). injection H1 as <- <-.
    apply bind_ok_inv in H as (tr3 & [[[[[s2 w2] x2] dt2] cnt2] k] & tr4 & H1 & H & ->).
    eapply itc_inner_R in H1; eauto. destruct H1 as (-> & -> & Hn & Hdir & b & Hap & Hb).
    apply IH in H; auto. destruct H as [-> Hr]. split.
    + rewrite !accepted_of_app, app_length. change (accepted_of [EObs x t]) with (@nil (X*R*R)).
      rewrite app_length. simpl. lia.
    + apply (tr_cons eps sg t t' rest dt x tr3 b dt2 tr4 x' Hap Hb Hr).
Qed.

(** Reading off the observation times. *)
Lemma approach_no_obs target cur D (seg : list V) e De : approach target cur D seg e De -> obs_of seg = [].
Proof. induction 1; auto. Qed.

Lemma times_run_obs sg times D (tr : list V) xN : times_run eps sg times D tr xN ->
  map snd (obs_of tr) = times /\ fst (last (obs_of tr) (xN, 0)) = xN.
Proof.
  induction 1 as [t D x | t t' rest D x seg b D' tr xN Hap Hb Hr IH]; [auto|].
  destruct IH as [IH1 IH2].
  change (EObs x t :: seg ++ tr) with ([EObs x t] ++ (seg ++ tr)).
  rewrite !obs_of_app, (approach_no_obs _ _ _ _ _ _ Hap). cbn [app obs_of flat_map map snd].
  fold (obs_of tr). rewrite IH1. split; auto.
  destruct (obs_of tr) as [|p l] eqn:E; [discriminate|]. exact IH2.
Qed.
End R.

(** Final forms. *)
Lemma const_ctrl_cover :
  forall eps : R, 0 <= eps ->
  forall (S W X : Type) (f : S -> X -> R -> R -> S * X * R * R * bool), try_contract f ->
  forall t0 tend dt : R, dt <> 0 ->
  forall fuel (s : S) (w : W) (x : X) tr w' x' r,
  @integrate_const_ctrl (RNum eps) S W X (ctrl_step f) rec_obs fuel s w x t0 tend dt = (tr, Ok (w', x', r)) ->
  exists segs,
    tr = grid_trace (@grid (RNum eps) t0 dt) 0 segs x' /\
    segs_cover eps t0 dt 0 segs /\
    first_false (fun k => @less_eq_with_sign (RNum eps) (@grid (RNum eps) t0 dt k + dt) tend dt) (length segs).
Proof.
  intros eps He S W X f Hf t0 tend dt Hdt fuel s w x tr w' x' r H.
  eapply icc_loop_R in H; eauto.
  - destruct H as (segs & H1 & H2 & H3 & H4). exists segs. repeat split; auto.
    intros k Hk. apply H3. lia.
  - rewrite dir_abs. now apply Rabs_pos_lt.
Qed.

Lemma n_steps_ctrl_cover :
  forall eps : R, 0 <= eps ->
  forall (S W X : Type) (f : S -> X -> R -> R -> S * X * R * R * bool), try_contract f ->
  forall fuel (t0 dt : R), dt <> 0 ->
  forall (n : nat) (s : S) (w : W) (x : X) tr w' x' tm,
  @integrate_n_steps_ctrl (RNum eps) S W X (ctrl_step f) rec_obs fuel s w x t0 dt n = (tr, Ok (w', x', tm)) ->
  exists segs,
    tr = grid_trace (@grid (RNum eps) t0 dt) 0 segs x' /\ length segs = n /\ segs_cover eps t0 dt 0 segs.
Proof.
  intros eps He S W X f Hf fuel t0 dt Hdt n s w x tr w' x' r H.
  eapply insc_loop_R in H; eauto. rewrite dir_abs. now apply Rabs_pos_lt.
Qed.

Lemma times_ctrl_all :
  forall eps : R, 0 <= eps ->
  forall (S W X : Type) (f : S -> X -> R -> R -> S * X * R * R * bool), try_contract f ->
  forall fuel (times : list R) (s : S) (w : W) (x : X) (dt : R) tr s' w' x' n,
  dt <> 0 -> S_Times.monotone (dir dt) times ->
  @integrate_times_ctrl (RNum eps) S W X (ctrl_step f) rec_obs fuel s w x times dt = (tr, Ok (s', w', x', n)) ->
  times_run eps (dir dt) times dt tr x' /\
  map snd (obs_of tr) = times /\
  fst (last (obs_of tr) (x', 0)) = x' /\
  n = length (accepted_of tr).
Proof.
  intros eps He S W X f Hf fuel times s w x dt tr s' w' x' n Hdt Hm H.
  eapply itc_outer_R in H; eauto. destruct H as [Hn Hr].
  destruct (times_run_obs _ _ _ _ _ _ Hr). auto.
Qed.

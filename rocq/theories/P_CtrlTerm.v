(** Termination of integrate_adaptive with a controller that accepts all short steps. *)
From Coq Require Import List Arith ZArith Reals Lia Lra.
From Verif Require Import M_Num M_Sign M_Run M_Checker M_Controlled S_Grid S_Real S_Ctrl P_Run P_R P_PlainR P_Ctrl P_CtrlR.
Import ListNotations.
Local Open Scope run_scope.
Local Open Scope R_scope.

Lemma bind_Ok {V A B} tr (a : A) (g : A -> M V B) : bind (tr, Ok a) g = (tr ++ fst (g a), snd (g a)).
Proof. unfold bind. destruct (g a); reflexivity. Qed.

Section R.
Variable eps : R.
Hypothesis Heps : 0 <= eps.
Notation N := (RNum eps).
Context {S W X : Type}.
Notation V := (ev X R).
Variable f : S -> X -> R -> R -> S * X * R * R * bool.
Variable P : S -> X -> R -> Prop.
Variables lo hi h : R.
Hypothesis Hlo : 0 < lo. Hypothesis Hhi : 0 < hi.
(** The attempt from t by dt stays between t0 and tend. *)
Variables t0 tend sg : R.
Definition inside (t dt : R) : Prop := dir dt = sg /\ 0 <= sg * (t - t0) /\ sg * (t + dt - tend) <= eps.
Hypothesis Hf : forall s x t dt, P s x t -> dt <> 0 -> inside t dt ->
  let '(s', x', t', dt', ok) := f s x t dt in
  P s' x' t' /\ 0 < dir dt * dt' /\ (Rabs dt <= h -> ok = true) /\
  (if ok : bool then t' = t + dt /\ Rmin (Rabs dt) (lo * h) <= Rabs dt'
   else x' = x /\ t' = t /\ lo * Rabs dt <= Rabs dt' <= hi * Rabs dt).
Notation tstep := (ctrl_step (W := W) f).

Lemma try_loop_S fuel cnt s w x t dt s1 x1 t1 dt1 (ok : bool) : (cnt < 500)%nat ->
  f s x t dt = (s1, x1, t1, dt1, ok) ->
  @try_loop N S W X tstep (Datatypes.S fuel) cnt s w x t dt =
  if ok then ([ETry x t dt ok], Ok (s1, w, x1, t1, dt1))
  else let r := @try_loop N S W X tstep fuel (Datatypes.S cnt) s1 w x1 t1 dt1 in (ETry x t dt ok :: fst r, snd r).
Proof.
  intros Hc E. cbn [try_loop]. unfold ctrl_step at 1. rewrite E. unfold fail_check, checker_call, default_max_steps.
  destruct (Nat.leb_spec 500 cnt); [lia|]. unfold fail, bind, ret. destruct ok; [reflexivity|].
  destruct (try_loop _ _ _ _ _ _ _ _); reflexivity.
Qed.

Lemma try_loop_term : forall n fuel cnt s w x t dt,
  P s x t -> dt <> 0 -> inside t dt -> (n < fuel)%nat -> (cnt + n < 500)%nat -> hi ^ n * Rabs dt <= h -> Rabs dt * hi <= Rabs dt ->
  exists tr s' x' d dt', @try_loop N S W X tstep fuel cnt s w x t dt = (tr, Ok (s', w, x', t + d, dt')) /\
   P s' x' (t + d) /\ 0 < dir dt * d <= Rabs dt /\ Rmin (Rabs dt) (lo * h) <= Rabs d /\ 0 < dir dt * dt'
   /\ Rmin (Rabs d) (lo * h) <= Rabs dt'.
Proof.
  induction n as [|n IH]; intros fuel cnt s w x t dt HP Hd Hin Hfu Hc Hb Hm;
    (destruct fuel as [|fuel]; [lia|]);
    pose proof (Hf s x t dt HP Hd Hin) as HC; destruct (f s x t dt) as [[[[s1 x1] t1] dt1] ok] eqn:E;
    destruct HC as (HP1 & Hdir & Hsmall & HC); assert (Pd : 0 < Rabs dt) by (now apply Rabs_pos_lt);
    rewrite (try_loop_S fuel cnt s w x t dt _ _ _ _ _ ltac:(lia) E).
  - simpl in Hb. rewrite (Hsmall ltac:(lra)) in *. destruct HC as [-> HC].
    eexists _, s1, x1, dt, dt1. split; [reflexivity|]. rewrite dir_abs.
    split; [exact HP1|]. split; [lra|]. split; [apply Rmin_l|]. auto.
  - destruct ok.
    + destruct HC as [-> HC].
      eexists _, s1, x1, dt, dt1. split; [reflexivity|]. rewrite dir_abs.
      split; [exact HP1|]. split; [lra|]. split; [apply Rmin_l|]. auto.
    + destruct HC as (-> & -> & HC).
      assert (Big : h < Rabs dt) by (destruct (Rle_lt_dec (Rabs dt) h) as [L|L]; [discriminate (Hsmall L)|exact L]).
      assert (Ed : dir dt1 = dir dt) by (apply dir_eq_of_pos; lra).
      assert (Nz : dt1 <> 0) by (intro Z; rewrite Z in Hdir; lra).
      assert (Pd1 : 0 < Rabs dt1) by now apply Rabs_pos_lt.
      assert (Hin1 : inside t dt1).
      { assert (hi <= 1) by (apply Rmult_le_reg_l with (Rabs dt); lra).
        assert (hi * Rabs dt <= Rabs dt) by nra.
        unfold inside in *. rewrite Ed. destruct Hin as (Hsg & Hin0 & Hin). split; [exact Hsg|]. split; [exact Hin0|].
        pose proof (dir_abs dt) as Z1. pose proof (dir_abs dt1) as Z2. rewrite Ed in Z2. rewrite Hsg in Z1, Z2. lra. }
      destruct (IH fuel (Datatypes.S cnt) s1 w x t dt1 HP1 Nz Hin1 ltac:(lia) ltac:(lia)) as
        (tr & s' & x' & d & dt' & E1 & A1 & A2 & A3 & A4 & A5).
      * simpl in Hb.
        assert (0 <= hi ^ n) by (apply pow_le; lra).
        apply Rle_trans with (hi ^ n * (hi * Rabs dt)); [apply Rmult_le_compat_l; lra|].
        replace (hi ^ n * (hi * Rabs dt)) with (hi * hi ^ n * Rabs dt) by ring. exact Hb.
      * apply Rmult_le_reg_r with (Rabs dt); [lra|]. nra.
      * rewrite E1. eexists _, s', x', d, dt'. split; [reflexivity|]. rewrite Ed in *.
        split; [exact A1|]. split; [|split; [|split; auto]].
        -- split; [lra|]. assert (hi <= 1) by (apply Rmult_le_reg_l with (Rabs dt); lra).
           assert (hi * Rabs dt <= Rabs dt) by nra. lra.
        -- assert (lo * h <= Rabs dt1) by (assert (lo * h <= lo * Rabs dt) by (apply Rmult_le_compat_l; lra); lra).
           rewrite Rmin_right in A3 by lra. pose proof (Rmin_r (Rabs dt) (lo * h)). lra.
Qed.

Lemma ia_loop_term (obs : W -> X -> R -> M V W) :
  (forall w x t, exists tr w', obs w x t = (tr, Ok w')) -> hi <= 1 ->
  forall m L, 0 < m <= lo * h -> hi ^ 499 * (L + eps) <= h ->
  forall n fuel s w x t dt count, P s x t -> dt <> 0 -> dir dt = sg -> 0 <= sg * (t - t0) -> (n < fuel)%nat ->
  dir dt * (tend - t) <= L -> - eps <= dir dt * (tend - t) <= INR n * m + eps -> m <= Rabs dt ->
  exists tr s' w' x' t' dt' k, @ia_loop N S W X tstep obs fuel tend s w x t dt count = (tr, Ok (s', w', x', t', dt', k))
   /\ Rabs (tend - t') <= eps /\ (count <= k <= count + n)%nat.
Proof.
  intros Hobs H1 m L Hm HL.
  assert (base : forall fuel s w x t dt count, (0 < fuel)%nat -> Rabs (tend - t) <= eps ->
    exists tr s' w' x' t' dt' k, @ia_loop N S W X tstep obs fuel tend s w x t dt count = (tr, Ok (s', w', x', t', dt', k))
    /\ Rabs (tend - t') <= eps /\ k = count).
  { intros fuel s w x t dt count Hfu Ht. destruct fuel as [|fuel]; [lia|]. cbn [ia_loop].
    destruct (@less_with_sign N t tend dt) eqn:El.
    - apply less_R in El. exfalso.  assert (dir dt * (tend - t) <= Rabs (tend - t)).
      { destruct (dir_cases dt) as [[_ E]|[_ E]]; rewrite E; [rewrite Rmult_1_l; apply Rle_abs|].
        rewrite <- Rabs_Ropp. replace (-1 * (tend - t)) with (- (tend - t)) by ring. apply Rle_abs. }
      lra.
    - destruct (Hobs w x t) as (tr & w' & Eo). rewrite Eo. unfold bind, ret.
      eexists _, s, w', x, t, dt, count. split; [reflexivity|]. split; auto. }
  induction n as [|n IH]; intros fuel s w x t dt count HP Hd Hsg Ht0 Hfu HL' Hdist Hmd.
  - destruct (base fuel s w x t dt count Hfu) as (tr & s' & w' & x' & t' & dt' & k & E & Q & ->).
    { apply Rabs_le. simpl in Hdist. destruct (dir_cases dt) as [[_ E]|[_ E]]; rewrite E in *; lra. }
    exists tr, s', w', x', t', dt', count. split; [exact E|]. split; [exact Q|lia].
  - destruct fuel as [|fuel]; [lia|]. cbn [ia_loop]. destruct (Hobs w x t) as (tro & w1 & Eo).
    change (obs w x t) with (obs w x (t : R)). rewrite Eo.
    destruct (@less_with_sign N t tend dt) eqn:El; cbv zeta.
    2:{ apply less_R_false in El. unfold bind, ret. eexists _, s, w1, x, t, dt, count. split; [reflexivity|].
        split; [|lia]. apply Rabs_le. destruct (dir_cases dt) as [[_ E]|[_ E]]; rewrite E in *; lra. }
    apply less_R in El. rewrite bind_Ok.
    set (dt1 := if @less_with_sign N _ _ _ then _ else _).
    assert (H2 : 0 < dir dt * dt1 /\ dir dt * (t + dt1 - tend) <= eps /\ (dt1 = tend - t \/ dt1 = dt)).
    { subst dt1. destruct (@less_with_sign N tend _ dt) eqn:E2.
      - split; rnum; [lra|]. split; [|left; reflexivity]. replace (t + (tend - t) - tend) with 0 by ring. lra.
      - apply less_R_false in E2. rnum. rewrite dir_abs. split; [now apply Rabs_pos_lt|]. split; [lra|now right]. }
    clearbody dt1. change R in dt1. destruct H2 as (Hp & Hb & Hcase).
    assert (Ed : dir dt1 = dir dt) by now apply dir_eq_of_pos.
    assert (Ed1 : Rabs dt1 = dir dt * dt1) by (rewrite <- (dir_abs dt1), Ed; reflexivity).
    assert (Nz : dt1 <> 0) by (intro Z; rewrite Z in Hp; lra).
    assert (Hin : inside t dt1) by (unfold inside; rewrite Ed, <- Hsg; split; [reflexivity|split; [rewrite Hsg|]; assumption]).
    destruct (try_loop_term 499 (2 + default_max_steps) 0 s w1 x t dt1 HP Nz Hin) as
      (tr & s2 & x2 & d & dt2 & E1 & A1 & A2 & A3 & A4 & A5).
    + unfold default_max_steps. lia.
    + lia.
    + apply Rle_trans with (hi ^ 499 * (L + eps)); [|exact HL]. apply Rmult_le_compat_l; [apply pow_le; lra|].
      rewrite Ed1. replace (dir dt * dt1) with (dir dt * (t + dt1 - tend) + dir dt * (tend - t)) by ring. lra.
    + assert (0 <= Rabs dt1) by apply Rabs_pos. nra.
    + rewrite E1. rewrite Ed in *.
      assert (Pd : Rabs d = dir dt * d).
      { rewrite <- (dir_abs d). f_equal. symmetry. symmetry. apply dir_eq_of_pos. lra. }
      assert (Ed2 : dir dt2 = dir dt) by now apply dir_eq_of_pos.
      assert (Nz2 : dt2 <> 0) by (intro Z; rewrite Z in A4; lra).
      rewrite bind_Ok.
      destruct (Rle_lt_dec m (Rabs d)) as [G|G].
      * destruct (IH fuel s2 w1 x2 (t + d) dt2 (Datatypes.S count) A1 Nz2) as
          (tr2 & s' & w' & x' & t' & dt' & k & E3 & Q1 & Q2).
        -- now rewrite Ed2.
        -- rewrite <- Hsg in *. replace (dir dt * (t + d - t0)) with (dir dt * (t - t0) + dir dt * d) by ring. lra.
        -- lia.
        -- rewrite Ed2. replace (dir dt * (tend - (t + d))) with (dir dt * (tend - t) - dir dt * d) by ring. lra.
        -- rewrite Ed2. rewrite S_INR in Hdist.
           replace (dir dt * (tend - (t + d))) with (dir dt * (tend - t) - dir dt * d) by ring.
           replace (dir dt * (t + dt1 - tend)) with (dir dt * dt1 - dir dt * (tend - t)) in Hb by ring.
           split; nra.
        -- apply Rle_trans with (Rmin (Rabs d) (lo * h)); [apply Rmin_glb; lra|exact A5].
        -- rewrite E3. eexists _, s', w', x', t', dt', k. split; [reflexivity|]. split; [exact Q1|lia].
      * (* shorter than m: the step was cut off and reaches the end *)
        assert (Q : Rabs dt1 <= Rabs d).
        { destruct (Rle_dec (Rabs dt1) (lo * h)) as [L1|L1].
          - rewrite Rmin_left in A3 by lra. exact A3.
          - rewrite Rmin_right in A3 by lra. lra. }
        assert (E : d = dt1).
        { assert (dir dt * d = dir dt * dt1) by lra. destruct (dir_cases dt) as [[_ E]|[_ E]]; rewrite E in *; lra. }
        destruct Hcase as [Hc|Hc]; [|rewrite E, Hc in G; lra].
        destruct (base fuel s2 w1 x2 (t + d) dt2 (Datatypes.S count)) as (tr2 & s' & w' & x' & t' & dt' & k & E3 & Q1 & Q2).
        -- lia.
        -- rewrite E, Hc. replace (tend - (t + (tend - t))) with 0 by ring. rewrite Rabs_R0. exact Heps.
        -- rewrite E3. eexists _, s', w', x', t', dt', k. split; [reflexivity|]. split; [exact Q1|lia].
Qed.
End R.

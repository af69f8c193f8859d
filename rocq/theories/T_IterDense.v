(** C132: const-step and n-step iterators of dense output steppers. *)
From Coq Require Import List Arith ZArith QArith Lia Reals Lra Bool.
From Verif Require Import M_Num M_Sign M_Run M_Dense M_Iter S_Grid S_Real S_Dense P_Run P_R P_PlainR P_Dense X_Inst.
Import ListNotations.
Local Open Scope run_scope.
Local Open Scope R_scope.

Section R.
Variable eps : R.
Hypothesis Heps : 0 <= eps.
Notation N := (RNum eps).
Context {S W X : Type}.
Notation V := (ev X R).
Variables (init : S -> X -> R -> R -> S) (step : S -> S) (calc : S -> R -> X)
  (ct : S -> R) (cx : S -> X) (cdt : S -> R).
Hypothesis HD : dense_contract init step ct cx cdt.
Notation D := (@dense_of N S W X init step calc ct cx cdt).
Variables t0 dt : R.
Hypothesis Hdt : eps < Rabs dt.
Notation sg := (dir dt).
Notation good := (good cdt sg).
Let tk (k : nat) : R := t0 + INR k * dt.

Lemma dt_pos : eps < sg * dt.
Proof. now rewrite dir_abs. Qed.
Lemma tk_S k : tk (Datatypes.S k) = tk k + dt.
Proof. unfold tk. rewrite S_INR. ring. Qed.

Lemma reach_R time : forall fuel s w tr r, good s -> @reach N S W X D fuel time s w = (tr, r) ->
  obs_of tr = [] /\ (forall iv, valid_calcs sg eps iv tr) /\ paired tr /\ Forall (fun p => eps < sg * (time - fst p)) (dos_of tr)
  /\ (exists b, adjacent sg (ct s) (dos_of tr) b)
  /\ forall s' w', r = Ok (s', w') -> w' = w /\ good s' /\ adjacent sg (ct s) (dos_of tr) (ct s') /\ sg * (time - ct s') <= eps
     /\ forall iv, interval_after iv tr = iv /\ ct s' = ct s /\ sg * (time - ct s) <= eps
        \/ exists a, interval_after iv tr = Some (a, ct s') /\ eps < sg * (time - a).
Proof.
  induction fuel as [|fuel IH]; intros s w tr r Hg H; cbn [reach] in H.
  - injection H as <- <-. repeat split; try discriminate; try constructor; try exact Logic.I. exists (ct s). reflexivity.
  - cbn [dense_of d_t d_dt d_step] in H. destruct (@less_with_sign N (ct s) time (cdt s)) eqn:E.
    + apply less_R in E. destruct Hg as [Hg1 Hg2]. rewrite Hg2 in E.
      destruct (good_step init step ct cx cdt HD sg s (conj Hg1 Hg2)) as [Hg' Hadv].
      apply bind_emit in H as (tr1 & H & ->). destruct (IH _ _ _ _ Hg' H) as (A1 & A2 & A3 & A4 & (b & A5) & A6).
      change (obs_of (EDo (ct s) (ct (step s)) (cx (step s)) :: tr1)) with (obs_of tr1).
      change (dos_of (EDo (ct s) (ct (step s)) (cx (step s)) :: tr1)) with ((ct s, ct (step s)) :: dos_of tr1).
      split; [exact A1|]. split; [intros iv; exact (A2 _)|]. split; [exact A3|].
      split; [constructor; [cbn [fst]; lra|exact A4]|]. split; [exists b; cbn [adjacent]; repeat split; [lra|exact A5]|].
      intros s' w' Er. destruct (A6 _ _ Er) as (-> & B1 & B2 & B3 & B4).
      split; [reflexivity|]. split; [exact B1|]. split; [cbn [adjacent]; repeat split; [lra|exact B2]|]. split; [exact B3|].
      intros iv. right. cbn [interval_after]. destruct (B4 (Some (ct s, ct (step s)))) as [(Q1 & Q2 & _)|Q].
      * exists (ct s). rewrite Q1, Q2. split; [reflexivity|lra].
      * exact Q.
    + apply less_R_false in E. destruct Hg as [Hg1 Hg2]. rewrite Hg2 in E. unfold ret in H. injection H as <- <-.
      split; [reflexivity|]. split; [intros; exact Logic.I|]. split; [exact Logic.I|]. split; [constructor|]. split; [exists (ct s); reflexivity|].
      intros s' w' [= <- <-]. repeat split; auto.
Qed.

Variable fuel : nat.
Variable inc : cdit N S X -> W -> M V (cdit N S X * W).
Variable cont : nat -> bool.
Hypothesis Hinc : forall s x k w, inc (@mkCdit N S X s x (tk k) k false) w =
  if cont k then @dense_advance N S W X D fuel t0 dt (@mkCdit N S X s x (tk k) k false) w else ret (@mkCdit N S X s x (tk k) k true, w).

Definition before (iv : option (R * R)) (k : nat) (s : S) : Prop :=
  match iv with None => ct s = tk k | Some (a, b) => b = ct s /\ - eps <= sg * (tk k - a) end.

Lemma loop_R : forall fuel2 s x k w c iv tr r, good s -> before iv k s ->
  for_each rec_obs inc (@ci_end N S X) (@ci_deref N S X) fuel2 (@mkCdit N S X s x (tk k) k false) w c = (tr, r) ->
  valid_calcs sg eps iv tr /\ (exists b, adjacent sg (ct s) (dos_of tr) b)
  /\ exists m, map snd (obs_of tr) = map tk (seq k m) /\ (forall j, (j + 1 < m)%nat -> cont (k + j)%nat = true)
  /\ Forall (fun p => exists j, cont (k + j)%nat = true /\ (forall i, (i < j)%nat -> cont (k + i)%nat = true) /\ eps < sg * (tk (k + j + 1) - fst p)) (dos_of tr)
  /\ (m = O \/ exists tr1, tr = EObs x (tk k) :: tr1
      /\ forall it w' c', r = Ok (it, w', c') -> cont (k + m - 1)%nat = false /\ w' = w /\ c' = (c + m)%nat /\ paired tr1 /\ ci_end it = true
         /\ last (obs_of tr) (x, t0) = ci_deref it)
  /\ (m = O -> forall a, r <> Ok a).
Proof.
  induction fuel2 as [|fuel2 IH]; intros s x k w c iv tr r Hg Hb H.
  - injection H as <- <-. split; [exact Logic.I|]. split; [exists (ct s); reflexivity|]. exists O. repeat split; try constructor; try lia; try discriminate; auto.
  - cbn [for_each ci_end] in H. unfold rec_obs at 1 in H. apply bind_emit in H as (tr1 & H & ->).
    unfold ci_deref in *. cbn [fst snd ci_x ci_t] in *. rewrite Hinc in H.
    change (obs_of (EObs x (tk k) :: tr1)) with ((x, tk k) :: obs_of tr1).
    change (dos_of (EObs x (tk k) :: tr1)) with (dos_of tr1).
    change (valid_calcs sg eps iv (EObs x (tk k) :: tr1)) with (valid_calcs sg eps iv tr1).
    destruct (cont k) eqn:Ec.
    + unfold dense_advance in H. cbn [ci_k ci_s ci_end] in H.
      assert (Et : (@nadd N t0 (@nmul N (@nofnat N (Datatypes.S k)) dt)) = tk (Datatypes.S k)).
      { unfold tk. rewrite nofnat_R. reflexivity. }
      rewrite Et in H. clear Et.
      destruct (@reach N S W X D fuel (tk (Datatypes.S k)) s w) as [trr rr] eqn:Er.
      destruct (reach_R _ _ _ _ _ _ Hg Er) as (A1 & A2 & A3 & A4 & A5 & A6).
      assert (F1 : Forall (fun p => exists j, cont (k + j)%nat = true /\ (forall i, (i < j)%nat -> cont (k + i)%nat = true) /\ eps < sg * (tk (k + j + 1) - fst p)) (dos_of trr)).
      { eapply Forall_impl; [|exact A4]. intros p Hp. exists O. rewrite Nat.add_0_r, Nat.add_1_r. split; [exact Ec|]. split; [lia|exact Hp]. }
      assert (Bad : forall r', (forall a, r' <> Ok a) -> rr <> Ok (s, w) \/ True -> (tr1, r) = (trr, r') -> 
        valid_calcs sg eps iv tr1 /\ (exists b, adjacent sg (ct s) (dos_of tr1) b)
        /\ exists m, map snd ((x, tk k) :: obs_of tr1) = map tk (seq k m) /\ (forall j, (j + 1 < m)%nat -> cont (k + j)%nat = true)
        /\ Forall (fun p => exists j, cont (k + j)%nat = true /\ (forall i, (i < j)%nat -> cont (k + i)%nat = true) /\ eps < sg * (tk (k + j + 1) - fst p)) (dos_of tr1)
        /\ (m = O \/ exists tr2, EObs x (tk k) :: tr1 = EObs x (tk k) :: tr2
            /\ forall it w' c', r = Ok (it, w', c') -> cont (k + m - 1)%nat = false /\ w' = w /\ c' = (c + m)%nat /\ paired tr2 /\ ci_end it = true
               /\ last ((x, tk k) :: obs_of tr1) (x, t0) = (ci_x it, ci_t it))
        /\ (m = O -> forall a, r <> Ok a)).
      { intros r' Hr _ [= E1 E2]. rewrite E1, E2 in *. clear E1 E2. change (carrier N) with R in *. split; [apply A2|]. split; [exact A5|]. exists 1%nat. rewrite A1. split; [reflexivity|].
        split; [lia|]. split; [exact F1|]. split; [|lia]. right. exists trr. split; [reflexivity|]. intros it w' c' E. exfalso. exact (Hr _ E). }
      destruct rr as [[s' w']|e| |]; cbn [bind] in H; try (eapply Bad; [|right; exact Logic.I|symmetry; exact H]; discriminate).
      clear Bad. destruct (A6 _ _ eq_refl) as (-> & B1 & B2 & B3 & B4). clear A6.
      unfold call_calc in H. cbn [dense_of d_calc] in H. unfold bind, ret in H. cbn [fst snd app] in H.
      destruct (for_each _ _ _ _ fuel2 _ _ _) as [tr2 r2] eqn:E2. injection H as <- <-.
      assert (Hb2 : exists a, interval_after iv trr = Some (a, ct s') /\ - eps <= sg * (tk k - a) \/ interval_after iv trr = Some (a, ct s') /\ eps < sg * (tk (Datatypes.S k) - a)).
      { destruct (B4 iv) as [(Q1 & Q2 & Q3)|(a & Q1 & Q2)]; [|exists a; right; auto].
        destruct iv as [[a b]|]; cbn [before] in Hb.
        - destruct Hb as [Hb1 Hb2]. exists a. left. rewrite Q1, Hb1, Q2. auto.
        - exfalso. rewrite Hb in Q3. rewrite tk_S in Q3. pose proof dt_pos. replace (sg * (tk k + dt - tk k)) with (sg * dt) in Q3 by ring. lra. }
      destruct Hb2 as (a & Hb2).
      assert (Ia : interval_after iv trr = Some (a, ct s')) by (destruct Hb2 as [[Q _]|[Q _]]; exact Q).
      assert (La : - eps <= sg * (tk (Datatypes.S k) - a)).
      { destruct Hb2 as [[_ Q]|[_ Q]]; [|lra]. rewrite tk_S. pose proof dt_pos. replace (sg * (tk k + dt - a)) with (sg * (tk k - a) + sg * dt) by ring. lra. }
      specialize (IH s' (calc s' (tk (Datatypes.S k))) (Datatypes.S k) w (Datatypes.S c) (interval_after iv trr) tr2 r2 B1).
      rewrite Ia in IH. specialize (IH (conj eq_refl La) E2). destruct IH as (I1 & (b & I2) & m & I3 & I4 & I5 & I6 & I7).
      change (carrier N) with R in *. change (carrier (RNum eps)) with R in *. cbn [app].
      set (trc := (trr ++ [ECalc (tk (Datatypes.S k)) (calc s' (tk (Datatypes.S k)))]) ++ tr2). assert (Ec2 : trc = trr ++ ECalc (tk (Datatypes.S k)) (calc s' (tk (Datatypes.S k))) :: tr2) by (unfold trc; now rewrite <- app_assoc).
      assert (Eo : obs_of trc = obs_of tr2) by (rewrite Ec2, obs_of_app, A1; reflexivity).
      assert (Ed : dos_of trc = dos_of trr ++ dos_of tr2) by (rewrite Ec2, dos_of_app; reflexivity).
      rewrite Eo, Ed. split.
      { rewrite Ec2. apply valid_app. split; [apply A2|]. rewrite Ia. cbn [valid_calcs]. split; [split; [exact La|exact B3]|exact I1]. }
      split; [exists b; eapply adjacent_app; [exact B2|exact I2]|].
      exists (Datatypes.S m). cbn [map snd seq]. split; [f_equal; exact I3|].
      split; [intros [|j] Hj; [now rewrite Nat.add_0_r|]; specialize (I4 j ltac:(lia)); now rewrite Nat.add_succ_r|].
      split.
      { apply Forall_app. split; [exact F1|]. eapply Forall_impl; [|exact I5]. intros p (j & P1 & P2 & P3). exists (Datatypes.S j).
        rewrite Nat.add_succ_r. split; [exact P1|]. split; [|exact P3]. intros [|i] Hi; [now rewrite Nat.add_0_r|].
        rewrite Nat.add_succ_r. apply (P2 i). lia. }
      split; [|lia]. right. exists trc. split; [reflexivity|]. intros it w' c' E.
      destruct I6 as [->|(tr3 & E3 & I6)]; [now destruct (I7 eq_refl _ E)|].
      assert (m <> O) by (intros ->; now apply (I7 eq_refl _ E)).
      destruct (I6 _ _ _ E) as (J1 & J2 & J3 & J4 & J5 & J6).
      replace (k + Datatypes.S m - 1)%nat with (Datatypes.S k + m - 1)%nat by lia. split; [exact J1|]. split; [exact J2|]. split; [lia|].
      split; [rewrite Ec2; apply cto_app; [exact A3|]; rewrite E3; cbn [paired]; repeat split; exact J4|].
      split; [exact J5|]. rewrite last_cons. rewrite <- J6. rewrite E3.
      change (obs_of (EObs (calc s' (tk (Datatypes.S k))) (tk (Datatypes.S k)) :: tr3)) with ((calc s' (tk (Datatypes.S k)), tk (Datatypes.S k)) :: obs_of tr3).
      now rewrite !last_cons.
    + rewrite bind_ret_l in H. destruct fuel2 as [|fuel2]; cbn [for_each ci_end] in H; unfold ret in H; injection H as <- <-.
      * split; [exact Logic.I|]. split; [exists (ct s); reflexivity|]. exists 1%nat. split; [reflexivity|]. split; [lia|]. split; [constructor|]. split; [|lia].
        right. exists []. split; [reflexivity|]. discriminate.
      * split; [exact Logic.I|]. split; [exists (ct s); reflexivity|]. exists 1%nat. split; [reflexivity|]. split; [lia|]. split; [constructor|].
        split; [|lia]. right. exists []. split; [reflexivity|]. intros it w' c' [= <- <- <-].
        replace (k + 1 - 1)%nat with k by lia. repeat split; [exact Ec|lia].
Qed.
End R.

Section T.
Variable eps : R.
Hypothesis Heps : 0 <= eps.
Context {S W X : Type}.
Variables (init : S -> X -> R -> R -> S) (step : S -> S) (calc : S -> R -> X)
  (ct : S -> R) (cx : S -> X) (cdt : S -> R).
Hypothesis HD : dense_contract init step ct cx cdt.
Notation D := (@dense_of (RNum eps) S W X init step calc ct cx cdt).

Lemma mono_tk t0 dt i j : (i <= j)%nat -> dir dt * (t0 + INR i * dt) <= dir dt * (t0 + INR j * dt).
Proof.
  intros H. apply le_INR in H. pose proof (dir_abs dt) as E. pose proof (Rabs_pos dt). rewrite <- E in H0.
  replace (dir dt * (t0 + INR i * dt)) with (dir dt * t0 + INR i * (dir dt * dt)) by ring.
  replace (dir dt * (t0 + INR j * dt)) with (dir dt * t0 + INR j * (dir dt * dt)) by ring.
  apply Rplus_le_compat_l. now apply Rmult_le_compat_r.
Qed.

Lemma n_iter_R : forall (t0 dt : R) n fuel fuel2 (s : S) (w : W) (x : X) tr r, eps < Rabs dt ->
  (let* it0 := @n_dense_begin (RNum eps) S W X D s x t0 dt in
   for_each rec_obs (@n_dense_inc (RNum eps) S W X D fuel t0 dt n) (@ci_end (RNum eps) S X) (@ci_deref (RNum eps) S X) fuel2 it0 w 0) = (tr, r) ->
  let tk := fun k => t0 + INR k * dt in
  valid_calcs (dir dt) eps None tr /\ (exists b, adjacent (dir dt) t0 (dos_of tr) b)
  /\ Forall (fun p => eps < dir dt * (tk n - fst p)) (dos_of tr)
  /\ (exists rest, map tk (seq 0 (Datatypes.S n)) = map snd (obs_of tr) ++ rest)
  /\ forall it w' c, r = Ok (it, w', c) -> w' = w /\ c = Datatypes.S n /\ map snd (obs_of tr) = map tk (seq 0 (Datatypes.S n))
     /\ ci_deref it = last (obs_of tr) (x, t0) /\ exists tr1, tr = EInit x t0 dt :: EObs x t0 :: tr1 /\ paired tr1.
Proof.
  intros t0 dt n fuel fuel2 s w x tr r Hdt H tk. unfold n_dense_begin, call_init in H. cbn [dense_of d_init] in H.
  unfold bind at 2, ret in H. cbn [app] in H. apply bind_emit in H as (tr1 & H & ->).
  assert (E0 : t0 = t0 + INR 0 * dt) by (cbn [INR]; ring). change (carrier (RNum eps)) with R in *. rewrite E0 in H at 3.
  assert (Hd0 : dt <> 0) by (intros ->; rewrite Rabs_R0 in Hdt; lra).
  assert (Hg : good cdt (dir dt) (init s x t0 dt)) by (unfold good; rewrite (dc_dt _ _ _ _ _ HD); auto).
  assert (Hb : before eps ct t0 dt None 0 (init s x t0 dt)) by (cbn [before]; rewrite (dc_t _ _ _ _ _ HD); exact E0).
  pose proof (loop_R eps Heps init step calc ct cx cdt HD t0 dt Hdt fuel (@n_dense_inc (RNum eps) S W X D fuel t0 dt n) (fun k => (k <? n)%nat)
    ltac:(intros s' x' k w'; unfold n_dense_inc; cbn [ci_k ci_s ci_x ci_t]; reflexivity) fuel2 _ _ 0%nat _ _ None _ _ Hg Hb H)
    as (A1 & (b & A2) & m & A3 & A4 & A5 & A6 & A7).
  rewrite (dc_t _ _ _ _ _ HD) in A2. cbn [Nat.add] in *.
  change (obs_of (EInit x t0 dt :: tr1)) with (obs_of tr1). change (dos_of (EInit x t0 dt :: tr1)) with (dos_of tr1).
  assert (Hm : (m <= Datatypes.S n)%nat).
  { destruct (le_lt_dec m (Datatypes.S n)) as [Q|Q]; [exact Q|]. specialize (A4 n ltac:(lia)). apply Nat.ltb_lt in A4. lia. }
  split; [exact A1|]. split; [exists b; exact A2|]. split.
  { eapply Forall_impl; [|exact A5]. intros p (j & P1 & _ & P2). apply Nat.ltb_lt in P1. pose proof (mono_tk t0 dt (j + 1) n ltac:(lia)).
    unfold tk. lra. }
  split.
  { exists (map tk (seq m (Datatypes.S n - m))). rewrite A3, <- map_app. f_equal.
    replace (Datatypes.S n) with (m + (Datatypes.S n - m))%nat at 1 by lia. apply seq_app. }
  intros it w' c E. destruct A6 as [->|(tr2 & E2 & A6)]; [now destruct (A7 eq_refl _ E)|].
  destruct (A6 _ _ _ E) as (J1 & J2 & J3 & J4 & J5 & J6). apply Nat.ltb_ge in J1.
  assert (m <> O) by (intros ->; now apply (A7 eq_refl _ E)). assert (m = Datatypes.S n) as -> by lia.
  split; [exact J2|]. split; [exact J3|]. split; [exact A3|]. split; [symmetry; exact J6|].
  exists tr2. rewrite E2. split; [|exact J4]. rewrite <- E0. reflexivity.
Qed.

Lemma const_iter_R : forall (t0 tend dt : R) fuel fuel2 (s : S) (w : W) (x : X) tr r, eps < Rabs dt ->
  (let* it0 := @const_dense_begin (RNum eps) S W X D s x t0 tend dt in
   for_each rec_obs (@const_dense_inc (RNum eps) S W X D fuel t0 tend dt) (@ci_end (RNum eps) S X) (@ci_deref (RNum eps) S X) fuel2 it0 w 0) = (tr, r) ->
  let tk := fun k => t0 + INR k * dt in
  valid_calcs (dir dt) eps None tr /\ (exists b, adjacent (dir dt) t0 (dos_of tr) b)
  /\ Forall (fun p => 0 < dir dt * (tend - fst p)) (dos_of tr)
  /\ exists m, map snd (obs_of tr) = map tk (seq 0 m) /\ Forall (fun p => dir dt * (snd p - tend) <= eps) (obs_of tr)
  /\ forall it w' c, r = Ok (it, w', c) -> w' = w /\ c = m /\ (forall j, (dir dt * (tk j - tend) <= eps <-> (j < m)%nat))
     /\ (m = O /\ tr = [] \/ ci_deref it = last (obs_of tr) (x, t0) /\ exists tr1, tr = EInit x t0 dt :: EObs x t0 :: tr1 /\ paired tr1).
Proof.
  intros t0 tend dt fuel fuel2 s w x tr r Hdt H tk. unfold const_dense_begin in H.
  assert (E0 : t0 = t0 + INR 0 * dt) by (cbn [INR]; ring).
  assert (Hd : eps < dir dt * dt) by (now rewrite dir_abs).
  destruct (@less_eq_with_sign (RNum eps) t0 tend dt) eqn:Eb.
  - apply leq_R in Eb. unfold call_init in H. cbn [dense_of d_init] in H.
    unfold bind at 2, ret in H. cbn [app] in H. apply bind_emit in H as (tr1 & H & ->).
    change (carrier (RNum eps)) with R in *. rewrite E0 in H at 3.
    assert (Hd0 : dt <> 0) by (intros ->; rewrite Rabs_R0 in Hdt; lra).
    assert (Hg : good cdt (dir dt) (init s x t0 dt)) by (unfold good; rewrite (dc_dt _ _ _ _ _ HD); auto).
    assert (Hb : before eps ct t0 dt None 0 (init s x t0 dt)) by (cbn [before]; rewrite (dc_t _ _ _ _ _ HD); exact E0).
    set (cont := fun k : nat => @less_eq_with_sign (RNum eps) (t0 + INR k * dt + dt)%R tend dt).
    assert (Hc : forall k, cont k = true <-> dir dt * (tk (Datatypes.S k) - tend) <= eps).
    { intros k. unfold cont, tk. rewrite S_INR. rewrite leq_R. replace (t0 + (INR k + 1) * dt) with (t0 + INR k * dt + dt) by ring. tauto. }
    pose proof (loop_R eps Heps init step calc ct cx cdt HD t0 dt Hdt fuel (@const_dense_inc (RNum eps) S W X D fuel t0 tend dt) cont
      ltac:(intros s' x' k w'; unfold const_dense_inc; cbn [ci_k ci_s ci_x ci_t]; reflexivity) fuel2 _ _ 0%nat _ _ None _ _ Hg Hb H)
      as (A1 & (b & A2) & m & A3 & A4 & A5 & A6 & A7).
    rewrite (dc_t _ _ _ _ _ HD) in A2. cbn [Nat.add] in *.
    change (obs_of (EInit x t0 dt :: tr1)) with (obs_of tr1). change (dos_of (EInit x t0 dt :: tr1)) with (dos_of tr1).
    split; [exact A1|]. split; [exists b; exact A2|]. split.
    { eapply Forall_impl; [|exact A5]. intros p (j & P1 & _ & P2). apply Hc in P1. rewrite Nat.add_1_r in P2. unfold tk in P1. lra. }
    assert (Lo : forall j, (j < m)%nat -> dir dt * (tk j - tend) <= eps).
    { intros [|j] Hj; [unfold tk; rewrite <- E0; exact Eb|]. apply Hc. apply A4. lia. }
    exists m. split; [exact A3|]. split.
    { apply Forall_forall. intros p Hp. apply (in_map snd) in Hp. change (carrier (RNum eps)) with R in *. rewrite A3 in Hp. apply in_map_iff in Hp as (j & <- & Hj).
      apply Lo. apply in_seq in Hj. lia. }
    intros it w' c E. destruct A6 as [->|(tr2 & E2 & A6)]; [now destruct (A7 eq_refl _ E)|].
    destruct (A6 _ _ _ E) as (J1 & J2 & J3 & J4 & J5 & J6).
    assert (m <> O) by (intros ->; now apply (A7 eq_refl _ E)).
    split; [exact J2|]. split; [exact J3|]. split.
    { intros j. split; [|apply Lo]. intros Hj. destruct (le_lt_dec m j) as [Q|Q]; [exfalso|exact Q].
      assert (Cf : cont (m - 1)%nat = true); [|congruence].
      apply Hc. replace (Datatypes.S (m - 1)) with m by lia. pose proof (mono_tk t0 dt m j Q). unfold tk in *. lra. }
    right. split; [symmetry; exact J6|]. exists tr2. rewrite E2. split; [|exact J4]. rewrite <- E0. reflexivity.
  - apply leq_R_false in Eb. rewrite bind_ret_l in H. destruct fuel2 as [|fuel2]; cbn [for_each ci_end] in H; unfold ret in H; injection H as <- <-.
    + split; [exact Logic.I|]. split; [exists t0; reflexivity|]. split; [constructor|]. exists O. split; [reflexivity|]. split; [constructor|]. discriminate.
    + split; [exact Logic.I|]. split; [exists t0; reflexivity|]. split; [constructor|]. exists O. split; [reflexivity|]. split; [constructor|].
      intros it w' c [= <- <- <-]. split; [reflexivity|]. split; [reflexivity|]. split; [|left; auto].
      intros j. split; [|lia]. intros Hj. exfalso. pose proof (mono_tk t0 dt 0 j ltac:(lia)) as Q. rewrite <- E0 in Q. unfold tk in Hj. lra.
Qed.
End T.

(** C132, n-step time iterator: the elements are the grid points t0, t0 + dt, ..., t0 + n dt; the first shows the state given, every other
    what calc_state wrote for its time, inside the interval of the last step made (within epsilon); the steps follow each other and none
    starts at or after the last grid point. *)
Theorem C132_n_steps : forall eps, 0 <= eps ->
  forall (S W X : Type) init step calc ct cx cdt, @dense_contract S X init step ct cx cdt ->
  forall (t0 dt : R) n fuel fuel2 (s : S) (w : W) (x : X) tr r, eps < Rabs dt ->
  let D := @dense_of (RNum eps) S W X init step calc ct cx cdt in
  (let* it0 := n_dense_begin D s x t0 dt in for_each rec_obs (n_dense_inc D fuel t0 dt n) ci_end ci_deref fuel2 it0 w 0) = (tr, r) ->
  let tk := fun k => t0 + INR k * dt in
  valid_calcs (dir dt) eps None tr /\ (exists b, adjacent (dir dt) t0 (dos_of tr) b)
  /\ Forall (fun p => eps < dir dt * (tk n - fst p)) (dos_of tr)
  /\ (exists rest, map tk (seq 0 (Datatypes.S n)) = map snd (obs_of tr) ++ rest)
  /\ forall it w' c, r = Ok (it, w', c) -> w' = w /\ c = Datatypes.S n /\ map snd (obs_of tr) = map tk (seq 0 (Datatypes.S n))
     /\ ci_deref it = last (obs_of tr) (x, t0) /\ exists tr1, tr = EInit x t0 dt :: EObs x t0 :: tr1 /\ paired tr1.
Proof. intros eps He S W X init step calc ct cx cdt HD t0 dt n fuel fuel2 s w x tr r Hdt D. exact (n_iter_R eps He init step calc ct cx cdt HD t0 dt n fuel fuel2 s w x tr r Hdt). Qed.
Print Assumptions C132_n_steps.

(** C132, const-step time iterator: the elements are exactly the grid points up to the end time (within epsilon), with the states as above;
    unlike integrate_const (C07) no state is extrapolated and no step starts at or after the end time. *)
Theorem C132_const : forall eps, 0 <= eps ->
  forall (S W X : Type) init step calc ct cx cdt, @dense_contract S X init step ct cx cdt ->
  forall (t0 tend dt : R) fuel fuel2 (s : S) (w : W) (x : X) tr r, eps < Rabs dt ->
  let D := @dense_of (RNum eps) S W X init step calc ct cx cdt in
  (let* it0 := const_dense_begin D s x t0 tend dt in for_each rec_obs (const_dense_inc D fuel t0 tend dt) ci_end ci_deref fuel2 it0 w 0) = (tr, r) ->
  let tk := fun k => t0 + INR k * dt in
  valid_calcs (dir dt) eps None tr /\ (exists b, adjacent (dir dt) t0 (dos_of tr) b)
  /\ Forall (fun p => 0 < dir dt * (tend - fst p)) (dos_of tr)
  /\ exists m, map snd (obs_of tr) = map tk (seq 0 m) /\ Forall (fun p => dir dt * (snd p - tend) <= eps) (obs_of tr)
  /\ forall it w' c, r = Ok (it, w', c) -> w' = w /\ c = m /\ (forall j, (dir dt * (tk j - tend) <= eps <-> (j < m)%nat))
     /\ (m = O /\ tr = [] \/ ci_deref it = last (obs_of tr) (x, t0) /\ exists tr1, tr = EInit x t0 dt :: EObs x t0 :: tr1 /\ paired tr1).
Proof. intros eps He S W X init step calc ct cx cdt HD t0 tend dt fuel fuel2 s w x tr r Hdt D. exact (const_iter_R eps He init step calc ct cx cdt HD t0 tend dt fuel fuel2 s w x tr r Hdt). Qed.
Print Assumptions C132_const.

(** A stepper doubling its step size: three steps for the grid 0, 1, ..., 4 both ways. *)
Example C132_example :
  let D := lin_dense 1 2 in
  let n := (let* it0 := n_dense_begin D (0,0,0)%Q 0%Q 0%Q 1%Q in for_each rec_obs (n_dense_inc D 20 0%Q 1%Q 4) ci_end ci_deref 20 it0 tt 0) in
  let c := (let* it0 := const_dense_begin D (0,0,0)%Q 0%Q 0%Q (9#2)%Q 1%Q in for_each rec_obs (const_dense_inc D 20 0%Q (9#2)%Q 1%Q) ci_end ci_deref 20 it0 tt 0) in
  obs_of (fst n) = [(0,0); (1,1); (2,2); (3,3); (4,4)]%Q /\ dos_of (fst n) = [(0,1); (1,3); (3,7)]%Q /\ fst c = fst n
  /\ exists a b, snd n = Ok (a, tt, 5%nat) /\ snd c = Ok (b, tt, 5%nat).
Proof. vm_compute. repeat split. eexists _, _. split; reflexivity. Qed.
(** The contract is met by real steppers: one that doubles its step size. *)
Definition dbl_step (s : R * R * R) : R * R * R := let '(x, t, d) := s in (x + d, t + d, 2 * d).
Example C132_met : dense_contract (fun _ x t d => (x, t, d)) dbl_step (fun s => snd (fst s)) (fun s => fst (fst s)) (fun s : R * R * R => snd s) /\ 1 / 100 < Rabs (-1).
Proof.
  split; [|unfold Rabs; destruct (Rcase_abs _); lra]. constructor; try reflexivity; intros [[x t] d] H; cbn [dbl_step fst snd] in *.
  - replace (t + d - t) with d by ring. rewrite dir_abs. split; [now apply Rabs_pos_lt|apply Rle_refl].
  - replace (dir d * (2 * d)) with (2 * (dir d * d)) by ring. rewrite dir_abs. pose proof (Rabs_pos_lt d H). lra.
Qed.

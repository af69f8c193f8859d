(** Proofs about the ODE iterators. *)
From Coq Require Import List Arith ZArith Lia Bool.
From Verif Require Import M_Num M_Sign M_Run M_Checker M_Plain M_Controlled M_Dense M_Iter S_Grid S_Iter P_Run.
Import ListNotations.
Local Open Scope num_scope.
Local Open Scope run_scope.

Lemma bind_not_fuel {V A B} (m : M V A) (f : A -> M V B) :
  snd (bind m f) <> Fuel -> snd m <> Fuel.
Proof. unfold bind. destruct m as [tr [a|e| |]]; simpl; congruence. Qed.

Lemma bind_cong {V A B} (m : M V A) (f g : A -> M V B) :
  (forall tr a, m = (tr, Ok a) -> f a = g a) -> bind m f = bind m g.
Proof. intros H. unfold bind. destruct m as [tr [a|e| |]]; auto. now rewrite (H tr a). Qed.

Lemma bind_snd_ok {V A B} (m : M V A) (f : A -> M V B) tr a :
  m = (tr, Ok a) -> snd (bind m f) = snd (f a).
Proof. intros ->. unfold bind. now destruct (f a). Qed.

Section Plain.
Context {N : Num} {S W X : Type}.
Notation V := (ev X (carrier N)).
Variable obs     : W -> X -> N -> M V W.
Variable do_step : S -> W -> X -> N -> N -> M V (S * W * X).

Lemma const_for_each t0 tend dt : forall fuel k s w x t calls,
  snd (ic_loop obs do_step fuel t0 tend dt k s w x t) <> Fuel ->
  for_each obs (const_inc do_step t0 tend dt) pi_end pi_deref (Datatypes.S fuel)
           (mkPit s x t k false) w calls =
  let* (s1, w1, x1, n) := ic_loop obs do_step fuel t0 tend dt k s w x t in
  ret (mkPit s1 x1 (match (n - k)%nat with O => t | _ => t0 + nofnat n * dt end) n true,
       w1, (calls + Datatypes.S (n - k))%nat).
Proof.
  induction fuel as [|fuel IH]; intros k s w x t calls Hf; [now cbn in Hf|].
  cbn [ic_loop] in Hf |- *.
  remember (Datatypes.S fuel) as f1. cbn [for_each pi_end pi_deref fst snd pi_x pi_t].
  unfold const_inc. cbn [pi_t pi_s pi_x pi_k pi_end].
  destruct (less_eq_with_sign (t + dt) tend dt) eqn:E.
  - rewrite bind_assoc. apply bind_cong. intros tr w1 E1.
    rewrite (bind_snd_ok _ _ _ _ E1) in Hf.
    rewrite !bind_assoc. apply bind_cong. intros tr2 [[s2 w2] x2] E2.
    rewrite (bind_snd_ok _ _ _ _ E2) in Hf.
    rewrite bind_ret_l. subst f1. rewrite (IH _ _ _ _ _ _ Hf).
    apply bind_cong. intros tr3 [[[s3 w3] x3] n] E3.
    assert (Hn : (Datatypes.S k <= n)%nat).
    { clear - E3. revert s2 w2 x2 E3. generalize (t0 + nofnat (Datatypes.S k) * dt). revert tr3 k.
      induction fuel as [|fuel IHf]; intros tr3 k c s2 w2 x2 E3; [discriminate|].
      cbn [ic_loop] in E3. destruct (less_eq_with_sign (c + dt) tend dt).
      - apply bind_ok_inv in E3 as (?&?&?&_&E3&_).
        apply bind_ok_inv in E3 as (?&[[? ?] ?]&?&_&E3&_). apply IHf in E3. lia.
      - apply bind_ok_inv in E3 as (?&?&?&_&E3&_). injection E3. intros. lia. }
    replace (n - k)%nat with (Datatypes.S (n - Datatypes.S k)) by lia.
    replace (Datatypes.S calls + Datatypes.S (n - Datatypes.S k))%nat
      with (calls + Datatypes.S (Datatypes.S (n - Datatypes.S k)))%nat by lia.
    destruct (n - Datatypes.S k)%nat eqn:En; auto. now replace n with (Datatypes.S k) by lia.
  - rewrite bind_assoc. apply bind_ext. intros w1. rewrite !bind_ret_l. subst f1.
    cbn [for_each pi_end]. rewrite Nat.sub_diag. now rewrite Nat.add_1_r.
Qed.

Theorem const_iter_eq fuel s w x t0 tend dt :
  less_with_sign tend t0 dt = false ->
  snd (integrate_const obs do_step fuel s w x t0 tend dt) <> Fuel ->
  for_each obs (const_inc do_step t0 tend dt) pi_end pi_deref (Datatypes.S fuel)
           (const_begin s x t0 tend dt) w 0 =
  let* (s1, w1, x1, n) := integrate_const obs do_step fuel s w x t0 tend dt in
  ret (mkPit s1 x1 (grid t0 dt n) n true, w1, Datatypes.S n).
Proof.
  intros H1 H2. unfold const_begin. rewrite H1. unfold integrate_const in *.
  rewrite (const_for_each t0 tend dt fuel 0 s w x t0 0 H2). apply bind_ext.
  intros [[[s1 w1] x1] n]. rewrite Nat.sub_0_r. destruct n; reflexivity.
Qed.

Lemma n_for_each t0 dt n : forall todo k s w x t calls fuel,
  (k + todo = n)%nat -> (todo < fuel)%nat ->
  for_each obs (n_inc do_step t0 dt n) pi_end pi_deref (Datatypes.S fuel) (mkPit s x t k false) w calls =
  let* (s1, w1, x1, t1) := ins_loop obs do_step t0 dt todo k s w x t in
  ret (mkPit s1 x1 t1 n true, w1, (calls + Datatypes.S todo)%nat).
Proof.
  induction todo as [|todo IH]; intros k s w x t calls fuel Hk Hf;
    (destruct fuel as [|fuel]; [lia|]);
    remember (Datatypes.S fuel) as f1; cbn [for_each pi_end pi_deref fst snd pi_x pi_t];
    unfold n_inc; cbn [pi_t pi_s pi_x pi_k pi_end ins_loop].
  - replace (k <? n)%nat with false by (symmetry; apply Nat.ltb_ge; lia).
    rewrite bind_assoc. apply bind_ext. intros w1. rewrite !bind_ret_l. subst f1.
    cbn [for_each pi_end]. rewrite Nat.add_1_r. now replace n with k by lia.
  - replace (k <? n)%nat with true by (symmetry; apply Nat.ltb_lt; lia).
    rewrite bind_assoc. apply bind_ext. intros w1.
    rewrite !bind_assoc. apply bind_ext. intros [[s2 w2] x2]. rewrite bind_ret_l. subst f1.
    rewrite IH by lia. apply bind_ext. intros [[[s3 w3] x3] t3].
    now replace (Datatypes.S calls + Datatypes.S todo)%nat with (calls + Datatypes.S (Datatypes.S todo))%nat by lia.
Qed.

Theorem n_iter_eq fuel s w x t0 dt n :
  (n < fuel)%nat ->
  for_each obs (n_inc do_step t0 dt n) pi_end pi_deref (Datatypes.S fuel) (n_begin s x t0) w 0 =
  let* (s1, w1, x1, t1) := integrate_n_steps obs do_step s w x t0 dt n in
  ret (mkPit s1 x1 t1 n true, w1, Datatypes.S n).
Proof. intros H. apply n_for_each; auto. Qed.
End Plain.

Section Ctrl.
Context {N : Num} {S W X : Type}.
Notation V := (ev X (carrier N)).
Variable try_step : S -> W -> X -> N -> N -> M V (S * W * X * N * N * bool).
Variable obs : W -> X -> N -> M V W.

(** The fail_checker lets at most [default_max_steps] attempts pass, fewer than max_attempts. *)
Lemma attempts_eq : forall fuel cnt todo s w x t dt,
  (max_attempts <= todo + cnt)%nat -> (cnt <= default_max_steps)%nat ->
  snd (try_loop try_step fuel cnt s w x t dt) <> Fuel ->
  snd (try_loop try_step fuel cnt s w x t dt) <> Exc StepAdjustment ->
  attempts try_step todo s w x t dt = try_loop try_step fuel cnt s w x t dt.
Proof.
  unfold max_attempts, default_max_steps.
  induction fuel as [|fuel IH]; intros cnt todo s w x t dt H1 H2 Hf He; [now cbn in Hf|].
  destruct todo as [|todo]; [lia|]. cbn [try_loop attempts] in *.
  apply bind_cong. intros tr [[[[[s1 w1] x1] t1] dt1] ok] E.
  rewrite (bind_snd_ok _ _ _ _ E) in Hf, He.
  destruct todo as [|todo]; [lia|].
  unfold fail_check, checker_call in *. destruct (Nat.leb default_max_steps cnt) eqn:Ec.
  - exfalso. apply He. reflexivity.
  - apply Nat.leb_gt in Ec. unfold default_max_steps in Ec. unfold fail in Hf, He |- *.
    change (@nil V, Ok (Datatypes.S cnt)) with (ret (V:=V) (Datatypes.S cnt)) in *.
    rewrite bind_ret_l in *. destruct ok; [reflexivity|]. apply IH; auto; lia.
Qed.

Lemma adaptive_for_each tend : forall fuel s w x t dt count calls,
  snd (ia_loop try_step obs fuel tend s w x t dt count) <> Fuel ->
  snd (ia_loop try_step obs fuel tend s w x t dt count) <> Exc StepAdjustment ->
  for_each obs (adaptive_inc try_step tend) ai_end ai_deref (Datatypes.S fuel)
           (mkAit s x t dt false) w (calls + count) =
  let* (s1, w1, x1, t1, dt1, n) := ia_loop try_step obs fuel tend s w x t dt count in
  ret (mkAit s1 x1 t1 dt1 true, w1, (calls + Datatypes.S n)%nat).
Proof.
  induction fuel as [|fuel IH]; intros s w x t dt count calls Hf He; [now cbn in Hf|].
  cbn [ia_loop] in Hf, He |- *.
  remember (Datatypes.S fuel) as f1. cbn [for_each ai_end ai_deref fst snd ai_x ai_t].
  unfold adaptive_inc. cbn [ai_t ai_s ai_x ai_dt ai_end].
  destruct (less_with_sign t tend dt) eqn:E.
  - rewrite bind_assoc. apply bind_cong. intros tr w1 E1.
    rewrite (bind_snd_ok _ _ _ _ E1) in Hf, He. cbv zeta in Hf, He |- *.
    set (dt1 := if less_with_sign tend (t + dt) dt then tend - t else dt) in *.
    assert (Ha : attempts try_step max_attempts s w1 x t dt1 =
                 try_loop try_step (2 + default_max_steps) 0 s w1 x t dt1).
    { apply attempts_eq.
      - rewrite Nat.add_0_r. apply le_n.
      - apply Nat.le_0_l.
      - exact (bind_not_fuel _ _ Hf).
      - intros Hc. apply He. unfold bind.
        destruct (try_loop try_step (2 + default_max_steps) 0 s w1 x t dt1) as [tr2 r].
        cbn [snd] in Hc. now rewrite Hc. }
    rewrite Ha, !bind_assoc. apply bind_cong. intros tr2 [[[[s2 w2] x2] t2] dt2] E2.
    rewrite (bind_snd_ok _ _ _ _ E2) in Hf, He.
    rewrite bind_ret_l. subst f1. rewrite <- Nat.add_succ_r. apply IH; auto.
  - rewrite bind_assoc. apply bind_ext. intros w1. rewrite !bind_ret_l. subst f1.
    cbn [for_each ai_end]. now rewrite Nat.add_succ_r.
Qed.

Theorem adaptive_iter_eq fuel s w x t0 tend dt :
  less_with_sign tend t0 dt = false ->
  snd (integrate_adaptive_ctrl try_step obs fuel s w x t0 tend dt) <> Fuel ->
  snd (integrate_adaptive_ctrl try_step obs fuel s w x t0 tend dt) <> Exc StepAdjustment ->
  for_each obs (adaptive_inc try_step tend) ai_end ai_deref (Datatypes.S fuel)
           (adaptive_begin s x t0 tend dt) w 0 =
  let* (s1, w1, x1, t1, dt1, n) := integrate_adaptive_ctrl try_step obs fuel s w x t0 tend dt in
  ret (mkAit s1 x1 t1 dt1 true, w1, Datatypes.S n).
Proof.
  intros H1 H2 H3. unfold adaptive_begin. rewrite H1.
  exact (adaptive_for_each tend fuel s w x t0 dt 0 0 H2 H3).
Qed.
End Ctrl.

(** Attempts of a non-throwing controlled stepper. *)
Section Attempts.
Context {N : Num} {S W X : Type}.
Variable f : S -> X -> N -> N -> S * X * N * N * bool.

Lemma attempts_overflow : forall todo s (w : W) x t dt tr,
  attempts (ctrl_step f) todo s w x t dt = (tr, Exc Overflow) ->
  exists x1 t1 dt1 ok, exists pre,
    tries_of tr = pre ++ [(x1, t1, dt1, ok)] /\
    length pre = pred todo /\ Forall (fun a => snd a = false) pre.
Proof.
  induction todo as [|todo IH]; intros s w x t dt tr H; [discriminate|].
  cbn [attempts] in H. unfold ctrl_step at 1 in H.
  destruct (f s x t dt) as [[[[s1 x1] t1] dt1] ok] eqn:E. unfold bind at 1 in H.
  destruct todo as [|todo].
  - unfold fail in H. injection H as <-. exists x, t, dt, ok, []. cbn. auto.
  - destruct ok; [discriminate|].
    destruct (attempts (ctrl_step f) (Datatypes.S todo) s1 w x1 t1 dt1) as [tr2 r] eqn:E2.
    injection H as <- ->. apply IH in E2 as (a & b & c & o & pre & H1 & H2 & H3).
    exists a, b, c, o, ((x, t, dt, false) :: pre). cbn [app tries_of flat_map].
    fold (@tries_of X N). split; [|split].
    + cbn. unfold tries_of in H1. now rewrite H1.
    + cbn [length pred] in *. now rewrite H2.
    + constructor; auto.
Qed.

(** A success before the last attempt is used. *)
Lemma attempts_ok : forall todo s (w : W) x t dt tr r,
  attempts (ctrl_step f) todo s w x t dt = (tr, Ok r) ->
  exists x1 t1 dt1, exists pre,
    tries_of tr = pre ++ [(x1, t1, dt1, true)] /\
    (length pre < pred todo)%nat /\ Forall (fun a => snd a = false) pre.
Proof.
  induction todo as [|todo IH]; intros s w x t dt tr r H; [discriminate|].
  cbn [attempts] in H. unfold ctrl_step at 1 in H.
  destruct (f s x t dt) as [[[[s1 x1] t1] dt1] ok] eqn:E. unfold bind at 1 in H.
  destruct todo as [|todo]; [discriminate|].
  destruct ok.
  - unfold ret in H. injection H as <- _. exists x, t, dt, []. cbn. repeat split; auto. lia.
  - destruct (attempts (ctrl_step f) (Datatypes.S todo) s1 w x1 t1 dt1) as [tr2 r2] eqn:E2.
    injection H as <- ->. apply IH in E2 as (a & b & c & pre & H1 & H2 & H3).
    exists a, b, c, ((x, t, dt, false) :: pre). split; [|split].
    + cbn. unfold tries_of in H1. now rewrite H1.
    + cbn [length pred] in *. lia.
    + constructor; auto.
Qed.
End Attempts.

(** observer_collection. *)
Section Coll.
Context {X T W : Type}.
(** A member that reports its index and the arguments and may change the world. *)
Lemma collection_calls (upd : nat -> W -> X -> T -> W) : forall (ids : list nat) w x t,
  collection_obs (map (fun i w x t => ([(i, x, t)], Ok (upd i w x t))) ids) w x t =
  (map (fun i => (i, x, t)) ids, Ok (fold_left (fun w i => upd i w x t) ids w)).
Proof.
  induction ids as [|i ids IH]; intros w x t; cbn [map collection_obs fold_left]; [reflexivity|].
  unfold bind. now rewrite IH.
Qed.
End Coll.

(** Members that append what they see to their own log. *)
Section Logs.
Context {N : Num} {S X : Type}.
Notation V := (ev X (carrier N)).
Notation logs := (list (list (X * carrier N))).

Lemma log_at_app i (a b : logs) p : length a = i -> log_at i (a ++ b) p = a ++ log_at 0 b p.
Proof.
  intros <-. unfold log_at. rewrite firstn_app, Nat.sub_diag, firstn_all, skipn_app, skipn_all, Nat.sub_diag.
  cbn [firstn skipn app]. now rewrite app_nil_r.
Qed.

Lemma collection_logs_from x t : forall (b a : logs),
  collection_obs (map (fun i l x t => ([] : list V, Ok (log_at i l (x, t)))) (seq (length a) (length b))) (a ++ b) x t =
  ([], Ok (a ++ map (fun l => l ++ [(x, t)]) b)).
Proof.
  induction b as [|h b IH]; intros a; cbn [length seq map collection_obs]; [reflexivity|].
  unfold bind. rewrite log_at_app by reflexivity. cbn [log_at firstn skipn app].
  specialize (IH (a ++ [h ++ [(x, t)]])). rewrite app_length, Nat.add_1_r, <- !app_assoc in IH.
  cbn [app] in IH. now rewrite IH.
Qed.

Lemma collection_logs (l : logs) x t :
  collection_obs (log_members (length l)) l x t = ([], Ok (map (fun h => h ++ [(x, t)]) l)).
Proof. exact (collection_logs_from x t l []). Qed.

Lemma exec_logs (f : S -> X -> N -> N -> S * X) : forall cs s (l : logs) x k, length l = k ->
  exists tr1 tr2 s1 x1,
    exec rec_obs (plain_step f) cs s tt x = (tr1, Ok (s1, tt, x1)) /\
    exec (collection_obs (log_members k)) (plain_step f) cs s l x
      = (tr2, Ok (s1, map (fun h => h ++ obs_of tr1) l, x1)) /\
    steps_of tr2 = steps_of tr1.
Proof.
  induction cs as [|[t|t dt] cs IH]; intros s l x k Hk; cbn [exec].
  - exists [], [], s, x. repeat split.
    replace (map (fun h => h ++ obs_of []) l) with l; [reflexivity|].
    rewrite <- (map_id l) at 1. apply map_ext. intros h. symmetry. apply app_nil_r.
  - subst k. rewrite collection_logs.
    destruct (IH s (map (fun h => h ++ [(x, t)]) l) x (length l)) as (tr1 & tr2 & s1 & x1 & E1 & E2 & E3);
      [apply map_length|].
    exists (EObs x t :: tr1), tr2, s1, x1. unfold rec_obs at 1, bind. rewrite E1, E2. repeat split; auto.
    rewrite map_map. f_equal. f_equal. f_equal. f_equal. apply map_ext. intros h. now rewrite <- app_assoc.
  - unfold plain_step at 1 3. destruct (f s x t dt) as [s2 x2].
    destruct (IH s2 l x2 k Hk) as (tr1 & tr2 & s1 & x1 & E1 & E2 & E3).
    exists (EStep x t dt :: tr1), (EStep x t dt :: tr2), s1, x1. unfold bind. rewrite E1, E2.
    repeat split. cbn. unfold steps_of in E3. now rewrite E3.
Qed.
End Logs.

From Verif Require Import P_Plain.
Section LogRuns.
Context {N : Num} {S X : Type}.
Variable f : S -> X -> N -> N -> S * X.

Lemma n_steps_logs k s (logs : list (list (X * carrier N))) x t0 dt n : length logs = k ->
  exists tr1 tr2 s1 x1 t1,
    integrate_n_steps rec_obs (plain_step f) s tt x t0 dt n = (tr1, Ok (s1, tt, x1, t1)) /\
    integrate_n_steps (collection_obs (log_members k)) (plain_step f) s logs x t0 dt n
      = (tr2, Ok (s1, map (fun h => h ++ obs_of tr1) logs, x1, t1)).
Proof.
  intros Hk. destruct (exec_logs f (grid_schedule t0 dt n) s logs x k Hk) as (tr1 & tr2 & s1 & x1 & E1 & E2 & _).
  exists tr1, tr2, s1, x1, (grid t0 dt n). rewrite !integrate_n_steps_exec, E1, E2.
  unfold bind, ret. rewrite !app_nil_r. auto.
Qed.

Lemma const_logs k fuel s (logs : list (list (X * carrier N))) x t0 tend dt tr1 s1 x1 n : length logs = k ->
  integrate_const rec_obs (plain_step f) fuel s tt x t0 tend dt = (tr1, Ok (s1, tt, x1, n)) ->
  exists tr2,
    integrate_const (collection_obs (log_members k)) (plain_step f) fuel s logs x t0 tend dt
      = (tr2, Ok (s1, map (fun h => h ++ obs_of tr1) logs, x1, n)).
Proof.
  intros Hk H. destruct (integrate_const_ok_inv _ _ _ _ _ _ _ _ _ _ _ _ H) as [Hn Hf].
  rewrite (integrate_const_exec _ _ _ _ _ _ _ _ _ _ Hn Hf) in H.
  destruct (exec_logs f (grid_schedule t0 dt n) s logs x k Hk) as (tr & tr2 & s2 & x2 & E1 & E2 & _).
  rewrite E1 in H. unfold bind, ret in H. rewrite app_nil_r in H. injection H as -> -> ->.
  exists tr2. rewrite (integrate_const_exec _ _ _ _ _ _ _ _ _ _ Hn Hf), E2.
  unfold bind, ret. now rewrite app_nil_r.
Qed.
End LogRuns.

(** Iterator-based integrate functions. *)
Section IterIntegrate.
Context {N : Num} {S W X : Type}.
Notation V := (ev X (carrier N)).
Variable obs : W -> X -> N -> M V W.

Lemma size_t_pred_S n : (Z.of_nat n < 2 ^ 64)%Z -> size_t_pred (Datatypes.S n) = Z.of_nat n.
Proof.
  intros H. unfold size_t_pred. rewrite Nat2Z.inj_succ. unfold Z.succ. rewrite Z.add_simpl_r.
  apply Z.mod_small. lia.
Qed.

Lemma iter_const_eq (do_step : S -> W -> X -> N -> N -> M V (S * W * X)) fuel s w x t0 tend dt :
  (Z.of_nat fuel < 2 ^ 64)%Z ->
  less_with_sign tend t0 dt = false ->
  snd (integrate_const obs do_step fuel s w x t0 tend dt) <> Fuel ->
  iter_integrate_const obs do_step (Datatypes.S fuel) s w x t0 tend dt =
  (let* (_, w1, x1, n) := integrate_const obs do_step fuel s w x t0 tend dt in ret (w1, x1, Z.of_nat n)).
Proof.
  intros Hz H1 H2. unfold iter_integrate_const. rewrite (const_iter_eq _ _ _ _ _ _ _ _ _ H1 H2), bind_assoc.
  apply bind_cong. intros tr [[[s1 w1] x1] n] E. rewrite bind_ret_l. cbn [pi_x].
  apply integrate_const_ok_inv in E as [_ E]. rewrite size_t_pred_S by lia. reflexivity.
Qed.

Lemma ia_count (try_step : S -> W -> X -> N -> N -> M V (S * W * X * N * N * bool)) tend :
  forall fuel s w x t dt c tr r n,
  ia_loop try_step obs fuel tend s w x t dt c = (tr, Ok (r, n)) -> (n < fuel + c)%nat.
Proof.
  induction fuel as [|fuel IH]; intros s w x t dt c tr r n H; [discriminate|].
  cbn [ia_loop] in H. destruct (less_with_sign t tend dt).
  - apply bind_ok_inv in H as (?&?&?&_&H&_).
    apply bind_ok_inv in H as (?&[[[[? ?] ?] ?] ?]&?&_&H&_). apply IH in H. lia.
  - apply bind_ok_inv in H as (?&?&?&_&H&_). injection H. intros. lia.
Qed.

Lemma iter_adaptive_eq (try_step : S -> W -> X -> N -> N -> M V (S * W * X * N * N * bool)) fuel s w x t0 tend dt :
  (Z.of_nat fuel < 2 ^ 64)%Z ->
  less_with_sign tend t0 dt = false ->
  snd (integrate_adaptive_ctrl try_step obs fuel s w x t0 tend dt) <> Fuel ->
  snd (integrate_adaptive_ctrl try_step obs fuel s w x t0 tend dt) <> Exc StepAdjustment ->
  iter_integrate_adaptive_ctrl obs try_step (Datatypes.S fuel) s w x t0 tend dt =
  (let* (_, w1, x1, _, _, n) := integrate_adaptive_ctrl try_step obs fuel s w x t0 tend dt in
   ret (w1, x1, Z.of_nat n)).
Proof.
  intros Hz H1 H2 H3. unfold iter_integrate_adaptive_ctrl.
  rewrite (adaptive_iter_eq _ _ _ _ _ _ _ _ _ H1 H2 H3), bind_assoc.
  apply bind_cong. intros tr [[[[[s1 w1] x1] t1] dt1] n] E. rewrite bind_ret_l. cbn [ai_x].
  apply ia_count in E. rewrite size_t_pred_S by lia. reflexivity.
Qed.
End IterIntegrate.

(** Invariants of steppers are invariants of all integrate functions. *)
From Coq Require Import List Arith Bool.
From Verif Require Import M_Num M_Sign M_Run M_Checker M_Plain M_Controlled M_Dense S_Inv P_Run.
Import ListNotations.
Local Open Scope num_scope.
Local Open Scope run_scope.

Lemma inv_bind {V A B} (E : V -> Prop) (P : A -> Prop) (Q : B -> Prop) m f :
  run_inv E P m -> (forall a, P a -> run_inv E Q (f a)) -> run_inv E Q (bind m f).
Proof.
  intros [H1 H2] Hf. destruct m as [tr [a|e| |]]; unfold bind; simpl in *.
  - destruct (Hf a (H2 a eq_refl)) as [G1 G2]. destruct (f a) as [tr' r]; simpl in *.
    split; simpl; [now apply Forall_app|exact G2].
  - split; simpl; [auto|discriminate].
  - split; simpl; [auto|discriminate].
  - split; simpl; [auto|discriminate].
Qed.
Lemma inv_ret {V A} (E : V -> Prop) (P : A -> Prop) a : P a -> run_inv E P (ret a).
Proof. intro H. split; simpl; [constructor|]. intros b Hb. inversion Hb; now subst. Qed.
Lemma inv_fail {V A} (E : V -> Prop) (P : A -> Prop) r :
  (forall a, r = Ok a -> P a) -> run_inv E P (fail r).
Proof. intro H. split; simpl; [constructor|auto]. Qed.
Lemma inv_fail_any {V A} (E : V -> Prop) (r : res A) : run_inv E (fun _ => True) (fail r).
Proof. apply inv_fail; auto. Qed.

Section Inv.
Context {N : Num} {S W X : Type}.
Notation V := (ev X (carrier N)).
Variables (PS : S -> Prop) (PX : X -> Prop).
Variable obs : W -> X -> N -> M V W.
Hypothesis Hobs : obs_shows PX obs.
Notation E := (obs_inv PX).

Section P.
Variable do_step : S -> W -> X -> N -> N -> M V (S * W * X).
Hypothesis Hstep : step_keeps PS PX do_step.

Lemma ins_inv : forall todo t0 dt step s w x time, PS s -> PX x ->
  run_inv E (fun '(s', _, x', _) => PS s' /\ PX x') (ins_loop obs do_step t0 dt todo step s w x time).
Proof.
  induction todo as [|todo IH]; intros t0 dt step s w x time Hs Hx; simpl.
  - eapply inv_bind; [now apply Hobs|]. intros w1 _. apply inv_ret. auto.
  - eapply inv_bind; [now apply Hobs|]. intros w1 _.
    eapply inv_bind; [now apply Hstep|]. intros [[s2 w2] x2] [Hs2 Hx2]. now apply IH.
Qed.
Theorem integrate_n_steps_inv : forall s w x t0 dt n, PS s -> PX x ->
  run_inv E (fun '(s', _, x', _) => PS s' /\ PX x') (integrate_n_steps obs do_step s w x t0 dt n).
Proof. intros. now apply ins_inv. Qed.

Lemma ic_inv : forall fuel t0 tend dt step s w x time, PS s -> PX x ->
  run_inv E (fun '(s', _, x', _) => PS s' /\ PX x') (ic_loop obs do_step fuel t0 tend dt step s w x time).
Proof.
  induction fuel as [|fuel IH]; intros t0 tend dt step s w x time Hs Hx; simpl.
  - apply inv_fail. discriminate.
  - destruct (less_eq_with_sign _ _ _).
    + eapply inv_bind; [now apply Hobs|]. intros w1 _.
      eapply inv_bind; [now apply Hstep|]. intros [[s2 w2] x2] [Hs2 Hx2]. now apply IH.
    + eapply inv_bind; [now apply Hobs|]. intros w1 _. apply inv_ret. auto.
Qed.
Theorem integrate_const_inv : forall fuel s w x t0 tend dt, PS s -> PX x ->
  run_inv E (fun '(s', _, x', _) => PS s' /\ PX x') (integrate_const obs do_step fuel s w x t0 tend dt).
Proof. intros. now apply ic_inv. Qed.

Theorem integrate_adaptive_plain_inv : forall fuel s w x t0 tend dt, PS s -> PX x ->
  run_inv E (fun '(s', _, x', _) => PS s' /\ PX x')
    (integrate_adaptive_plain obs do_step fuel s w x t0 tend dt).
Proof.
  intros fuel s w x t0 tend dt Hs Hx. unfold integrate_adaptive_plain.
  eapply inv_bind; [now apply integrate_const_inv|].
  intros [[[s1 w1] x1] n] [Hs1 Hx1]. cbv zeta.
  destruct (less_with_sign _ _ _).
  - eapply inv_bind; [now apply Hstep|]. intros [[s2 w2] x2] [Hs2 Hx2].
    eapply inv_bind; [now apply Hobs|]. intros w3 _. apply inv_ret. auto.
  - apply inv_ret. auto.
Qed.

Lemma it_inner_inv : forall fuel dt target s w x cur cdt steps, PS s -> PX x ->
  run_inv E (fun '(s', _, x', _, _) => PS s' /\ PX x')
    (it_inner do_step fuel dt target s w x cur cdt steps).
Proof.
  induction fuel as [|fuel IH]; intros dt target s w x cur cdt steps Hs Hx; simpl.
  - apply inv_fail. discriminate.
  - destruct (less_with_sign _ _ _).
    + cbv zeta. eapply inv_bind; [now apply Hstep|]. intros [[s2 w2] x2] [Hs2 Hx2]. now apply IH.
    + apply inv_ret. auto.
Qed.
Lemma it_outer_inv : forall times fuel dt s w x cdt steps, PS s -> PX x ->
  run_inv E (fun '(s', _, x', _) => PS s' /\ PX x')
    (it_outer obs do_step fuel dt times s w x cdt steps).
Proof.
  induction times as [|t times IH]; intros fuel dt s w x cdt steps Hs Hx; simpl.
  - apply inv_fail. discriminate.
  - eapply inv_bind; [now apply Hobs|]. intros w1 _. destruct times as [|target times].
    + apply inv_ret. auto.
    + eapply inv_bind; [now apply it_inner_inv|].
      intros [[[[s2 w2] x2] c2] n2] [Hs2 Hx2]. now apply IH.
Qed.
Theorem integrate_times_plain_inv : forall fuel s w x times dt, PS s -> PX x ->
  run_inv E (fun '(s', _, x', _) => PS s' /\ PX x')
    (integrate_times_plain obs do_step fuel s w x times dt).
Proof. intros. now apply it_outer_inv. Qed.
End P.

Section C.
Variable try_step : S -> W -> X -> N -> N -> M V (S * W * X * N * N * bool).
Hypothesis Htry : try_keeps PS PX try_step.

Lemma try_loop_inv : forall fuel cnt s w x t dt, PS s -> PX x ->
  run_inv E (fun '(s', _, x', _, _) => PS s' /\ PX x') (try_loop try_step fuel cnt s w x t dt).
Proof.
  induction fuel as [|fuel IH]; intros cnt s w x t dt Hs Hx; simpl.
  - apply inv_fail. discriminate.
  - eapply inv_bind; [now apply Htry|].
    intros [[[[[s1 w1] x1] t1] dt1] ok] [Hs1 Hx1].
    eapply inv_bind; [apply inv_fail_any|]. intros cnt1 _.
    destruct ok; [apply inv_ret; auto|now apply IH].
Qed.

Section Obs2.
Variable obs2 : W -> X -> N -> M V W.
Hypothesis Hobs2 : obs_shows PX obs2.
Lemma ia_inv : forall fuel tend s w x t dt count, PS s -> PX x ->
  run_inv E (fun '(s', _, x', _, _, _) => PS s' /\ PX x')
    (ia_loop try_step obs2 fuel tend s w x t dt count).
Proof.
  induction fuel as [|fuel IH]; intros tend s w x t dt count Hs Hx; cbn [ia_loop].
  - apply inv_fail. discriminate.
  - destruct (less_with_sign _ _ _).
    + eapply inv_bind; [now apply Hobs2|]. intros w1 _. cbv zeta.
      eapply inv_bind; [now apply try_loop_inv|].
      intros [[[[s2 w2] x2] t2] dt2] [Hs2 Hx2]. now apply IH.
    + eapply inv_bind; [now apply Hobs2|]. intros w1 _. apply inv_ret. auto.
Qed.
Theorem integrate_adaptive_ctrl_inv : forall fuel s w x t0 tend dt, PS s -> PX x ->
  run_inv E (fun '(s', _, x', _, _, _) => PS s' /\ PX x')
    (integrate_adaptive_ctrl try_step obs2 fuel s w x t0 tend dt).
Proof. intros. now apply ia_inv. Qed.
End Obs2.

Lemma null_shows : obs_shows (W := W) PX (@null_obs N X W).
Proof. intros w x t Hx. split; [constructor|auto]. Qed.

Lemma icc_inv : forall fuel t0 tend ts step real s w x time dt, PS s -> PX x ->
  run_inv E (fun '(_, x', _) => PX x')
    (icc_loop try_step obs fuel t0 tend ts step real s w x time dt).
Proof.
  induction fuel as [|fuel IH]; intros t0 tend ts step real s w x time dt Hs Hx; cbn [icc_loop].
  - apply inv_fail. discriminate.
  - destruct (less_eq_with_sign _ _ _).
    + eapply inv_bind; [now apply Hobs|]. intros w1 _.
      eapply inv_bind; [apply integrate_adaptive_ctrl_inv; auto using null_shows|].
      intros [[[[[s2 w2] x2] t2] dt2] k] [Hs2 Hx2]. now apply IH.
    + eapply inv_bind; [now apply Hobs|]. intros w1 _. apply inv_ret. auto.
Qed.
Theorem integrate_const_ctrl_inv : forall fuel s w x t0 tend dt, PS s -> PX x ->
  run_inv E (fun '(_, x', _) => PX x') (integrate_const_ctrl try_step obs fuel s w x t0 tend dt).
Proof. intros. now apply icc_inv. Qed.

Lemma insc_inv : forall todo fuel t0 ts step s w x time dt, PS s -> PX x ->
  run_inv E (fun '(_, x', _) => PX x')
    (insc_loop try_step obs fuel t0 ts todo step s w x time dt).
Proof.
  induction todo as [|todo IH]; intros fuel t0 ts step s w x time dt Hs Hx; cbn [insc_loop].
  - eapply inv_bind; [now apply Hobs|]. intros w1 _. apply inv_ret. auto.
  - eapply inv_bind; [now apply Hobs|]. intros w1 _.
    eapply inv_bind; [apply integrate_adaptive_ctrl_inv; auto using null_shows|].
    intros [[[[[s2 w2] x2] t2] dt2] k] [Hs2 Hx2]. now apply IH.
Qed.
Theorem integrate_n_steps_ctrl_inv : forall fuel s w x t0 dt n, PS s -> PX x ->
  run_inv E (fun '(_, x', _) => PX x') (integrate_n_steps_ctrl try_step obs fuel s w x t0 dt n).
Proof. intros. now apply insc_inv. Qed.

Lemma itc_inner_inv : forall fuel target cnt s w x cur dt steps, PS s -> PX x ->
  run_inv E (fun '(s', _, x', _, _, _) => PS s' /\ PX x')
    (itc_inner try_step fuel target cnt s w x cur dt steps).
Proof.
  induction fuel as [|fuel IH]; intros target cnt s w x cur dt steps Hs Hx; cbn [itc_inner].
  - apply inv_fail. discriminate.
  - destruct (less_with_sign _ _ _).
    + cbv zeta. eapply inv_bind; [now apply Htry|].
      intros [[[[[s1 w1] x1] t1] dt1] ok] [Hs1 Hx1]. destruct ok.
      * now apply IH.
      * eapply inv_bind; [apply inv_fail_any|]. intros cnt1 _. now apply IH.
    + apply inv_ret. auto.
Qed.
Lemma itc_outer_inv : forall times fuel cnt s w x dt steps, PS s -> PX x ->
  run_inv E (fun '(s', _, x', _) => PS s' /\ PX x')
    (itc_outer try_step obs fuel times cnt s w x dt steps).
Proof.
  induction times as [|t times IH]; intros fuel cnt s w x dt steps Hs Hx; cbn [itc_outer].
  - apply inv_fail. discriminate.
  - eapply inv_bind; [now apply Hobs|]. intros w1 _. destruct times as [|target times].
    + apply inv_ret. auto.
    + eapply inv_bind; [now apply itc_inner_inv|].
      intros [[[[[s2 w2] x2] d2] c2] n2] [Hs2 Hx2]. now apply IH.
Qed.
Theorem integrate_times_ctrl_inv : forall fuel s w x times dt, PS s -> PX x ->
  run_inv E (fun '(s', _, x', _) => PS s' /\ PX x')
    (integrate_times_ctrl try_step obs fuel s w x times dt).
Proof. intros. now apply itc_outer_inv. Qed.
End C.

Section Dn.
Variable D : DenseOps N S W X.
Hypothesis HD : dense_keeps PS PX D.

Let Hinit := proj1 HD.
Let Hdo := proj1 (proj2 HD).
Let Hcalc := proj1 (proj2 (proj2 HD)).
Let Hx := proj2 (proj2 (proj2 HD)).

Lemma call_init_inv : forall s x t dt, PS s -> PX x -> run_inv E PS (call_init D s x t dt).
Proof.
  intros. split; simpl; [repeat constructor|]. intros a Ha. inversion Ha. now apply Hinit.
Qed.
Lemma call_calc_inv : forall s t, PS s -> run_inv E PX (call_calc D s t).
Proof.
  intros. split; simpl; [repeat constructor|]. intros a Ha. inversion Ha. now apply Hcalc.
Qed.
Lemma reinit_inv : forall s tend, PS s -> run_inv E PS (reinit_to D s tend).
Proof. intros. apply call_init_inv; auto. Qed.

Lemma iad_inner_inv : forall fuel tend s w count, PS s ->
  run_inv E (fun '(s', _, _) => PS s') (iad_inner D obs fuel tend s w count).
Proof.
  induction fuel as [|fuel IH]; intros tend s w count Hs; cbn [iad_inner].
  - apply inv_fail. discriminate.
  - destruct (less_eq_with_sign _ _ _).
    + eapply inv_bind; [apply Hobs; auto|]. intros w1 _.
      eapply inv_bind; [now apply Hdo|]. intros [s2 w2] Hs2. now apply IH.
    + now apply inv_ret.
Qed.
Lemma iad_outer_inv : forall fuel tend s w count, PS s ->
  run_inv E (fun '(s', _, _) => PS s') (iad_outer D obs fuel tend s w count).
Proof.
  induction fuel as [|fuel IH]; intros tend s w count Hs; cbn [iad_outer].
  - apply inv_fail. discriminate.
  - destruct (less_with_sign _ _ _).
    + eapply inv_bind; [now apply iad_inner_inv|]. intros [[s1 w1] c1] Hs1.
      eapply inv_bind; [now apply reinit_inv|]. intros s2 Hs2. now apply IH.
    + now apply inv_ret.
Qed.
Theorem integrate_adaptive_dense_inv : forall fuel s w x t0 tend dt, PS s -> PX x ->
  run_inv E (fun '(s', _, x', _) => PS s' /\ PX x')
    (integrate_adaptive_dense D obs fuel s w x t0 tend dt).
Proof.
  intros fuel s w x t0 tend dt Hs Hpx. unfold integrate_adaptive_dense.
  eapply inv_bind; [now apply call_init_inv|]. intros s1 Hs1.
  eapply inv_bind; [now apply iad_outer_inv|]. intros [[s2 w2] c2] Hs2.
  eapply inv_bind; [apply Hobs; auto|]. intros w3 _. apply inv_ret. auto.
Qed.

Lemma icd_obs_inv : forall fuel t0 dt s w x time k, PS s -> PX x ->
  run_inv E (fun '(_, x', _, _) => PX x') (icd_obs D obs fuel t0 dt s w x time k).
Proof.
  induction fuel as [|fuel IH]; intros t0 dt s w x time k Hs Hpx; cbn [icd_obs].
  - apply inv_fail. discriminate.
  - destruct (less_eq_with_sign _ _ _).
    + eapply inv_bind; [now apply call_calc_inv|]. intros x1 Hx1.
      eapply inv_bind; [apply Hobs; auto|]. intros w1 _. now apply IH.
    + now apply inv_ret.
Qed.
Lemma icd_steps_inv : forall fuel dt time s w real, PS s ->
  run_inv E (fun '(s', _, _) => PS s') (icd_steps D fuel dt time s w real).
Proof.
  induction fuel as [|fuel IH]; intros dt time s w real Hs; cbn [icd_steps].
  - apply inv_fail. discriminate.
  - destruct (less_eq_with_sign _ _ _).
    + eapply inv_bind; [now apply Hdo|]. intros [s1 w1] Hs1. now apply IH.
    + now apply inv_ret.
Qed.
Lemma icd_loop_inv : forall fuel t0 tend dt s w x time k real, PS s -> PX x ->
  run_inv E (fun '(s', _, x', _) => PS s' /\ PX x')
    (icd_loop D obs fuel t0 tend dt s w x time k real).
Proof.
  induction fuel as [|fuel IH]; intros t0 tend dt s w x time k real Hs Hpx; cbn [icd_loop].
  - apply inv_fail. discriminate.
  - destruct (less_eq_with_sign (_ + _) _ _).
    + eapply inv_bind; [now apply icd_obs_inv|]. intros [[[w1 x1] time1] k1] Hx1.
      eapply (inv_bind _ (fun '(s', _, _) => PS s')).
      * destruct (less_with_sign _ _ _); [now apply icd_steps_inv|].
        destruct (less_with_sign _ _ _).
        -- eapply inv_bind; [now apply reinit_inv|]. intros s' Hs'.
           eapply inv_bind; [now apply Hdo|]. intros [s'' w''] Hs''. now apply inv_ret.
        -- now apply inv_ret.
      * intros [[s2 w2] r2] Hs2. now apply IH.
    + destruct (less_eq_with_sign _ _ _).
      * eapply inv_bind; [now apply call_calc_inv|]. intros x1 Hx1.
        eapply inv_bind; [apply Hobs; auto|]. intros w1 _. apply inv_ret. auto.
      * apply inv_ret. auto.
Qed.
Theorem integrate_const_dense_inv : forall fuel s w x t0 tend dt, PS s -> PX x ->
  run_inv E (fun '(s', _, x', _) => PS s' /\ PX x')
    (integrate_const_dense D obs fuel s w x t0 tend dt).
Proof.
  intros fuel s w x t0 tend dt Hs Hpx. unfold integrate_const_dense.
  eapply inv_bind; [now apply call_init_inv|]. intros s1 Hs1.
  eapply inv_bind; [apply Hobs; auto|]. intros w1 _. now apply icd_loop_inv.
Qed.

Lemma insd_obs_inv : forall fuel t0 dt s w x time k, PS s -> PX x ->
  run_inv E (fun '(_, x', _, _) => PX x') (insd_obs D obs fuel t0 dt s w x time k).
Proof.
  induction fuel as [|fuel IH]; intros t0 dt s w x time k Hs Hpx; cbn [insd_obs].
  - apply inv_fail. discriminate.
  - destruct (less_with_sign _ _ _).
    + eapply inv_bind; [now apply call_calc_inv|]. intros x1 Hx1.
      eapply inv_bind; [apply Hobs; auto|]. intros w1 _. now apply IH.
    + now apply inv_ret.
Qed.
Lemma insd_loop_inv : forall fuel t0 tend dt n s w x time step, PS s -> PX x ->
  run_inv E (fun '(s', _, x', _) => PS s' /\ PX x')
    (insd_loop D obs fuel t0 tend dt n s w x time step).
Proof.
  induction fuel as [|fuel IH]; intros t0 tend dt n s w x time step Hs Hpx; cbn [insd_loop].
  - apply inv_fail. discriminate.
  - destruct (Nat.ltb _ _).
    + eapply inv_bind; [now apply insd_obs_inv|]. intros [[[w1 x1] time1] k1] Hx1.
      eapply (inv_bind _ (fun '(s', _) => PS s')).
      * destruct (less_with_sign _ _ _); [now apply Hdo|].
        destruct (less_with_sign _ _ _).
        -- eapply inv_bind; [now apply reinit_inv|]. intros s' Hs'. now apply Hdo.
        -- now apply inv_ret.
      * intros [s2 w2] Hs2. now apply IH.
    + apply inv_ret. auto.
Qed.
Lemma insd_final_inv : forall fuel tend s w, PS s ->
  run_inv E (fun '(s', _) => PS s') (insd_final D fuel tend s w).
Proof.
  induction fuel as [|fuel IH]; intros tend s w Hs; cbn [insd_final].
  - apply inv_fail. discriminate.
  - destruct (_ <? _).
    + eapply (inv_bind _ PS).
      * destruct (less_with_sign _ _ _); [now apply reinit_inv|now apply inv_ret].
      * intros s1 Hs1. eapply inv_bind; [now apply Hdo|]. intros [s2 w2] Hs2. now apply IH.
    + now apply inv_ret.
Qed.
Theorem integrate_n_steps_dense_inv : forall fuel s w x t0 dt n, PS s -> PX x ->
  run_inv E (fun '(s', _, x', _) => PS s' /\ PX x')
    (integrate_n_steps_dense D obs fuel s w x t0 dt n).
Proof.
  intros fuel s w x t0 dt n Hs Hpx. unfold integrate_n_steps_dense. cbv zeta.
  eapply inv_bind; [now apply call_init_inv|]. intros s1 Hs1.
  eapply inv_bind; [now apply insd_loop_inv|]. intros [[[s2 w2] x2] t2] [Hs2 Hx2].
  eapply inv_bind; [now apply insd_final_inv|]. intros [s3 w3] Hs3.
  eapply inv_bind; [apply Hobs; auto|]. intros w4 _. apply inv_ret. auto.
Qed.

Lemma itd_obs_inv : forall times s w x, PS s -> PX x ->
  run_inv E (fun '(_, _, x') => PX x') (itd_obs D obs times s w x).
Proof.
  induction times as [|t times IH]; intros s w x Hs Hpx; cbn [itd_obs].
  - now apply inv_ret.
  - destruct (less_eq_with_sign _ _ _).
    + eapply inv_bind; [now apply call_calc_inv|]. intros x1 Hx1.
      eapply inv_bind; [apply Hobs; auto|]. intros w1 _. now apply IH.
    + now apply inv_ret.
Qed.
Lemma itd_loop_inv : forall fuel lst times s w x count, PS s -> PX x ->
  run_inv E (fun '(s', _, x', _) => PS s' /\ PX x') (itd_loop D obs fuel lst times s w x count).
Proof.
  induction fuel as [|fuel IH]; intros lst times s w x count Hs Hpx; cbn [itd_loop].
  - apply inv_fail. discriminate.
  - destruct times as [|t times]; [apply inv_ret; auto|].
    eapply inv_bind; [now apply itd_obs_inv|]. intros [[times1 w1] x1] Hx1.
    destruct (less_eq_with_sign _ _ _).
    + eapply inv_bind; [now apply Hdo|]. intros [s2 w2] Hs2. now apply IH.
    + destruct times1 as [|t1 times1]; [now apply IH|].
      eapply inv_bind; [now apply reinit_inv|]. intros s' Hs'.
      eapply inv_bind; [now apply Hdo|]. intros [s2 w2] Hs2. now apply IH.
Qed.
Theorem integrate_times_dense_inv : forall fuel s w x times dt, PS s -> PX x ->
  run_inv E (fun '(s', _, x', _) => PS s' /\ PX x')
    (integrate_times_dense D obs fuel s w x times dt).
Proof.
  intros fuel s w x times dt Hs Hpx. unfold integrate_times_dense.
  destruct times as [|t times]; [apply inv_ret; auto|].
  eapply inv_bind; [now apply call_init_inv|]. intros s1 Hs1.
  eapply inv_bind; [apply Hobs; auto|]. intros w1 _. now apply itd_loop_inv.
Qed.
End Dn.
End Inv.

(** The standard observers show what they are given. *)
Lemma user_obs_shows {N : Num} {W X} (PX : X -> Prop) (f : W -> X -> N -> res W) :
  obs_shows PX (user_obs f).
Proof. intros w x t Hx. split; simpl; auto. Qed.
Lemma rec_obs_shows {N : Num} {W X} (PX : X -> Prop) : obs_shows (N := N) (W := W) PX rec_obs.
Proof. intros w x t Hx. split; simpl; auto. Qed.
Lemma plain_step_keeps {N : Num} {S W X} (PS : S -> Prop) (PX : X -> Prop)
    (f : S -> X -> N -> N -> S * X) :
  (forall s x t dt, PS s -> PX x -> PS (fst (f s x t dt)) /\ PX (snd (f s x t dt))) ->
  step_keeps (W := W) PS PX (plain_step f).
Proof.
  intros H s w x t dt Hs Hx. unfold plain_step. specialize (H s x t dt Hs Hx).
  destruct (f s x t dt) as [s' x']. split; simpl; [repeat constructor|].
  intros [[a b] c] E. inversion E; subst. exact H.
Qed.

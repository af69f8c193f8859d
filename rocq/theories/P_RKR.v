(** Runge-Kutta steps over the reals: textbook formulas, equality of the classic
    and the generic steppers, linear invariants, polynomials, linear systems. *)
From Coq Require Import ZArith List Bool Lia Arith Reals Lra FunctionalExtensionality.
From Verif Require Import M_Num M_RK S_RK P_RK.
Import ListNotations.
Local Open Scope R_scope.

Section RKR.
Context {I : Type} (eps : R).
Notation NN := (RNum eps).
Notation V := (I -> R).
Variable f : V -> R -> V.

Lemma fold_left_wsum : forall (row : list R) (ks : list V) (dt s0 : R) (i : I),
  fold_left (fun s p => s + fst p * dt * snd p i) (combine row ks) s0
  = s0 + dt * wsum row ks i.
Proof.
  induction row as [|a row IH]; intros ks dt s0 i; simpl.
  - unfold wsum, rsum; simpl. ring.
  - destruct ks as [|k ks]; simpl.
    + unfold wsum, rsum; simpl. ring.
    + rewrite IH. unfold wsum, rsum; simpl. ring.
Qed.

Lemma stage_arg_R : forall (x : V) dt row ks,
  stage_arg (N := NN) x dt row ks = fun i => x i + dt * wsum row ks i.
Proof.
  intros. extensionality i. unfold stage_arg.
  etransitivity; [exact (fold_left_wsum row ks dt (1 * x i) i)|].
  cbn. ring.
Qed.

Lemma err_arg_R : forall dt row (ks : list V),
  err_arg (N := NN) dt row ks = fun i => dt * wsum row ks i.
Proof.
  intros. extensionality i. unfold err_arg.
  destruct row as [|b row]; [unfold wsum, rsum; cbn; ring|].
  destruct ks as [|k ks]; [unfold wsum, rsum; cbn; ring|].
  etransitivity; [exact (fold_left_wsum row ks dt (b * dt * k i) i)|].
  unfold wsum, rsum; cbn. ring.
Qed.

Lemma stages_R : forall (tb : tableau NN) x t dt ks,
  rk_stages tb f x (f x t) t dt ks -> rk_stages_R eps tb f x t dt ks.
Proof.
  intros tb x t dt ks [L Z S]. constructor; auto.
  intros s row c Hr Hc. etransitivity; [exact (S s row c Hr Hc)|].
  f_equal. f_equal. apply stage_arg_R.
Qed.

(** The generic programs over the reals. *)
Theorem generic_R : forall (tb : tableau NN) al t dt (m : rkmem NN I),
  wf_tableau tb ->
  rk_result eps tb f (m LIn) t dt (fst (run_step (N := NN) f al (generic_prog tb t dt) t m) (resolve al LOut)).
Proof.
  intros tb al t dt m Hwf.
  destruct (generic_is_butcher (N := NN) f tb al t dt m Hwf) as (m' & ks & E & S & O & _).
  rewrite E. exists ks. split; [now apply stages_R|].
  intro i. cbn [fst]. rewrite O. exact (f_equal (fun g => g i) (stage_arg_R _ _ _ _)).
Qed.

Theorem generic_err_R : forall (tb : tableau NN) al t dt (m : rkmem NN I),
  wf_tableau tb -> length (tab_b2 tb) = length (tab_b tb) ->
  rk_result eps tb f (m LIn) t dt (fst (run_step (N := NN) f al (generic_err_prog tb t dt) t m) (resolve al LOut))
  /\ rk_error eps tb f (m LIn) t dt (fst (run_step (N := NN) f al (generic_err_prog tb t dt) t m) LErr).
Proof.
  intros tb al t dt m Hwf H2.
  destruct (generic_err_is_butcher (N := NN) f tb al t dt m Hwf H2) as (m' & ks & E & S & O & R & _).
  rewrite E. split; exists ks; (split; [now apply stages_R|]); intro i; cbn [fst].
  - rewrite O. exact (f_equal (fun g => g i) (stage_arg_R _ _ _ _)).
  - rewrite R. exact (f_equal (fun g => g i) (err_arg_R _ _ _)).
Qed.

(** ** Programs that agree instruction by instruction. *)
Definition iequiv (al : alias) (i j : instr NN) : Prop :=
  forall m : rkmem NN I, exec1 (N := NN) f al i m = exec1 (N := NN) f al j m.

Lemma exec_equiv : forall al p q, Forall2 (iequiv al) p q ->
  forall m, exec (N := NN) f al p m = exec (N := NN) f al q m.
Proof.
  intros al p q H; induction H as [|i j p q Hij H IH]; intro m; simpl; auto.
  rewrite (Hij m). destruct (exec1 (N := NN) f al j m) as [m1 c1]. now rewrite IH.
Qed.

Lemma isum_equiv : forall al d (ts us : list (R * loc)),
  (forall m : rkmem NN I, forall j,
     scale_sum (N := NN) (map (fun p => (fst p, rd al m (snd p) j)) ts)
     = scale_sum (N := NN) (map (fun p => (fst p, rd al m (snd p) j)) us)) ->
  iequiv al (ISum (N := NN) d ts) (ISum (N := NN) d us).
Proof.
  intros al d ts us H m. unfold exec1. f_equal. f_equal. extensionality j. apply H.
Qed.

Lemma isys_equiv : forall al d s (t u : R), t = u -> iequiv al (ISys (N := NN) d s t) (ISys (N := NN) d s u).
Proof. intros al d s t u -> m. reflexivity. Qed.

Ltac instr_eq :=
  lazymatch goal with
  | |- iequiv _ (ISum _ _) (ISum _ _) =>
      apply isum_equiv; intros; cbn -[rd]; unfold nfrac; cbn -[rd]; try lra; field
  | |- iequiv _ (ISys _ _ _) (ISys _ _ _) =>
      apply isys_equiv; cbn; unfold nfrac; cbn; try lra; field
  end.

Theorem rk4_classic_generic : forall al t dt (m : rkmem NN I),
  run_step (N := NN) f al (rk4_classic_prog t dt) t m = run_step (N := NN) f al (generic_prog (N := NN) rk4_tab t dt) t m.
Proof.
  intros. apply exec_equiv. constructor; [intro; reflexivity|].
  unfold generic_prog. cbn [tab_a tab_b tab_c rk4_tab app generic_stages Nat.ltb Nat.leb Nat.sub].
  repeat (constructor; [instr_eq|]). constructor.
Qed.

Theorem ck54_classic_generic : forall al t dt (m : rkmem NN I),
  run_step (N := NN) f al (ck54_classic_err_prog t dt) t m = run_step (N := NN) f al (generic_err_prog (N := NN) ck54_tab t dt) t m.
Proof.
  intros. apply exec_equiv. constructor; [intro; reflexivity|].
  unfold generic_err_prog, generic_prog, ck54_classic_err_prog, ck54_classic_prog.
  cbn [tab_a tab_b tab_c tab_b2 ck54_tab app generic_stages Nat.ltb Nat.leb Nat.sub].
  repeat (constructor; [instr_eq|]). constructor.
Qed.

Theorem ck54_classic_generic_noerr : forall al t dt (m : rkmem NN I),
  run_step (N := NN) f al (ck54_classic_prog t dt) t m = run_step (N := NN) f al (generic_prog (N := NN) ck54_tab t dt) t m.
Proof.
  intros. apply exec_equiv. constructor; [intro; reflexivity|].
  unfold generic_prog, ck54_classic_prog.
  cbn [tab_a tab_b tab_c tab_b2 ck54_tab app generic_stages Nat.ltb Nat.leb Nat.sub].
  repeat (constructor; [instr_eq|]). constructor.
Qed.

(** ** dopri5: the six-stage part is the generic program of this tableau. *)
Definition dopri5_tab6 : tableau NN := mkTableau (N := NN)
  (removelast (tab_a dopri5_tab7)) (removelast (tab_b dopri5_tab7)) (removelast (tab_c dopri5_tab7)) [].

Lemma wf_dopri5_tab6 : wf_tableau dopri5_tab6.
Proof.
  constructor; try reflexivity.
  intros s row H. do 5 (destruct s as [|s]; [inversion H; reflexivity|]). destruct s; discriminate.
Qed.

Lemma exec_given_dxdt : forall al p t (m : rkmem NN I),
  m LDx = f (m LIn) t ->
  exec (N := NN) f al p m
  = (fst (run_step (N := NN) f al p t m), tl (snd (run_step (N := NN) f al p t m))).
Proof.
  intros al p t m H. unfold run_step, do_step_prog. cbn [exec exec1].
  assert (E : wr al m LDx (f (rd al m LIn) t) = m).
  { extensionality l. unfold wr, rd, upd; simpl. destruct (loc_eqb LDx l) eqn:E; auto.
    apply loc_eqb_eq in E; now subst. }
  rewrite E. destruct (exec (N := NN) f al p m). reflexivity.
Qed.

Lemma dopri5_generic : forall al t dt (m : rkmem NN I),
  exec (N := NN) f al (dopri5_prog t dt) m
  = exec (N := NN) f al (generic_prog (N := NN) dopri5_tab6 t dt ++ [ISys LDxOut LOut (t + dt)]) m.
Proof.
  intros. apply exec_equiv.
  unfold generic_prog, dopri5_prog, dopri5_tab6.
  cbn [tab_a tab_b tab_c tab_b2 dopri5_tab7 removelast app generic_stages Nat.ltb Nat.leb Nat.sub].
  repeat (constructor; [instr_eq|]). constructor.
Qed.

Lemma wsum_app_zero : forall row (ks r : list V) i,
  length row = length ks -> wsum (row ++ [0]) (ks ++ r) i = wsum row ks i.
Proof.
  unfold wsum. induction row as [|a row IH]; intros [|k ks] r i H; simpl in H; try lia.
  - simpl. destruct r; simpl; ring.
  - simpl. rewrite IH by lia. reflexivity.
Qed.

Lemma generic_correct_R : forall (tb : tableau NN) al t dt (m : rkmem NN I),
  wf_tableau tb ->
  exists ks : list V,
    rk_stages_R eps tb f (m LIn) t dt ks
    /\ fst (run_step (N := NN) f al (generic_prog (N := NN) tb t dt) t m) (resolve al LOut)
       = (fun i => m LIn i + dt * wsum (tab_b tb) ks i)
    /\ (forall j k, nth_error ks j = Some k ->
         fst (run_step (N := NN) f al (generic_prog (N := NN) tb t dt) t m) (ksrc j) = k).
Proof.
  intros tb al t dt m Hwf.
  destruct (generic_correct (N := NN) f tb al t dt m Hwf) as [m1 (He & Ho & Hh & Hi)].
  eexists. split; [|split].
  - apply stages_R. apply (bks_stages (N := NN) f tb (m LIn) (f (m LIn) t) t dt Hwf).
  - rewrite He. cbn [fst]. rewrite Ho. apply stage_arg_R.
  - rewrite He. cbn [fst]. exact Hh.
Qed.

Theorem dopri5_R : forall al t dt (m : rkmem NN I),
  m LDx = f (m LIn) t ->
  let m' := fst (exec (N := NN) f al (dopri5_err_prog (N := NN) al t dt) m) in
  let y := m' (resolve al LOut) in
  rk_result eps dopri5_tab7 f (m LIn) t dt y
  /\ rk_error eps dopri5_tab7 f (m LIn) t dt (m' LErr)
  /\ m' (resolve al LDxOut) = f y (t + dt).
Proof.
  intros al t dt m Hdx. cbv zeta.
  destruct (dopri5_alias (N := NN) f al t dt m) as (A & B & C & _).
  rewrite A, B, C. clear A B C al.
  set (x := m LIn) in *.
  unfold dopri5_err_prog. cbn [al_dx separate].
  rewrite exec_app, dopri5_generic, exec_app.
  rewrite (exec_given_dxdt separate (generic_prog (N := NN) dopri5_tab6 t dt) t m Hdx).
  destruct (generic_correct_R dopri5_tab6 separate t dt m wf_dopri5_tab6) as (ks & [L Z S] & Ho & Hh).
  destruct (run_step (N := NN) f separate (generic_prog (N := NN) dopri5_tab6 t dt) t m) as [m1 c1].
  cbn [fst snd] in *. cbn [resolve separate al_x] in Ho.
  cbn [exec exec1 fst snd]. unfold wr, rd. cbn [resolve separate al_x al_dx].
  set (y := m1 LOut) in *.
  set (k7 := f y (t + dt)).
  rewrite (upd_other _ LErr LOut), (upd_other _ LErr LDxOut), !upd_same, (upd_other _ LDxOut LOut) by discriminate.
  fold y.
  assert (S7 : rk_stages_R eps dopri5_tab7 f x t dt (ks ++ [k7])).
  { constructor.
    - rewrite app_length, L. reflexivity.
    - destruct ks; [discriminate|exact Z].
    - intros s row c Hr Hc.
      destruct (Nat.eq_dec s 5) as [->|Hs5].
      + inversion Hr; inversion Hc; subst row c.
        rewrite nth_error_app2 by (rewrite L; simpl; lia).
        rewrite L. simpl (6 - _)%nat. cbn [nth_error].
        f_equal. unfold k7. 
        assert (Ef : firstn 6 (ks ++ [k7]) = ks)
          by (change 6%nat with (Datatypes.S (length (tab_a dopri5_tab6))); rewrite <- L; apply firstn_prefix).
        change (f y (t + dt) = f (fun i => x i + dt * wsum (tab_b dopri5_tab6) (firstn 6 (ks ++ [k7])) i) (t + 1 * dt)).
        rewrite Ef, Rmult_1_l. f_equal. exact Ho.
      + assert (Hlt : (s < 5)%nat).
        { destruct (le_lt_dec 5 s) as [h|h]; auto. exfalso.
          assert (nth_error (tab_a (dopri5_tab7 (N := NN))) s = None)
            by (apply nth_error_None; simpl; lia). congruence. }
        rewrite nth_error_app1 by (rewrite L; simpl; lia).
        rewrite firstn_app. replace (Datatypes.S s - length ks)%nat with 0%nat by (rewrite L; simpl; lia).
        rewrite firstn_O, app_nil_r.
        apply S.
        * rewrite <- Hr. do 5 (destruct s as [|s]; [reflexivity|]). lia.
        * rewrite <- Hc. do 5 (destruct s as [|s]; [reflexivity|]). lia. }
  split; [|split].
  - exists (ks ++ [k7]). split; auto. intro i. rewrite Ho.
    assert (Hb : tab_b (dopri5_tab7 (N := NN)) = tab_b dopri5_tab6 ++ [0]) by reflexivity.
    rewrite Hb, wsum_app_zero; [reflexivity|]. rewrite L. reflexivity.
  - exists (ks ++ [k7]). split; auto. intro i.
    assert (Hk : exists k1 k2 k3 k4 k5 k6, ks = [k1;k2;k3;k4;k5;k6]).
    { clear - L. destruct ks as [|k1 [|k2 [|k3 [|k4 [|k5 [|k6 [|k8 r]]]]]]]; try discriminate.
      repeat eexists. }
    destruct Hk as (k1 & k2 & k3 & k4 & k5 & k6 & Ek). rewrite Ek in Hh |- *.
    pose proof (Hh 0%nat k1 eq_refl) as H0. pose proof (Hh 2%nat k3 eq_refl) as H2.
    pose proof (Hh 3%nat k4 eq_refl) as H3. pose proof (Hh 4%nat k5 eq_refl) as H4.
    pose proof (Hh 5%nat k6 eq_refl) as H5. simpl in H0, H2, H3, H4, H5.
    unfold dopri5_err_terms. cbn [map fst snd resolve separate al_x al_dx].
    rewrite upd_same, !upd_other by discriminate. rewrite H0, H2, H3, H4, H5.
    unfold wsum. cbn -[k7]. unfold nfrac. cbn -[k7]. fold k7. field.
  - reflexivity.
Qed.
End RKR.

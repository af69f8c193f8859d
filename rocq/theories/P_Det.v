(** The outputs of a Runge-Kutta step depend only on the state and the
    derivative passed in, not on the contents of the temporaries. *)
From Coq Require Import ZArith List Bool FunctionalExtensionality.
From Verif Require Import M_Num M_RK S_RK P_RK M_CtrlRK.
Import ListNotations.

Section Det.
Context {N : Num} {I : Type}.
Variable f : vec N I -> N -> vec N I.

Definition mem_loc (l : loc) (ls : list loc) : bool := existsb (loc_eqb l) ls.

(** Buffers whose contents are determined after the program, if every buffer
    read was determined before. *)
Fixpoint det_ok (al : alias) (ini : list loc) (p : list (instr N)) : option (list loc) :=
  match p with
  | [] => Some ini
  | i :: p' => if forallb (fun l => mem_loc (resolve al l) ini) (reads i)
               then det_ok al (resolve al (writes i) :: ini) p' else None
  end.

Lemma mem_loc_in : forall l ls, mem_loc l ls = true -> In l ls.
Proof.
  intros l ls H. apply existsb_exists in H. destruct H as (y & Hy & E).
  apply loc_eqb_eq in E. now subst.
Qed.

Lemma det_exec : forall p al ini ini' (m m0 : rkmem N I),
  det_ok al ini p = Some ini' -> (forall l, In l ini -> m l = m0 l) ->
  (forall l, In l ini' -> fst (exec f al p m) l = fst (exec f al p m0) l)
  /\ snd (exec f al p m) = snd (exec f al p m0).
Proof.
  induction p as [|i p IH]; intros al ini ini' m m0 H Hm; cbn [det_ok] in H.
  - inversion H; subst. now split.
  - destruct (forallb _ _) eqn:E; [|discriminate]. rewrite forallb_forall in E.
    assert (Hr : forall l, In l (reads i) -> rd al m l = rd al m0 l).
    { intros l Hl. apply Hm. apply mem_loc_in. now apply E. }
    assert (H1 : exists v, fst (exec1 f al i m) = upd m (resolve al (writes i)) v
                        /\ fst (exec1 f al i m0) = upd m0 (resolve al (writes i)) v
                        /\ snd (exec1 f al i m) = snd (exec1 f al i m0)).
    { destruct i as [d ts|d s t|d s]; cbn [reads writes exec1 fst snd] in *; unfold wr.
      - eexists; split; [reflexivity|]. split; [|reflexivity]. f_equal.
        extensionality j. f_equal. apply map_ext_in. intros q Hq. f_equal.
        now rewrite (Hr (snd q)) by now apply in_map.
      - rewrite (Hr s) by now left. eexists; repeat split; reflexivity.
      - rewrite (Hr s) by now left. eexists; repeat split; reflexivity. }
    destruct H1 as (v & E1 & E2 & E3). cbn [exec].
    destruct (exec1 f al i m) as [m1 c1]. destruct (exec1 f al i m0) as [m2 c2].
    cbn [fst snd] in E1, E2, E3. subst m1 m2 c2.
    destruct (IH al _ ini' (upd m (resolve al (writes i)) v) (upd m0 (resolve al (writes i)) v) H) as [A B].
    { intros l [<-|Hl]; [now rewrite !upd_same|]. unfold upd.
      destruct (loc_eqb _ l); [reflexivity|now apply Hm]. }
    destruct (exec f al p (upd m _ v)) as [m3 c3]. destruct (exec f al p (upd m0 _ v)) as [m4 c4].
    cbn [fst snd] in *. split; [exact A|now rewrite B].
Qed.

Definition args (m : rkmem N I) (x dx : vec N I) : rkmem N I := upd (upd m LIn x) LDx dx.
Lemma args_agree : forall m m0 x dx l, In l [LIn; LDx] -> args m x dx l = args m0 x dx l.
Proof.
  intros m m0 x dx l [<-|[<-|[]]]; unfold args; [|now rewrite !upd_same].
  rewrite !(upd_other _ LDx LIn) by discriminate. now rewrite !upd_same.
Qed.
Lemma args_in : forall m x dx, args m x dx LIn = x.
Proof. intros. unfold args. rewrite upd_other by discriminate. apply upd_same. Qed.
Lemma args_dx : forall m x dx, args m x dx LDx = dx.
Proof. intros. unfold args. apply upd_same. Qed.

(** Programs whose result and error estimate are determined by [in] and [dxdt]. *)
Definition det_out (al : alias) (outs : list loc) (p : list (instr N)) : bool :=
  match det_ok al [LIn; LDx] p with
  | Some ini => forallb (fun l => mem_loc (resolve al l) ini) outs
  | None => false
  end.
Lemma det_out_eq : forall p al outs (m m0 : rkmem N I) x dx,
  det_out al outs p = true ->
  forall l, In l outs -> rd al (fst (exec f al p (args m x dx))) l = rd al (fst (exec f al p (args m0 x dx))) l.
Proof.
  intros p al outs m m0 x dx H l Hl. unfold det_out in H.
  destruct (det_ok al _ p) as [ini|] eqn:E; [|discriminate].
  rewrite forallb_forall in H.
  apply (proj1 (det_exec p al _ _ _ _ E (args_agree m m0 x dx))).
  apply mem_loc_in. now apply H.
Qed.

(** The error steppers. *)
Theorem rk_estep_det : forall n (m m0 : rkmem N I) x dx t dt,
  snd (rk_estep f n m x dx t dt) = snd (rk_estep f n m0 x dx t dt)
  /\ snd (fst (rk_estep f n m x dx t dt)) = snd (fst (rk_estep f n m0 x dx t dt)).
Proof.
  intros n m m0 x dx t dt. unfold rk_estep.
  destruct (rk_err_impl n (mkAlias false false) t dt) as [p|] eqn:E; [|now split].
  fold (args m x dx). fold (args m0 x dx).
  assert (D : det_out (mkAlias false false) [LOut; LErr] p = true)
    by (destruct n; inversion E; subst p; reflexivity).
  cbn [fst snd]. split.
  - exact (det_out_eq p _ _ m m0 x dx D LErr (or_intror (or_introl eq_refl))).
  - exact (det_out_eq p _ _ m m0 x dx D LOut (or_introl eq_refl)).
Qed.

Lemma fsal_last : forall q al T ts (m : rkmem N I),
  let m' := fst (exec f al (q ++ [ISys LDxOut LOut T] ++ [ISum LErr ts]) m) in
  rd al m' LDxOut = f (rd al m' LOut) T.
Proof.
  intros q al T ts m. cbv zeta. rewrite exec_app.
  destruct (exec f al q m) as [m1 c1]. cbn [fst snd app exec exec1]. unfold rd, wr.
  destruct al as [[] []]; cbn [resolve al_x al_dx];
    rewrite ?(upd_other _ LErr LIn), ?(upd_other _ LErr LOut), ?(upd_other _ LErr LDx),
            ?(upd_other _ LErr LDxOut), !upd_same by discriminate;
    rewrite ?(upd_other _ LDx LIn), ?(upd_other _ LDx LOut), ?(upd_other _ LDxOut LIn),
            ?(upd_other _ LDxOut LOut) by discriminate; reflexivity.
Qed.
Lemma fsal_last_noerr : forall q al T (m : rkmem N I),
  let m' := fst (exec f al (q ++ [ISys LDxOut LOut T]) m) in
  rd al m' LDxOut = f (rd al m' LOut) T.
Proof.
  intros q al T m. cbv zeta. rewrite exec_app.
  destruct (exec f al q m) as [m1 c1]. cbn [fst snd app exec exec1]. unfold rd, wr.
  destruct al as [[] []]; cbn [resolve al_x al_dx]; rewrite !upd_same;
    rewrite ?(upd_other _ LDx LIn), ?(upd_other _ LDx LOut), ?(upd_other _ LDxOut LIn),
            ?(upd_other _ LDxOut LOut) by discriminate; reflexivity.
Qed.

(** dopri5, any aliasing: outputs determined by [in] and [dxdt], the returned
    derivative is the system at the new state and time. *)
Theorem dopri5_fstep_det : forall al (m m0 : rkmem N I) x dx t dt,
  snd (dopri5_fstep f al m x dx t dt) = snd (dopri5_fstep f al m0 x dx t dt)
  /\ snd (fst (dopri5_fstep f al m x dx t dt)) = snd (fst (dopri5_fstep f al m0 x dx t dt))
  /\ snd (fst (fst (dopri5_fstep f al m x dx t dt))) = snd (fst (fst (dopri5_fstep f al m0 x dx t dt))).
Proof.
  intros al m m0 x dx t dt. unfold dopri5_fstep. fold (args m x dx). fold (args m0 x dx).
  assert (D : det_out al [LErr; LDxOut; LOut] (dopri5_err_prog (N := N) al t dt) = true)
    by (destruct al as [[] []]; reflexivity).
  cbn [fst snd].
  pose proof (det_out_eq _ al _ m m0 x dx D) as H.
  exact (conj (H LErr (or_introl eq_refl))
        (conj (H LDxOut (or_intror (or_introl eq_refl)))
              (H LOut (or_intror (or_intror (or_introl eq_refl)))))).
Qed.
Theorem dopri5_fstep_noerr_det : forall al (m m0 : rkmem N I) x dx t dt,
  snd (fst (dopri5_fstep_noerr f al m x dx t dt)) = snd (fst (dopri5_fstep_noerr f al m0 x dx t dt))
  /\ snd (fst (fst (dopri5_fstep_noerr f al m x dx t dt))) = snd (fst (fst (dopri5_fstep_noerr f al m0 x dx t dt))).
Proof.
  intros al m m0 x dx t dt. unfold dopri5_fstep_noerr. fold (args m x dx). fold (args m0 x dx).
  assert (D : det_out al [LDxOut; LOut] (dopri5_prog (N := N) t dt) = true)
    by (destruct al as [[] []]; reflexivity).
  cbn [fst snd].
  pose proof (det_out_eq _ al _ m m0 x dx D) as H.
  exact (conj (H LDxOut (or_introl eq_refl)) (H LOut (or_intror (or_introl eq_refl)))).
Qed.
Theorem dopri5_fstep_last : forall al (m : rkmem N I) x dx t dt,
  snd (fst (dopri5_fstep f al m x dx t dt)) = f (snd (fst (fst (dopri5_fstep f al m x dx t dt)))) (t + dt)%num.
Proof.
  intros [ax []] m x dx t dt; unfold dopri5_fstep; cbn [fst snd]; unfold dopri5_err_prog; cbn [al_dx].
  - exact (fsal_last (ICopy LDxTmp LDx :: removelast (dopri5_prog t dt)) _ _ _ _).
  - exact (fsal_last (removelast (dopri5_prog t dt)) _ _ _ _).
Qed.
Theorem dopri5_fstep_noerr_last : forall al (m : rkmem N I) x dx t dt,
  snd (fst (dopri5_fstep_noerr f al m x dx t dt)) = f (snd (fst (fst (dopri5_fstep_noerr f al m x dx t dt)))) (t + dt)%num.
Proof.
  intros al m x dx t dt; unfold dopri5_fstep_noerr; cbn [fst snd].
  exact (fsal_last_noerr (removelast (dopri5_prog t dt)) _ _ _).
Qed.
End Det.

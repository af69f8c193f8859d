(** Dense output of dopri5 and euler. *)
From Coq Require Import ZArith List Bool Lia Arith Reals Lra QArith Qreals FunctionalExtensionality.
From Verif Require Import M_Num M_RK S_RK P_RK P_RKR P_Trees P_RKLin P_Poly P_RKOrder P_RKNamed.
Import ListNotations.
Local Open Scope R_scope.

(** ** The dense output of the step that was made. *)
Section DopriDense.
Variable eps : R.
Notation NN := (RNum eps).
Context {I : Type}.
Variable f : (I -> R) -> R -> (I -> R).

Lemma dopri5_run : forall t dt (m : rkmem NN I),
  m LDx = f (m LIn) t ->
  let m' := fst (exec (N := NN) f separate (dopri5_err_prog (N := NN) separate t dt) m) in
  exists k2, rk_stages_R eps dopri5_tab7 f (m LIn) t dt
       [m LDx; k2; m' (LK 1); m' (LK 2); m' (LK 3); m' (LK 4); m' LDxOut]
  /\ (forall i, m' LOut i = m LIn i + dt * wsum (tab_b (dopri5_tab7 (N := NN)))
       [m LDx; k2; m' (LK 1); m' (LK 2); m' (LK 3); m' (LK 4); m' LDxOut] i).
Proof.
  intros t dt m Hdx. cbv zeta.
  destruct (dopri5_R eps f separate t dt m Hdx) as ((ks & [L Z S] & Hy) & _ & Hd).
  cbn [resolve separate al_x al_dx] in Hy, Hd.
  revert Hy Hd. 
  unfold dopri5_err_prog. cbn [al_dx separate].
  rewrite exec_app, dopri5_generic, exec_app.
  rewrite (exec_given_dxdt eps f separate (generic_prog (N := NN) (dopri5_tab6 eps) t dt) t m Hdx).
  destruct (generic_correct_R eps f (dopri5_tab6 eps) separate t dt m (wf_dopri5_tab6 eps)) as (ks' & [L' Z' S'] & Ho & Hh).
  destruct (run_step (N := NN) f separate (generic_prog (N := NN) (dopri5_tab6 eps) t dt) t m) as [m1 c1].
  cbn [fst snd] in *. cbn [resolve separate al_x] in Ho.
  cbn [exec exec1 fst snd]. unfold wr, rd. cbn [resolve separate al_x al_dx].
  set (y := m1 LOut) in *.
  set (k7 := f y (t + dt)).
  rewrite (upd_other _ LErr LOut), (upd_other _ LErr LDxOut), !upd_same, (upd_other _ LDxOut LOut) by discriminate.
  fold y.
  rewrite !(upd_other _ LErr (LK _)), !(upd_other _ LDxOut (LK _)) by discriminate.
  intros Hy Hd.
  assert (Hk : exists k1 k2 k3 k4 k5 k6, ks' = [k1;k2;k3;k4;k5;k6]).
  { clear - L'. destruct ks' as [|k1 [|k2 [|k3 [|k4 [|k5 [|k6 [|k8 r]]]]]]]; try discriminate.
    repeat eexists. }
  destruct Hk as (k1 & k2 & k3 & k4 & k5 & k6 & ->).
  pose proof (Hh 2%nat k3 eq_refl) as H2.
  pose proof (Hh 3%nat k4 eq_refl) as H3. pose proof (Hh 4%nat k5 eq_refl) as H4.
  pose proof (Hh 5%nat k6 eq_refl) as H5. cbn [ksrc] in H2, H3, H4, H5.
  rewrite H2, H3, H4, H5.
  assert (E1 : k1 = m LDx) by (cbn in Z'; congruence). subst k1.
  exists k2. split.
  - constructor.
    + reflexivity.
    + cbn. now rewrite Hdx.
    + intros s row c Hr Hc.
      destruct (Nat.eq_dec s 5) as [->|Hs5].
      * inversion Hr; inversion Hc; subst row c.
        cbn [nth_error firstn]. f_equal. unfold k7. f_equal; [|cbn; ring].
        exact Ho.
      * assert (Hlt : (s < 5)%nat).
        { destruct (le_lt_dec 5 s) as [h|h]; auto. exfalso.
          assert (nth_error (tab_a (dopri5_tab7 (N := NN))) s = None)
            by (apply nth_error_None; simpl; lia). congruence. }
        assert (Hr' : nth_error (tab_a (dopri5_tab6 eps)) s = Some row)
          by (rewrite <- Hr; do 5 (destruct s as [|s]; [reflexivity|]); lia).
        assert (Hc' : nth_error (tab_c (dopri5_tab6 eps)) (Datatypes.S s) = Some c)
          by (rewrite <- Hc; do 5 (destruct s as [|s]; [reflexivity|]); lia).
        specialize (S' s row c Hr' Hc'). clear - S' Hlt.
        do 5 (destruct s as [|s]; [exact S'|]). lia.
  - intro i. rewrite Ho. cbn [tab_b dopri5_tab6 dopri5_tab7 removelast]. unfold wsum. cbn. ring.
Qed.

(** The interpolated state at time [s] after the step. *)
Definition dense_at (t dt : R) (m m' : rkmem NN I) (s : R) : I -> R :=
  dopri5_calc_state (N := NN) s (m LIn) (m LDx) t (m' (LK 1)) (m' (LK 2)) (m' (LK 3)) (m' (LK 4))
    (m' LDxOut) (t + dt)%R.

Theorem dopri5_dense : forall t dt (m : rkmem NN I), dt <> 0 ->
  m LDx = f (m LIn) t ->
  let m' := fst (exec (N := NN) f separate (dopri5_err_prog (N := NN) separate t dt) m) in
  let D := dense_at t dt m m' in
  forall i,
  D t i = m LIn i
  /\ D (t + dt) i = m' LOut i
  /\ derivable_pt_lim (fun s => D s i) t (f (m LIn) t i)
  /\ derivable_pt_lim (fun s => D s i) (t + dt) (f (m' LOut) (t + dt) i).
Proof.
  intros t dt m Hdt Hdx m' D i.
  destruct (dopri5_run t dt m Hdx) as (k2 & Hs & Hy).
  destruct (dopri5_R eps f separate t dt m Hdx) as (_ & _ & Hd).
  fold m' in Hs, Hy, Hd. cbn [resolve separate al_x al_dx] in Hd.
  rewrite <- Hd, <- Hdx.
  assert (Hn : t + dt <> t) by lra.
  destruct (calc_derivative eps (m LIn) (m LDx) (m' (LK 1)) (m' (LK 2)) (m' (LK 3)) (m' (LK 4))
              (m' LDxOut) t (t + dt) i Hn) as [D0 D1].
  split; [|split; [|split]].
  - exact (calc_start eps _ _ _ _ _ _ _ t (t + dt) i Hn).
  - etransitivity; [exact (calc_end eps _ _ _ _ _ _ _ t (t + dt) i Hn)|].
    rewrite Hy. unfold wsum. cbn [tab_b dopri5_tab7 combine map rsum fold_right fst snd].
    unfold nfrac. cbn [ndiv nofZ RNum]. unfold rsum. cbn [fold_right]. field.
  - exact D0.
  - exact D1.
Qed.

(** Exact on polynomials of degree 4 at every time. *)
Theorem dopri5_dense_polynomial : forall (P : I -> list R) t dt (m : rkmem NN I), dt <> 0 ->
  (forall x s i, f x s i = peval (pder (P i)) s) -> (forall i, (length (P i) <= 5)%nat) ->
  m LDx = f (m LIn) t -> (forall i, m LIn i = peval (P i) t) ->
  let m' := fst (exec (N := NN) f separate (dopri5_err_prog (N := NN) separate t dt) m) in
  forall s i, dense_at t dt m m' s i = peval (P i) s.
Proof.
  intros P t dt m Hdt Hf HP Hdx Hx m' s i.
  destruct (dopri5_run t dt m Hdx) as (k2 & [_ _ S] & _). fold m' in S. clearbody m'.
  assert (Hn : t + dt <> t) by lra.
  unfold dense_at. etransitivity; [exact (calc_weights eps _ _ _ _ _ _ _ t (t + dt) s i Hn)|].
  set (th := (s - t) / (t + dt - t)).
  assert (K3 : m' (LK 1) i = peval (pder (P i)) (t + 3 / 10 * dt)).
  { pose proof (S 1%nat _ _ eq_refl eq_refl) as E. cbn [nth_error] in E.
    apply (f_equal (fun o => match o with Some v => v i | None => 0 end)) in E. cbv beta iota in E.
    rewrite E. apply Hf. }
  assert (K4 : m' (LK 2) i = peval (pder (P i)) (t + 4 / 5 * dt)).
  { pose proof (S 2%nat _ _ eq_refl eq_refl) as E. cbn [nth_error] in E.
    apply (f_equal (fun o => match o with Some v => v i | None => 0 end)) in E. cbv beta iota in E.
    rewrite E. apply Hf. }
  assert (K5 : m' (LK 3) i = peval (pder (P i)) (t + 8 / 9 * dt)).
  { pose proof (S 3%nat _ _ eq_refl eq_refl) as E. cbn [nth_error] in E.
    apply (f_equal (fun o => match o with Some v => v i | None => 0 end)) in E. cbv beta iota in E.
    rewrite E. apply Hf. }
  assert (K6 : m' (LK 4) i = peval (pder (P i)) (t + 1 * dt)).
  { pose proof (S 4%nat _ _ eq_refl eq_refl) as E. cbn [nth_error] in E.
    apply (f_equal (fun o => match o with Some v => v i | None => 0 end)) in E. cbv beta iota in E.
    rewrite E. apply Hf. }
  assert (K7 : m' LDxOut i = peval (pder (P i)) (t + 1 * dt)).
  { pose proof (S 5%nat _ _ eq_refl eq_refl) as E. cbn [nth_error] in E.
    apply (f_equal (fun o => match o with Some v => v i | None => 0 end)) in E. cbv beta iota in E.
    rewrite E. apply Hf. }
  assert (K1 : m LDx i = peval (pder (P i)) (t + 0 * dt)).
  { rewrite Hdx, Hf. f_equal. ring. }
  rewrite K1, K3, K4, K5, K6, K7, Hx. clear K1 K3 K4 K5 K6 K7 S.
  destruct (Req_dec th 0) as [E0|E0].
  - assert (s = t).
    { unfold th in E0. replace (t + dt - t) with dt in E0 by ring.
      assert ((s - t) / dt * dt = 0) by (rewrite E0; ring).
      replace ((s - t) / dt * dt) with (s - t) in H by (field; lra). lra. }
    subst s. rewrite E0. unfold W1, W3, W4, W5, W6, W7. field.
  - assert (Hs : s = t + th * dt) by (unfold th; field; lra).
    pose proof (quadrature_exact
      [W1 th / th; W3 th / th; W4 th / th; W5 th / th; W6 th / th; W7 th / th]
      [0 / th; 3 / 10 / th; 4 / 5 / th; 8 / 9 / th; 1 / th; 1 / th] 4) as Q.
    assert (Hm : moments
      [W1 th / th; W3 th / th; W4 th / th; W5 th / th; W6 th / th; W7 th / th]
      [0 / th; 3 / 10 / th; 4 / 5 / th; 8 / 9 / th; 1 / th; 1 / th] 4).
    { intros k Hk. pose proof (W_moments th k Hk) as E.
      unfold qsum. cbn [combine map rsum fold_right fst snd]. unfold rsum; cbn [fold_right].
      assert (Hd : forall a, (a / th) ^ k = a ^ k / th ^ k).
      { intro a. unfold Rdiv. rewrite Rpow_mult_distr, pow_inv. reflexivity. }
      rewrite !Hd.
      assert (Hp : th ^ k <> 0) by (now apply pow_nonzero).
      transitivity ((W1 th * 0 ^ k + W3 th * (3 / 10) ^ k + W4 th * (4 / 5) ^ k + W5 th * (8 / 9) ^ k
         + W6 th * 1 ^ k + W7 th * 1 ^ k) / th / th ^ k); [field; auto|].
      rewrite E. cbn [pow]. field. repeat split; auto. apply not_0_INR. lia. }
    specialize (Q Hm (P i) (HP i) t (th * dt)).
    rewrite <- Hs in Q. replace (peval (P i) s) with (peval (P i) t + (peval (P i) s - peval (P i) t)) by ring.
    rewrite <- Q. unfold qsum. cbn [combine map rsum fold_right fst snd]. unfold rsum; cbn [fold_right].
    assert (Hz : forall a, a / th * (th * dt) = a * dt) by (intro; field; auto).
    rewrite !Hz. field. auto.
Qed.
End DopriDense.

(** ** Euler's dense output is the straight line through the step. *)
Section EulerDense.
Variable eps : R.
Notation NN := (RNum eps).
Context {I : Type}.
Variable f : (I -> R) -> R -> (I -> R).

Theorem euler_dense : forall t dt (m : rkmem NN I),
  let m' := fst (run_step (N := NN) f separate (euler_prog (N := NN) t dt) t m) in
  let D s := fst (exec (N := NN) f separate (euler_calc_prog (N := NN) s%R t) m') LOut in
  (forall s i, D s i = m LIn i + (s - t) * f (m LIn) t i)
  /\ (forall i, D t i = m LIn i) /\ (forall i, D (t + dt) i = m' LOut i).
Proof.
  intros t dt m. cbv zeta.
  assert (G : forall s i, fst (exec (N := NN) f separate (euler_calc_prog (N := NN) s%R t)
      (fst (run_step (N := NN) f separate (euler_prog (N := NN) t dt) t m))) LOut i
      = 1 * m LIn i + (s - t) * f (m LIn) t i) by reflexivity.
  assert (O : forall i, fst (run_step (N := NN) f separate (euler_prog (N := NN) t dt) t m) LOut i
      = 1 * m LIn i + dt * f (m LIn) t i) by reflexivity.
  split; [|split].
  - intros s i. refine (eq_trans (G s i) _). cbn. ring.
  - intros i. refine (eq_trans (G t i) _). cbn. ring.
  - intros i. refine (eq_trans (G (t + dt) i) (eq_trans _ (eq_sym (O i)))). cbn. ring.
Qed.
End EulerDense.

(** Statements about all named Runge-Kutta steppers. *)
From Coq Require Import ZArith List Bool Lia Arith Reals Lra QArith Qreals FunctionalExtensionality.
From Verif Require Import M_Num M_RK S_RK P_RK P_RKR P_Trees P_RKLin P_Poly P_RKOrder P_RKNamed P_RKDense.
Import ListNotations.
Local Open Scope R_scope.

Lemma wf_tab_of : forall N n, wf_tableau (tab_of (N := N) n).
Proof.
  intros N []; [apply wf_euler|apply wf_rk4|apply wf_rk4|apply wf_ck54|apply wf_ck54
               |apply wf_dopri5|apply wf_f78].
Qed.
Lemma twin_tab_of : forall eps n, twin eps (tab_of n) (tab_of n).
Proof.
  intros eps []; [apply twin_euler|apply twin_rk4|apply twin_rk4|apply twin_ck54|apply twin_ck54
               |apply twin_dopri5|apply twin_f78].
Qed.

Theorem named_order : forall n, order_of (tab_of n) (tab_b (tab_of (N := QNum 0) n)) (rk_order n).
Proof.
  intros []; [apply euler_order|apply rk4_order|apply rk4_order|apply ck54_order|apply ck54_order
               |apply dopri5_order|apply f78_order].
Qed.
Theorem named_embedded : forall n, (0 < rk_error_order n)%nat ->
  order_of (tab_of n) (embedded (tab_of n)) (rk_error_order n).
Proof.
  intros [] H; try (simpl in H; lia);
    [apply ck54_embedded|apply ck54_embedded|apply dopri5_embedded|apply f78_embedded].
Qed.

Section All.
Variable eps : R.
Notation NN := (RNum eps).
Context {I : Type}.
Variable f : (I -> R) -> R -> (I -> R).

Lemma euler_generic : forall al t dt (m : rkmem NN I),
  run_step (N := NN) f al (euler_prog t dt) t m
  = run_step (N := NN) f al (generic_prog (N := NN) euler_tab t dt) t m.
Proof.
  intros. apply exec_equiv. constructor; [intro; reflexivity|].
  unfold generic_prog, euler_prog, euler_tab.
  cbn [tab_a tab_b tab_c tab_b2 app generic_stages Nat.ltb Nat.leb Nat.sub].
  constructor; [|constructor].
  apply isum_equiv; intros; cbn -[rd]; lra.
Qed.

Lemma dopri5_noerr : forall al t dt (m : rkmem NN I),
  m LDx = f (m LIn) t ->
  rk_result eps dopri5_tab7 f (m LIn) t dt
    (fst (exec (N := NN) f al (dopri5_prog (N := NN) t dt) m) (resolve al LOut)).
Proof.
  intros al t dt m Hdx.
  destruct (dopri5_alias_noerr (N := NN) f al t dt m) as (A & _ & _). rewrite A. clear A.
  destruct (dopri5_R eps f separate t dt m Hdx) as (H & _ & _).
  revert H. cbv zeta. unfold dopri5_err_prog. cbn [al_dx separate].
  rewrite exec_app. 
  destruct (exec (N := NN) f separate (dopri5_prog (N := NN) t dt) m) as [m1 c1].
  cbn [exec exec1 fst snd resolve separate al_x]. unfold wr. cbn [resolve separate al_x al_dx].
  rewrite upd_other by discriminate. auto.
Qed.

Lemma wr_dx : forall al t (m : rkmem NN I),
  let m1 := wr (N := NN) al m LDx (f (m LIn) t) in
  m1 LDx = f (m LIn) t /\ m1 LIn = m LIn.
Proof. intros. unfold m1, wr, upd. simpl. auto. Qed.

Lemma run_step_exec : forall al p t (m : rkmem NN I),
  fst (run_step (N := NN) f al p t m)
  = fst (exec (N := NN) f al p (wr (N := NN) al m LDx (f (m LIn) t))).
Proof.
  intros. unfold run_step, do_step_prog. cbn [exec exec1]. unfold rd. cbn [resolve].
  now destruct (exec (N := NN) f al p _).
Qed.

Theorem named_step : forall n al t dt (m : rkmem NN I),
  rk_result eps (tab_of n) f (m LIn) t dt
    (fst (run_step (N := NN) f al (rk_impl (N := NN) n t dt) t m) (resolve al LOut)).
Proof.
  intros n al t dt m. destruct n; cbn [tab_of rk_impl].
  - rewrite euler_generic. apply generic_R. apply wf_euler.
  - apply generic_R. apply wf_rk4.
  - rewrite rk4_classic_generic. apply generic_R. apply wf_rk4.
  - apply generic_R. apply wf_ck54.
  - rewrite ck54_classic_generic_noerr. apply generic_R. apply wf_ck54.
  - rewrite run_step_exec. destruct (wr_dx al t m) as [A B].
    set (m1 := wr _ _ _ _) in *. rewrite <- B. apply dopri5_noerr. now rewrite B.
  - apply generic_R. apply wf_f78.
Qed.

Theorem named_err_step : forall n al t dt (m : rkmem NN I) p,
  rk_err_impl (N := NN) n al t dt = Some p ->
  let m' := fst (run_step (N := NN) f al p t m) in
  rk_result eps (tab_of n) f (m LIn) t dt (m' (resolve al LOut))
  /\ rk_error eps (tab_of n) f (m LIn) t dt (m' LErr).
Proof.
  intros n al t dt m p Hp. destruct n; cbn [rk_err_impl] in Hp; try discriminate;
    apply (f_equal (fun o => match o with Some q => q | None => [] end)) in Hp; cbv iota in Hp;
    subst p; cbn [tab_of]; cbv zeta.
  - apply generic_err_R; [apply wf_ck54|reflexivity].
  - rewrite ck54_classic_generic. apply generic_err_R; [apply wf_ck54|reflexivity].
  - rewrite run_step_exec. destruct (wr_dx al t m) as [A B].
    set (m1 := wr _ _ _ _) in *. rewrite <- B.
    destruct (dopri5_R eps f al t dt m1) as (H1 & H2 & _); [now rewrite B|]. exact (conj H1 H2).
  - apply generic_err_R; [apply wf_f78|reflexivity].
Qed.
End All.

(** Linear changes of variables and linear invariants of a step. *)
Theorem named_linear_map : forall eps I J n (T : (I -> R) -> (J -> R)) f g al t dt
    (m : rkmem (RNum eps) I) (m2 : rkmem (RNum eps) J),
  linear_map T -> (forall u s, g (T u) s = T (f u s)) -> m2 LIn = T (m LIn) ->
  forall j,
  fst (run_step (N := RNum eps) g al (rk_impl (N := RNum eps) n t dt) t m2) (resolve al LOut) j
  = T (fst (run_step (N := RNum eps) f al (rk_impl (N := RNum eps) n t dt) t m) (resolve al LOut)) j.
Proof.
  intros eps I J n T f g al t dt m m2 HT Hfg Hm j.
  pose proof (named_step eps f n al t dt m) as H1.
  pose proof (named_step eps g n al t dt m2) as H2.
  rewrite Hm in H2.
  pose proof (rk_linear_map eps (tab_of n) T f g (m LIn) t dt _ HT Hfg H1) as H3.
  destruct H2 as (ks & S & Hy). destruct H3 as (ks' & S' & Hy').
  pose proof (rk_stages_R_unique eps (tab_of n) g _ t dt ks ks' (wf_tab_of _ n) S S') as <-.
  rewrite Hy, Hy'. reflexivity.
Qed.

Theorem named_invariant : forall eps I n (l : (I -> R) -> R) f al t dt (m : rkmem (RNum eps) I),
  linear_functional l -> (forall u s, l (f u s) = 0) ->
  l (fst (run_step (N := RNum eps) f al (rk_impl (N := RNum eps) n t dt) t m) (resolve al LOut))
  = l (m LIn).
Proof.
  intros eps I n l f al t dt m Hl Hf.
  eapply rk_linear_invariant; eauto; [apply (wf_tab_of (RNum eps) n)|apply named_step].
Qed.

(** Polynomial right-hand sides. *)
Theorem named_polynomial : forall eps I n (P : I -> list R) al t dt (m : rkmem (RNum eps) I),
  (forall i, (length (P i) <= S (rk_order n))%nat) ->
  (forall i, m LIn i = peval (P i) t) ->
  let f := fun (_ : I -> R) s i => peval (pder (P i)) s in
  forall i,
  fst (run_step (N := RNum eps) f al (rk_impl (N := RNum eps) n t dt) t m) (resolve al LOut) i
  = peval (P i) (t + dt).
Proof.
  intros eps I n P al t dt m HP Hx f i.
  apply (rk_polynomial eps (tab_of n) (tab_of n) (rk_order n) (twin_tab_of eps n) (wf_tab_of _ n)
           (tab_b (tab_of (N := QNum 0) n)) (named_order n)) with (x := m LIn); auto.
  - symmetry. apply twin_tab_of.
  - apply named_step.
Qed.

(** Linear systems: the exponential series up to the order. *)
Theorem named_linear_system : forall (eps : R) n, exists (s : nat) (r : nat -> R),
  forall I (A : (I -> R) -> (I -> R)) al t dt (m : rkmem (RNum eps) I), linear_map A ->
  forall j,
  fst (run_step (N := RNum eps) (fun u _ => A u) al (rk_impl (N := RNum eps) n t dt) t m)
    (resolve al LOut) j
  = sumn (S (rk_order n)) (fun k => (dt : R) ^ k / INR (fact k) * mpow A k (m LIn) j)
    + sumn s (fun k => r k * dt ^ (S (rk_order n) + k) * mpow A (S (rk_order n) + k) (m LIn) j).
Proof.
  intros eps n.
  destruct (rk_linear_system eps (tab_of n) (tab_of n) (rk_order n) (twin_tab_of eps n)
              (wf_tab_of _ n) (tab_b (tab_of (N := QNum 0) n)) (named_order n)) as [r Hr].
  - symmetry. apply (named_order n).
  - symmetry. apply twin_tab_of.
  - destruct n; simpl; lia.
  - eexists. exists r. intros I A al t dt m HA j.
    apply (Hr I A (m LIn) t dt _ HA). apply named_step.
Qed.

(** The error estimate. *)
Theorem named_error : forall eps I n (f : (I -> R) -> R -> (I -> R)) al t dt (m : rkmem (RNum eps) I) p,
  rk_err_impl (N := RNum eps) n al t dt = Some p ->
  let m' := fst (run_step (N := RNum eps) f al p t m) in
  let y := m' (resolve al LOut) in
  let e := m' LErr in
  order_of (tab_of n) (embedded (tab_of n)) (rk_error_order n)
  /\ rk_result eps (second eps (tab_of n) (map Q2R (embedded (tab_of n)))) f (m LIn) t dt
       (fun i => y i - e i)
  /\ (dt = 0 -> forall i, e i = 0).
Proof.
  intros eps I n f al t dt m p Hp m' y e.
  destruct (named_err_step eps f n al t dt m p Hp) as [H1 H2].
  split; [|split].
  - apply named_embedded. destruct n; simpl in *; try discriminate; lia.
  - apply error_is_difference; auto.
    + apply wf_tab_of.
    + apply twin_tab_of.
    + destruct n; try discriminate Hp; reflexivity.
  - intros Hdt i. destruct H2 as (ks & _ & He). unfold e, m'.
    etransitivity; [apply He|]. rewrite Hdt. apply Rmult_0_l.
Qed.

Theorem named_error_polynomial : forall eps I n (P : I -> list R) al t dt (m : rkmem (RNum eps) I) p,
  rk_err_impl (N := RNum eps) n al t dt = Some p ->
  (forall i, (length (P i) <= S (rk_error_order n))%nat) ->
  (forall i, m LIn i = peval (P i) t) ->
  let f := fun (_ : I -> R) s i => peval (pder (P i)) s in
  forall i, fst (run_step (N := RNum eps) f al p t m) LErr i = 0.
Proof.
  intros eps I n P al t dt m p Hp HP Hx f i.
  destruct (named_err_step eps f n al t dt m p Hp) as [H1 H2].
  refine (error_polynomial eps (tab_of n) (tab_of n) (rk_order n) (rk_error_order n) P (m LIn) t dt _
           (wf_tab_of _ n) (twin_tab_of eps n) _ (named_order n) _ _ HP Hx H2 i).
  - destruct n; try discriminate Hp; reflexivity.
  - apply named_embedded. destruct n; simpl in *; try discriminate; lia.
  - destruct n; simpl; lia.
Qed.

(** In place and out of place, in any arithmetic. *)
Theorem named_in_place : forall (N : Num) I (f : vec N I -> N -> vec N I) n al t dt (m : rkmem N I),
  let r := run_step f al (rk_impl n t dt) t m in
  let r0 := run_step f separate (rk_impl n t dt) t m in
  fst r (resolve al LOut) = fst r0 LOut /\ snd r = snd r0.
Proof.
  intros N I f n al t dt m. destruct n; cbn [rk_impl].
  - apply euler_alias.
  - apply generic_alias_noerr, wf_rk4.
  - apply rk4_classic_alias.
  - apply generic_alias_noerr, wf_ck54.
  - cbv zeta. destruct (alias_safe_out f (do_step_prog (ck54_classic_prog t dt) t) al m) as (A & _ & C & _);
      [reflexivity|reflexivity|exact (conj A C)].
  - cbv zeta. destruct (alias_safe_out f (do_step_prog (dopri5_prog t dt) t) al m) as (A & _ & C & _);
      [reflexivity|reflexivity|exact (conj A C)].
  - apply generic_alias_noerr, wf_f78.
Qed.

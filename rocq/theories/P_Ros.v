(** Proofs about rosenbrock4. *)
From Coq Require Import ZArith Reals Arith Bool Lia Lra List FunctionalExtensionality.
From Verif Require Import M_Num M_Sign M_Run M_Checker M_RK M_CtrlRK M_LU M_Implicit S_LU S_Implicit P_R P_LU P_Implicit.
Import ListNotations.

(** ** In place and out of place, every arithmetic. *)
Section Alias.
Context {N : Num}.
Variable n : nat.
Variable f : vec N nat -> N -> vec N nat.
Variable jac : vec N nat -> N -> mat N.
Variable dft : vec N nat -> N -> vec N nat.
Variable co : roscoef N.

Definition sim (m m' : rbuf N) : Prop :=
  (forall l, l <> RX -> l <> ROut -> m l = m' l) /\ m ROut = m' RX.

Lemma rloc_eqb_eq : forall a b, rloc_eqb a b = true <-> a = b.
Proof.
  intros a b. destruct a, b; cbn; split; intros H; try reflexivity; try discriminate H.
  - f_equal. apply Nat.eqb_eq. exact H.
  - injection H as ->. apply Nat.eqb_refl.
Qed.

Lemma sim_read : forall m m' l, sim m m' -> l <> ROut -> rread true m l = rread false m' l.
Proof.
  intros m m' l [H1 H2] Hl. destruct l; unfold rread, rplace; auto; try (apply H1; discriminate); try contradiction.
Qed.

Lemma sim_write : forall m m' l v v', sim m m' -> l <> RX -> l <> ROut -> v = v' ->
  sim (rwrite true m l v) (rwrite false m' l v').
Proof.
  intros m m' l v v' [H1 H2] Hx Ho ->.
  assert (P : forall al, rplace al l = l) by (intros al; destruct l; try reflexivity; contradiction).
  split.
  - intros k Kx Ko. unfold rwrite. rewrite !P. destruct (rloc_eqb k l); auto.
  - unfold rwrite. rewrite !P. destruct (rloc_eqb ROut l) eqn:E; [apply rloc_eqb_eq in E; congruence|].
    destruct (rloc_eqb RX l) eqn:E'; [apply rloc_eqb_eq in E'; congruence|]. exact H2.
Qed.

Lemma fold_left_ext : forall A B (g h : A -> B -> A) l a, (forall a b, g a b = h a b) ->
  fold_left g l a = fold_left h l a.
Proof. induction l; intros a0 H; [reflexivity|]. cbn. rewrite H. auto. Qed.

Lemma sim_sum_from : forall m m' x a, sim m m' -> rsum_from true m x a = rsum_from false m' x a.
Proof.
  intros m m' x a H. extensionality i. unfold rsum_from. apply fold_left_ext. intros s p.
  rewrite (sim_read m m' _ H) by discriminate. reflexivity.
Qed.
Lemma sim_sum_of : forall m m' c, sim m m' -> rsum_of true m c = rsum_of false m' c.
Proof.
  intros m m' c H. extensionality i. unfold rsum_of. destruct c as [|c1 r]; [reflexivity|].
  rewrite (sim_read m m' (RG 1) H) by discriminate. apply fold_left_ext. intros s p.
  rewrite (sim_read m m' _ H) by discriminate. reflexivity.
Qed.
Lemma sim_rhs : forall m m' dt d c, sim m m' -> ros_rhs true dt d c m = ros_rhs false dt d c m'.
Proof.
  intros m m' dt d c H. extensionality i. unfold ros_rhs.
  rewrite (sim_sum_of m m' c H), (sim_read m m' RDxNew H), (sim_read m m' RDfdt H) by discriminate. reflexivity.
Qed.
Lemma sim_solve : forall m m' lu l, sim m m' -> l <> RX -> l <> ROut ->
  sim (ros_solve n true lu l m) (ros_solve n false lu l m').
Proof.
  intros m m' lu l H Hx Ho. unfold ros_solve. apply sim_write; auto.
  rewrite (sim_read m m' l H) by exact Ho. reflexivity.
Qed.
Lemma sim_stage : forall m m' lu tk dt a c d l, sim m m' -> l <> RX -> l <> ROut ->
  sim (ros_stage n f true lu tk dt a c d l m) (ros_stage n f false lu tk dt a c d l m').
Proof.
  intros m m' lu tk dt a c d l H Hx Ho. unfold ros_stage.
  assert (S1 : sim (rwrite true m RTmp (rsum_from true m (rread true m RX) a))
                   (rwrite false m' RTmp (rsum_from false m' (rread false m' RX) a))).
  { apply sim_write; auto; try discriminate.
    rewrite (sim_read m m' RX H) by discriminate. apply sim_sum_from. exact H. }
  cbv zeta. apply sim_solve; auto. apply sim_write; auto.
  - apply sim_write; auto; try discriminate. rewrite (sim_read _ _ RTmp S1) by discriminate. reflexivity.
  - apply sim_rhs. apply sim_write; auto; try discriminate.
    rewrite (sim_read _ _ RTmp S1) by discriminate. reflexivity.
Qed.

Lemma sim_run : forall m m' t dt, sim m m' ->
  forall l, l <> RX -> ros_run n f jac dft co true t dt m l = ros_run n f jac dft co false t dt m' l.
Proof.
  intros m m' t dt H. unfold ros_run. cbv zeta.
  assert (S1 : sim (rwrite true m RDx (f (rread true m RX) t)) (rwrite false m' RDx (f (rread false m' RX) t))).
  { apply sim_write; auto; try discriminate. rewrite (sim_read _ _ RX H) by discriminate. reflexivity. }
  set (m1 := rwrite true m RDx (f (rread true m RX) t)) in *.
  set (m1' := rwrite false m' RDx (f (rread false m' RX) t)) in *.
  rewrite (sim_read _ _ RX S1) by discriminate.
  set (lu := lu_factorize n _ _).
  assert (S2 : sim (rwrite true m1 RDfdt (dft (rread false m1' RX) t)) (rwrite false m1' RDfdt (dft (rread false m1' RX) t)))
    by (apply sim_write; auto; discriminate).
  set (m2 := rwrite true m1 RDfdt _) in *. set (m2' := rwrite false m1' RDfdt _) in *.
  match goal with |- context [ros_solve n true lu (RG 1) ?a] =>
    match goal with |- context [ros_solve n false lu (RG 1) ?b] =>
      assert (S4 : sim (ros_solve n true lu (RG 1) a) (ros_solve n false lu (RG 1) b)) end end.
  { apply sim_solve; try discriminate. apply sim_write; auto; try discriminate.
    rewrite (sim_read _ _ RDx S2), (sim_read _ _ RDfdt S2) by discriminate. reflexivity. }
  match type of S4 with sim ?a ?b => set (m4 := a) in *; set (m4' := b) in * end.
  pose proof (sim_stage _ _ lu (t + ro_c2 co * dt)%num dt (ro_a2 co) (ro_k2 co) (Some (dnth co 1)) (RG 2) S4 ltac:(discriminate) ltac:(discriminate)) as S5.
  match type of S5 with sim ?a ?b => set (m5 := a) in *; set (m5' := b) in * end.
  pose proof (sim_stage _ _ lu (t + ro_c3 co * dt)%num dt (ro_a3 co) (ro_k3 co) (Some (dnth co 2)) (RG 3) S5 ltac:(discriminate) ltac:(discriminate)) as S6.
  match type of S6 with sim ?a ?b => set (m6 := a) in *; set (m6' := b) in * end.
  pose proof (sim_stage _ _ lu (t + ro_c4 co * dt)%num dt (ro_a4 co) (ro_k4 co) (Some (dnth co 3)) (RG 4) S6 ltac:(discriminate) ltac:(discriminate)) as S7.
  match type of S7 with sim ?a ?b => set (m7 := a) in *; set (m7' := b) in * end.
  pose proof (sim_stage _ _ lu (t + dt)%num dt (ro_a5 co) (ro_k5 co) None (RG 5) S7 ltac:(discriminate) ltac:(discriminate)) as S8.
  match type of S8 with sim ?a ?b => set (m8 := a) in *; set (m8' := b) in * end.
  rewrite (sim_read _ _ RTmp S8), (sim_read _ _ (RG 5) S8) by discriminate.
  assert (S9 : sim (rwrite true m8 RTmp (fun i => rread false m8' RTmp i + rread false m8' (RG 5) i)%num)
                   (rwrite false m8' RTmp (fun i => rread false m8' RTmp i + rread false m8' (RG 5) i)%num))
    by (apply sim_write; auto; discriminate).
  match type of S9 with sim ?a ?b => set (m9 := a) in *; set (m9' := b) in * end.
  rewrite (sim_read _ _ RTmp S9) by discriminate.
  assert (S10 : sim (rwrite true m9 RDxNew (f (rread false m9' RTmp) (t + dt)%num))
                    (rwrite false m9' RDxNew (f (rread false m9' RTmp) (t + dt)%num)))
    by (apply sim_write; auto; discriminate).
  match type of S10 with sim ?a ?b => set (m10 := a) in *; set (m10' := b) in * end.
  assert (S12 : sim (ros_solve n true lu RErr (rwrite true m10 RErr (ros_rhs true dt None (ro_k6 co) m10)))
                    (ros_solve n false lu RErr (rwrite false m10' RErr (ros_rhs false dt None (ro_k6 co) m10')))).
  { apply sim_solve; try discriminate. apply sim_write; auto; try discriminate. apply sim_rhs. exact S10. }
  match type of S12 with sim ?a ?b => set (m12 := a) in *; set (m12' := b) in * end.
  rewrite (sim_read _ _ RTmp S12), (sim_read _ _ RErr S12) by discriminate.
  intros l Hl. unfold rwrite. cbn [rplace]. destruct (rloc_eqb l ROut) eqn:E; [reflexivity|].
  apply S12; [exact Hl|]. intros ->. discriminate E.
Qed.

Lemma ros_in_out : forall m x xout xerr t dt l, l <> RX ->
  ros_in_place n f jac dft co m x xerr t dt l = ros_out_of_place n f jac dft co m x xout xerr t dt l.
Proof.
  intros m x xout xerr t dt l Hl. unfold ros_in_place, ros_out_of_place. apply sim_run; [|exact Hl].
  split.
  - intros k Kx Ko. unfold rwrite. cbn [rplace]. destruct k; try reflexivity; congruence.
  - reflexivity.
Qed.
End Alias.

(** ** The steps of rosenbrock4 are Rosenbrock steps, real arithmetic. *)
Section RosR.
Variable eps : R.
Notation N := (RNum eps).
Notation mat := (nat -> nat -> R).
Notation v := (nat -> R).
Local Open Scope R_scope.
Variable n : nat.
Variable f : v -> R -> v.
Variable jac : v -> R -> mat.
Variable dft : v -> R -> v.
Variable co : roscoef N.

Definition ros_shape : Prop :=
  @length R (ro_d co) = 4%nat /\ @length R (ro_a2 co) = 1%nat /\ @length R (ro_a3 co) = 2%nat /\
  @length R (ro_a4 co) = 3%nat /\ @length R (ro_a5 co) = 4%nat /\ @length R (ro_k2 co) = 1%nat /\
  @length R (ro_k3 co) = 2%nat /\ @length R (ro_k4 co) = 3%nat /\ @length R (ro_k5 co) = 4%nat /\
  @length R (ro_k6 co) = 5%nat.

Definition gof (m : rbuf N) (j k : nat) : list v := map (fun i => m (RG i)) (seq j k).

Lemma rsum_from_R : forall (m : rbuf N) (x : v) (a : list R) i,
  rsum_from (N := N) false m x a i = x i + lc a (gof m 1 (length a)) i.
Proof.
  intros m x a i. unfold rsum_from, gof.
  assert (G : forall (l : list R) j (s : R),
    fold_left (fun (s : R) (p : R * nat) => nadd (n := N) s (nmul (n := N) (fst p) (rread false m (RG (snd p)) i)))
      (combine l (seq j (length l))) s = s + lc l (map (fun i => m (RG i)) (seq j (length l))) i).
  { induction l; intros j s; cbn [combine seq length fold_left map lc]; [lra|].
    rewrite IHl. cbn [fst snd nadd nmul RNum]. change (rread false m (RG j) i) with (m (RG j) i). lra. }
  apply G.
Qed.

Lemma rsum_of_R : forall (m : rbuf N) (c : list R) i,
  rsum_of (N := N) false m c i = lc c (gof m 1 (length c)) i.
Proof.
  intros m c i. destruct c as [|c1 r]; [reflexivity|]. unfold rsum_of, gof.
  assert (G : forall (l : list R) j (s : R),
    fold_left (fun (s : R) (p : R * nat) => nadd (n := N) s (nmul (n := N) (fst p) (rread false m (RG (snd p)) i)))
      (combine l (seq j (length l))) s = s + lc l (map (fun i => m (RG i)) (seq j (length l))) i).
  { induction l; intros j s; cbn [combine seq length fold_left map lc]; [lra|].
    rewrite IHl. cbn [fst snd nadd nmul RNum]. change (rread false m (RG j) i) with (m (RG j) i). lra. }
  rewrite G. cbn [length seq map lc]. reflexivity.
Qed.

Lemma ros_matrix_R : forall x t dt,
  ros_matrix (N := N) jac co x t dt = ros_W n (ro_gamma co) dt (jac x t).
Proof.
  intros x t dt. extensionality r. extensionality c. unfold ros_matrix, ros_W, ident.
  change (jac x t r c * -1 + 1 / ro_gamma co / dt * (if Nat.eqb r c then 1 else 0)
          = (if Nat.eqb r c then 1 else 0) / ro_gamma co / dt - jac x t r c).
  unfold Rdiv. destruct (Nat.eqb r c); ring.
Qed.

(** A stage leaves x, f_t and the other g's alone. *)
Lemma stage_keeps : forall lu (tk dt : R) (a c : list R) (d : option (carrier N)) k (m : rbuf N),
  let m' := ros_stage (N := N) n f false lu tk dt a c d (RG k) m in
  m' RX = m RX /\ m' RDfdt = m RDfdt /\ (forall j, j <> k -> m' (RG j) = m (RG j)).
Proof.
  intros lu tk dt a c d k m. split; [reflexivity|]. split; [reflexivity|].
  intros j Hj. cbv zeta. unfold ros_stage, ros_solve, rwrite, rread. cbn [rplace rloc_eqb].
  destruct (Nat.eqb_spec j k); [contradiction|reflexivity].
Qed.

Lemma stage_tmp : forall lu (tk dt : R) (a c : list R) (d : option (carrier N)) k (m : rbuf N),
  ros_stage (N := N) n f false lu tk dt a c d (RG k) m RTmp = rsum_from (N := N) false m (m RX) a.
Proof. reflexivity. Qed.

Lemma stage_g : forall lu (tk dt : R) (a c : list R) (d : option (carrier N)) k (m : rbuf N),
  ros_stage (N := N) n f false lu tk dt a c d (RG k) m (RG k) =
  lu_substitute (N := N) n (lu_m lu) (lu_pm lu)
    (fun i => f (rsum_from (N := N) false m (m RX) a) tk i +
              match d with Some d => dt * d * m RDfdt i | None => 0 end
              + lc c (gof m 1 (length c)) i / dt).
Proof.
  intros lu tk dt a c d k m. unfold ros_stage, ros_solve.
  set (m2   := rwrite (N := N) false _ RDxNew _).
  unfold rwrite at 1. cbn [rplace rloc_eqb]. rewrite Nat.eqb_refl. f_equal.
  unfold rread at 1, rwrite at 1. cbn [rplace rloc_eqb]. rewrite Nat.eqb_refl.
  extensionality i. unfold ros_rhs. rewrite rsum_of_R.
  change (gof m2 1 (length c)) with (gof m 1 (length c)).
  change (rread false m2 RDxNew i) with (f (rsum_from (N := N) false m (m RX) a) tk i).
  change (rread false m2 RDfdt i) with (m RDfdt i).
  destruct d as [d|]; cbn [nadd nmul ndiv RNum]; lra.
Qed.

Definition rows : list rstage :=
  [ mkRstage [] 0 (nth 0 (ro_d co) 0) [];
    mkRstage (ro_a2 co) (ro_c2 co) (nth 1 (ro_d co) 0) (ro_k2 co);
    mkRstage (ro_a3 co) (ro_c3 co) (nth 2 (ro_d co) 0) (ro_k3 co);
    mkRstage (ro_a4 co) (ro_c4 co) (nth 3 (ro_d co) 0) (ro_k4 co);
    mkRstage (ro_a5 co) 1 0 (ro_k5 co);
    mkRstage (ro_a5 co ++ [1]) 1 0 (ro_k6 co) ].
Definition weights : list R := ro_a5 co ++ [1; 1].

Lemma ros_run_spec : ros_shape -> forall (m0 : rbuf N) (t dt : R),
  lu_res (lu_factorize (N := N) n (ros_matrix (N := N) jac co (m0 RX) t dt) (fun k => k)) = 0%nat ->
  let m := ros_run (N := N) n f jac dft co false t dt m0 in
  ros_result n f (dft (m0 RX) t) (jac (m0 RX) t) (ro_gamma co) rows weights (m0 RX) t dt (m ROut) (m RErr)
  /\ exists gs, gs = [m (RG 1); m (RG 2); m (RG 3); m (RG 4); m (RG 5)] /\
     ros_stages n f (dft (m0 RX) t) (ros_W n (ro_gamma co) dt (jac (m0 RX) t)) (m0 RX) t dt [] rows (gs ++ [m RErr]).
Proof.
  intros (L0 & L1 & L2 & L3 & L4 & K2 & K3 & K4 & K5 & K6) m0 t dt Hres.
  unfold ros_run.
  set (x := m0 RX) in *. cbv zeta.
  set (m2 := rwrite (N := N) false (rwrite false m0 RDx _) RDfdt _).
  change (rread false (rwrite false m0 RDx (f (rread false m0 RX) t)) RX) with x.
  set (lu := lu_factorize (N := N) n (ros_matrix (N := N) jac co x t dt) (fun k => k)) in *.
  assert (Sub : forall b : v, solves n (ros_W n (ro_gamma co) dt (jac x t)) (lu_substitute (N := N) n (lu_m lu) (lu_pm lu) b) b).
  { intros b. rewrite <- ros_matrix_R. apply (lu_solves eps n _ (fun k => k) b); [intros k _; reflexivity|exact Hres]. }
  set (W := ros_W n (ro_gamma co) dt (jac x t)) in *.
  set (m4 := ros_solve (N := N) n false lu (RG 1) _).
  assert (G1 : m4 (RG 1) = lu_substitute (N := N) n (lu_m lu) (lu_pm lu) (fun i => f x t i + dt * nth 0 (ro_d co) 0 * dft x t i))
    by reflexivity.
  assert (X4 : m4 RX = x) by reflexivity. assert (F4 : m4 RDfdt = dft x t) by reflexivity.
  clearbody m4. clear m2.
  set (m5 := ros_stage (N := N) n f false lu (nadd (n := N) t (nmul (n := N) (ro_c2 co) dt)) dt (ro_a2 co) (ro_k2 co) _ (RG 2) m4).
  destruct (stage_keeps lu (nadd (n := N) t (nmul (n := N) (ro_c2 co) dt)) dt (ro_a2 co) (ro_k2 co) (Some (dnth co 1)) 2 m4) as (X5 & F5 & J5).
  pose proof (stage_g lu (nadd (n := N) t (nmul (n := N) (ro_c2 co) dt)) dt (ro_a2 co) (ro_k2 co) (Some (dnth co 1)) 2 m4) as G2.
  fold m5 in X5, F5, J5, G2. clearbody m5.
  set (m6 := ros_stage (N := N) n f false lu (nadd (n := N) t (nmul (n := N) (ro_c3 co) dt)) dt (ro_a3 co) (ro_k3 co) _ (RG 3) m5).
  destruct (stage_keeps lu (nadd (n := N) t (nmul (n := N) (ro_c3 co) dt)) dt (ro_a3 co) (ro_k3 co) (Some (dnth co 2)) 3 m5) as (X6 & F6 & J6).
  pose proof (stage_g lu (nadd (n := N) t (nmul (n := N) (ro_c3 co) dt)) dt (ro_a3 co) (ro_k3 co) (Some (dnth co 2)) 3 m5) as G3.
  fold m6 in X6, F6, J6, G3. clearbody m6.
  set (m7 := ros_stage (N := N) n f false lu (nadd (n := N) t (nmul (n := N) (ro_c4 co) dt)) dt (ro_a4 co) (ro_k4 co) _ (RG 4) m6).
  destruct (stage_keeps lu (nadd (n := N) t (nmul (n := N) (ro_c4 co) dt)) dt (ro_a4 co) (ro_k4 co) (Some (dnth co 3)) 4 m6) as (X7 & F7 & J7).
  pose proof (stage_g lu (nadd (n := N) t (nmul (n := N) (ro_c4 co) dt)) dt (ro_a4 co) (ro_k4 co) (Some (dnth co 3)) 4 m6) as G4.
  fold m7 in X7, F7, J7, G4. clearbody m7.
  set (m8 := ros_stage (N := N) n f false lu (nadd (n := N) t dt) dt (ro_a5 co) (ro_k5 co) None (RG 5) m7).
  destruct (stage_keeps lu (nadd (n := N) t dt) dt (ro_a5 co) (ro_k5 co) None 5 m7) as (X8 & F8 & J8).
  pose proof (stage_g lu (nadd (n := N) t dt) dt (ro_a5 co) (ro_k5 co) None 5 m7) as G5.
  pose proof (stage_tmp lu (nadd (n := N) t dt) dt (ro_a5 co) (ro_k5 co) None 5 m7) as T5.
  fold m8 in X8, F8, J8, G5, T5. clearbody m8.
  set (m10   := rwrite (N := N) false _ RDxNew _).
  set (xh := fun i => m8 RTmp i + m8 (RG 5) i).
  assert (E12 : ros_solve (N := N) n false lu RErr (rwrite false m10 RErr (ros_rhs (N := N) false dt None (ro_k6 co) m10)) RErr
                = lu_substitute (N := N) n (lu_m lu) (lu_pm lu)
                   (fun i => f xh (t + dt) i + lc (ro_k6 co) (gof m8 1 5) i / dt)).
  { unfold ros_solve. unfold rwrite at 1. cbn [rplace rloc_eqb]. f_equal.
    unfold rread at 1, rwrite at 1. cbn [rplace rloc_eqb].
    extensionality i. unfold ros_rhs. rewrite rsum_of_R, K6.
    change (gof m10 1 5) with (gof m8 1 5). change (rread false m10 RDxNew i) with (f xh (t + dt) i).
    reflexivity. }
  set (m12 := ros_solve (N := N) n false lu RErr _) in *.
  set (mE := rwrite false m12 ROut _).
  assert (EO : mE ROut = (fun i => xh i + m12 RErr i)) by reflexivity.
  assert (EE : mE RErr = m12 RErr) by reflexivity.
  assert (EG : forall k, mE (RG k) = m8 (RG k)) by reflexivity.
  clearbody mE. clearbody m12. clear m10.
  (* the values of the g's in the last memory *)
  rewrite F7, F6, F5, F4 in G5 || idtac. rewrite F6, F5, F4 in G4. rewrite F5, F4 in G3. rewrite F4 in G2.
  rewrite X7, X6, X5, X4 in G5, T5. rewrite X6, X5, X4 in G4. rewrite X5, X4 in G3. rewrite X4 in G2.
  assert (A1 : m8 (RG 1) = m4 (RG 1)) by (rewrite J8, J7, J6, J5 by lia; reflexivity).
  assert (A2 : m8 (RG 2) = m5 (RG 2)) by (rewrite J8, J7, J6 by lia; reflexivity).
  assert (A3 : m8 (RG 3) = m6 (RG 3)) by (rewrite J8, J7 by lia; reflexivity).
  assert (A4 : m8 (RG 4) = m7 (RG 4)) by (rewrite J8 by lia; reflexivity).
  assert (Q4 : gof m4 1 1 = [m8 (RG 1)]) by (unfold gof; cbn [seq map]; rewrite A1; reflexivity).
  assert (Q5 : gof m5 1 2 = [m8 (RG 1); m8 (RG 2)]) by (unfold gof; cbn [seq map]; rewrite A1, A2, J5 by lia; reflexivity).
  assert (Q6 : gof m6 1 3 = [m8 (RG 1); m8 (RG 2); m8 (RG 3)]) by (unfold gof; cbn [seq map]; rewrite A1, A2, A3, !J6, J5 by lia; reflexivity).
  assert (Q7 : gof m7 1 4 = [m8 (RG 1); m8 (RG 2); m8 (RG 3); m8 (RG 4)])
    by (unfold gof; cbn [seq map]; rewrite A1, A2, A3, A4, !J7, !J6, J5 by lia; reflexivity).
  assert (Q8 : gof m8 1 5 = [m8 (RG 1); m8 (RG 2); m8 (RG 3); m8 (RG 4); m8 (RG 5)]) by reflexivity.
  rewrite <- A1 in G1. rewrite <- A2, K2, Q4 in G2. rewrite <- A3, K3, Q5 in G3. rewrite <- A4, K4, Q6 in G4. rewrite K5, Q7 in G5.
  rewrite Q8 in E12.
  set (g1 := m8 (RG 1)) in *. set (g2 := m8 (RG 2)) in *. set (g3 := m8 (RG 3)) in *.
  set (g4 := m8 (RG 4)) in *. set (g5 := m8 (RG 5)) in *. set (e := m12 RErr) in *.
  assert (Hxh : forall i, xh i = x i + lc (ro_a5 co) [g1; g2; g3; g4] i + g5 i).
  { intros i. unfold xh. rewrite T5, rsum_from_R, L4, Q7. reflexivity. }
  assert (ST : ros_stages n f (dft x t) W x t dt [] rows [g1; g2; g3; g4; g5; e]).
  { unfold rows. cbn [ros_stages app rs_a rs_alpha rs_d rs_c].
    split; [|split; [|split; [|split; [|split; [|split; [|exact Logic.I]]]]]].
    - exists x. split; [intros i _; cbn; lra|]. rewrite G1. replace (t + 0 * dt) with t by ring.
      intros r Hr. rewrite Sub by exact Hr. cbn [lc]. unfold Rdiv. ring.
    - exists (rsum_from (N := N) false m4 x (ro_a2 co)). split; [intros i _; rewrite rsum_from_R, L1, Q4; reflexivity|].
      rewrite G2. intros r Hr. rewrite Sub by exact Hr. reflexivity.
    - exists (rsum_from (N := N) false m5 x (ro_a3 co)). split; [intros i _; rewrite rsum_from_R, L2, Q5; reflexivity|].
      rewrite G3. intros r Hr. rewrite Sub by exact Hr. reflexivity.
    - exists (rsum_from (N := N) false m6 x (ro_a4 co)). split; [intros i _; rewrite rsum_from_R, L3, Q6; reflexivity|].
      rewrite G4. intros r Hr. rewrite Sub by exact Hr. reflexivity.
    - exists (rsum_from (N := N) false m7 x (ro_a5 co)). split; [intros i _; rewrite rsum_from_R, L4, Q7; reflexivity|].
      rewrite G5. intros r Hr. rewrite Sub by exact Hr. replace (t + 1 * dt) with (t + dt) by ring.
      change (nadd (n := N) t dt) with (t + dt). cbv beta iota. rewrite Rmult_0_r, Rmult_0_l. reflexivity.
    - exists xh. split.
      + intros i _. rewrite Hxh. clear - L4. destruct (ro_a5 co) as [|b1 [|b2 [|b3 [|b4 [|]]]]]; try discriminate L4. cbn [app lc]. lra.
      + rewrite E12. intros r Hr. rewrite Sub by exact Hr. replace (t + 1 * dt) with (t + dt) by ring.
        rewrite Rmult_0_r, Rmult_0_l, Rplus_0_r. reflexivity. }
  split.
  - rewrite EO, EE. exists [g1; g2; g3; g4; g5]. split; [exact ST|].
    intros i _. cbv beta. rewrite Hxh. unfold weights. clear - L4.
    destruct (ro_a5 co) as [|b1 [|b2 [|b3 [|b4 [|]]]]]; try discriminate L4. cbn [app lc]. lra.
  - eexists. split; [reflexivity|]. rewrite EE, !EG. exact ST.
Qed.
End RosR.

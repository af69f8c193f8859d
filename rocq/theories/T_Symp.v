(** Theorems about the symplectic steppers and velocity_verlet (C46-C48, C81-C84). *)
From Coq Require Import ZArith List Bool QArith Reals Lra Lia.
From Coq Require FunctionalExtensionality.
From Verif Require Import M_Num M_Run M_Plain M_RK M_Symp S_RK S_Inv S_Symp P_Symp P_SympR P_SympZ P_Inv T_RK X_Inst.
Import ListNotations.
Local Open Scope R_scope.

(** ** C81: every overload and every aliasing of do_step computes the same; the contents of the
    temporaries and of the output before the call do not matter; the overload for a momentum function
    alone is the pair overload with dq/dt = p, without the calls of the coordinate function. *)
Theorem C81_aliasing : forall (N : Num) (I : Type) (sys : sysys N I) (al al' : salias) (abs : list (N * N)) (dt : N) (m m' : symem N I),
  abs <> [] -> sm_qi m = sm_qi m' -> sm_pi m = sm_pi m' ->
  let r := sy_step sys al abs dt m in let r' := sy_step sys al' abs dt m' in
  rd_qo al (fst r) = rd_qo al' (fst r') /\ rd_po al (fst r) = rd_po al' (fst r') /\ snd r = snd r'.
Proof.
  intros N I sys al al' abs dt m m' H E1 E2 r r'.
  destruct (step_spec sys al abs dt m H) as [A B]. destruct (step_spec sys al' abs dt m' H) as [A' B'].
  fold r in A, B. fold r' in A', B'. rewrite E1, E2 in A, B. rewrite <- A' in A. rewrite <- B' in B.
  injection A as A1 A2. auto.
Qed.
Print Assumptions C81_aliasing.
Theorem C81_overloads : forall (N : Num) (I : Type) (sys : sysys N I) (abs : list (N * N)) dq dp dq' dp' x o t t' dt,
  abs <> [] -> sy_do_step sys abs dq dp x t dt = sy_do_step_out sys abs dq' dp' x o t' dt.
Proof.
  intros N I sys abs dq dp dq' dp' x o t t' dt H. now rewrite do_step_spec, do_step_out_spec.
Qed.
Print Assumptions C81_overloads.
Theorem C81_single : forall (N : Num) (I : Type) (mf : vec N I -> vec N I) (abs : list (N * N)) dq dp x t dt,
  abs <> [] ->
  fst (sy_do_step (SMom mf) abs dq dp x t dt) = fst (sy_do_step (SPair (fun p => p) mf) abs dq dp x t dt)
  /\ snd (sy_do_step (SMom mf) abs dq dp x t dt)
     = filter (fun c => match c with CMom _ => true | CCoor _ => false end) (snd (sy_do_step (SPair (fun p => p) mf) abs dq dp x t dt)).
Proof.
  intros N I mf abs dq dp x t dt H. rewrite !do_step_spec by exact H. split; [reflexivity|]. cbn [snd log_of].
  clear H. revert x. induction abs as [|ab r IH]; intros x; [reflexivity|]. cbn. f_equal. apply IH.
Qed.
Print Assumptions C81_single.

Lemma coefs_nonempty : forall (N : Num) sq,
  symplectic_euler (N := N) <> [] /\ sb3a_mclachlan (N := N) <> [] /\ sb3a_m4_mclachlan (N := N) sq <> [].
Proof. intros N sq. repeat split; discriminate. Qed.

Example C81_example : let z := fst (sy_do_step (N := Q0) (SMom (N := Q0) (fun (q : unit -> Q) (_ : unit) => Qred (- q tt)%Q)) symplectic_euler
  (fun _ => 7%Q) (fun _ => 9%Q) (fun _ => 1%Q, fun _ => 2%Q) 0%Q (1 # 2)%Q) in (fst z tt, snd z tt) = (2%Q, 1%Q).
Proof. reflexivity. Qed.

(** ** C46 *)
Lemma shears_symplectic : forall (eps : R) I (idx : list I) (f g : (I -> R) -> (I -> R)) A B (h : R) (abs : list (R * R)),
  tangent f A -> tangent g B -> symmetric idx A -> symmetric idx B ->
  symplectic idx (fun z => shears (N := RNum eps) f g h abs z).
Proof.
  intros eps I idx f g A B h abs Hf Hg SA SB.
  refine (eq_ind _ (symplectic idx) (symplectic_ops idx f g A B h (flat abs) Hf Hg SA SB) _ _).
  apply FunctionalExtensionality.functional_extensionality. intros z. symmetry. apply shears_R.
Qed.

(** One step: the step map has a tangent map everywhere and it preserves the canonical symplectic
    form, for every coefficients. *)
Theorem C46_step : forall (eps : R) I (idx : list I) (f g : (I -> R) -> (I -> R)) A B (abs : list (R * R)) dq dp (t dt : R),
  tangent f A -> tangent g B -> symmetric idx A -> symmetric idx B -> abs <> [] ->
  symplectic idx (fun z => fst (sy_do_step (N := RNum eps) (SPair (N := RNum eps) f g) abs dq dp z t dt))
  /\ symplectic idx (fun z => fst (sy_do_step (N := RNum eps) (SMom (N := RNum eps) g) abs dq dp z t dt)).
Proof.
  intros eps I idx f g A B abs dq dp t dt Hf Hg SA SB H. split.
  - refine (eq_ind _ (symplectic idx) (shears_symplectic eps I idx f g A B dt abs Hf Hg SA SB) _ _).
    apply FunctionalExtensionality.functional_extensionality. intros z.
    now rewrite (do_step_spec (N := RNum eps) (SPair (N := RNum eps) f g) abs dq dp z t dt H).
  - assert (S1 : symmetric (I := I) idx (fun _ u => u)) by (intros z u v; reflexivity).
    refine (eq_ind _ (symplectic idx) (shears_symplectic eps I idx (fun p => p) g (fun _ u => u) B dt abs tangent_id Hg S1 SB) _ _).
    apply FunctionalExtensionality.functional_extensionality. intros z.
    now rewrite (do_step_spec (N := RNum eps) (SMom (N := RNum eps) g) abs dq dp z t dt H).
Qed.
Print Assumptions C46_step.

(** Any number of steps with any step widths. *)
Theorem C46_run : forall (eps : R) I (idx : list I) (f g : (I -> R) -> (I -> R)) A B (abs : list (R * R)) dq dp (steps : list (R * R)),
  tangent f A -> tangent g B -> symmetric idx A -> symmetric idx B -> abs <> [] ->
  symplectic idx (fun z => fold_left (fun z s => fst (sy_do_step (N := RNum eps) (SPair (N := RNum eps) f g) abs dq dp z (fst s) (snd s))) steps z).
Proof.
  intros eps I idx f g A B abs dq dp steps Hf Hg SA SB H.
  rewrite <- (rev_involutive steps). induction (rev steps) as [|s r IH]; [exact (symplectic_id idx)|]. cbn [rev].
  refine (eq_ind _ (symplectic idx)
    (symplectic_comp idx _ _ (proj1 (C46_step eps I idx f g A B abs dq dp (fst s) (snd s) Hf Hg SA SB H)) IH) _ _).
  apply FunctionalExtensionality.functional_extensionality. intros z. now rewrite fold_left_app.
Qed.
Print Assumptions C46_run.

(** The three steppers. *)
Theorem C46_named : forall (eps : R) I (idx : list I) (f g : (I -> R) -> (I -> R)) A B dq dp (t dt sq : R) abs,
  tangent f A -> tangent g B -> symmetric idx A -> symmetric idx B ->
  abs = symplectic_euler (N := RNum eps) \/ abs = sb3a_mclachlan (N := RNum eps) \/ abs = sb3a_m4_mclachlan (N := RNum eps) sq ->
  symplectic idx (fun z => fst (sy_do_step (N := RNum eps) (SPair (N := RNum eps) f g) abs dq dp z t dt)).
Proof.
  intros eps I idx f g A B dq dp t dt sq abs Hf Hg SA SB H.
  apply (C46_step eps I idx f g A B abs dq dp t dt Hf Hg SA SB).
  destruct (coefs_nonempty (RNum eps) sq) as (E1 & E2 & E3). destruct H as [-> |[-> | ->]]; assumption.
Qed.
Print Assumptions C46_named.

(** Two coupled anharmonic oscillators meet the hypotheses. *)
Definition cubic (q : bool -> R) : bool -> R := fun b => q (negb b) - q b - q b * q b * q b.
Definition cubic' (q u : bool -> R) : bool -> R := fun b => u (negb b) - u b - 3 * (q b * q b) * u b.
Example C46_example : tangent cubic cubic' /\ symmetric [true; false] cubic' /\ tangent (I := bool) (fun p => p) (fun _ u => u)
  /\ symmetric [true; false] (fun _ u => u)
  /\ symplectic [true; false] (fun z => fst (sy_do_step (N := RNum 0) (SPair (N := RNum 0) (fun p => p) cubic)
       (sb3a_mclachlan (N := RNum 0)) (fun _ => 0) (fun _ => 0) z 0 (1 / 10)%R)).
Proof.
  assert (T : tangent cubic cubic').
  { intros c s v H b. unfold cubic, cubic'.
    replace (v (negb b) - v b - 3 * (c s b * c s b) * v b)
      with (v (negb b) - v b - ((v b * c s b + c s b * v b) * c s b + (c s b * c s b) * v b)) by ring.
    apply (derivable_pt_lim_minus (fun r => c r (negb b) - c r b) (fun r => c r b * c r b * c r b)).
    - apply (derivable_pt_lim_minus (fun r => c r (negb b)) (fun r => c r b)); apply H.
    - apply (derivable_pt_lim_mult (fun r => c r b * c r b) (fun r => c r b)); [|apply H].
      apply (derivable_pt_lim_mult (fun r => c r b) (fun r => c r b)); apply H. }
  assert (S1 : symmetric [true; false] cubic') by (intros z u v; unfold dot, cubic'; cbn; ring).
  assert (S2 : symmetric (I := bool) [true; false] (fun _ u => u)) by (intros z u v; reflexivity).
  split; [exact T|]. split; [exact S1|]. split; [exact tangent_id|]. split; [exact S2|].
  apply (C46_named 0 bool _ _ _ _ _ _ _ 0 _ 0 _ tangent_id T S2 S1). right. left. reflexivity.
Qed.

(** ** C47 *)
Theorem C47_sb3a_mclachlan : forall (eps : R) I (f g : (I -> R) -> (I -> R)) dq dp dq' dp' x (t t' dt : R),
  fst (sy_do_step (N := RNum eps) (SPair (N := RNum eps) f g) sb3a_mclachlan dq' dp'
     (fst (sy_do_step (N := RNum eps) (SPair (N := RNum eps) f g) sb3a_mclachlan dq dp x t dt)) t' (- dt)%R) = x.
Proof.
  intros eps I f g dq dp dq' dp' x t t' dt. destruct (coefs_nonempty (RNum eps) 0) as (_ & H & _).
  rewrite (do_step_spec (N := RNum eps) (SPair (N := RNum eps) f g) _ dq dp x t dt H), (do_step_spec (N := RNum eps) (SPair (N := RNum eps) f g) _ dq' dp' _ t' (- dt) H).
  cbn [fst]. rewrite !(shears_R eps). cbn [cf_of mf_of].
  refine (palindrome_reversible f g dt (sb3a_mclachlan (N := RNum eps)) _ _ _ x).
  - exact (eq_refl (removelast (flat (sb3a_mclachlan (N := RNum eps))) ++ [Kk 0])).
  - reflexivity.
Qed.
Print Assumptions C47_sb3a_mclachlan.
Theorem C47_sb3a_m4_mclachlan : forall (eps : R) I (f g : (I -> R) -> (I -> R)) dq dp dq' dp' x (sq t t' dt : R),
  fst (sy_do_step (N := RNum eps) (SPair (N := RNum eps) f g) (sb3a_m4_mclachlan (N := RNum eps) sq) dq' dp'
     (fst (sy_do_step (N := RNum eps) (SPair (N := RNum eps) f g) (sb3a_m4_mclachlan (N := RNum eps) sq) dq dp x t dt)) t' (- dt)%R) = x.
Proof.
  intros eps I f g dq dp dq' dp' x sq t t' dt. destruct (coefs_nonempty (RNum eps) sq) as (_ & _ & H).
  rewrite (do_step_spec (N := RNum eps) (SPair (N := RNum eps) f g) _ dq dp x t dt H), (do_step_spec (N := RNum eps) (SPair (N := RNum eps) f g) _ dq' dp' _ t' (- dt) H).
  cbn [fst]. rewrite !(shears_R eps). cbn [cf_of mf_of].
  refine (palindrome_reversible f g dt (sb3a_m4_mclachlan (N := RNum eps) sq) _ _ _ x).
  - exact (eq_refl (removelast (flat (sb3a_m4_mclachlan (N := RNum eps) sq)) ++ [Kk 0])).
  - reflexivity.
Qed.
Print Assumptions C47_sb3a_m4_mclachlan.

(** velocity_verlet, for a force independent of the velocity: from a fresh (or reset) object or one whose
    cached acceleration belongs to (x,t). *)
Theorem C47_velocity_verlet : forall (eps : R) I (g : (I -> R) -> R -> (I -> R)) (s : vv (RNum eps) I) rs rs' (q p : I -> R) (t dt : R),
  vv_first s = true \/ vv_cur s = g q t ->
  let '(s1, x1, _) := vv_do_step (N := RNum eps) (fun q _ t => g q t) s rs (q, p) t dt in
  let '(_, x2, _) := vv_do_step (N := RNum eps) (fun q _ t => g q t) s1 rs' x1 (t + dt)%R (- dt)%R in
  x2 = (q, p).
Proof.
  intros eps I g s rs rs' q p t dt H.
  pose proof (vv_do_step_spec (N := RNum eps) g s rs (q, p) t dt H) as E1.
  destruct (vv_do_step (N := RNum eps) (fun q _ t => g q t) s rs (q, p) t dt) as [[s1 x1] l1].
  destruct E1 as (E1 & _ & C & _).
  pose proof (vv_do_step_spec (N := RNum eps) g s1 rs' x1 (t + dt)%R (- dt)%R (or_intror C)) as E2.
  destruct (vv_do_step (N := RNum eps) (fun q _ t => g q t) s1 rs' x1 (t + dt)%R (- dt)%R) as [[s2 x2] l2].
  destruct E2 as (-> & _). subst x1. unfold verlet.
  cbn [nadd nsub nmul ndiv nopp nofZ RNum carrier].
  replace (t + dt + - dt) with t by ring.
  match goal with |- (?a, ?b) = _ => assert (Ea : a = q); [|rewrite Ea] end.
  - apply FunctionalExtensionality.functional_extensionality. intros i.
    match goal with |- @eq _ ?l ?r => change (@eq R l r) end. field.
  - f_equal. apply FunctionalExtensionality.functional_extensionality. intros i.
    match goal with |- @eq _ ?l ?r => change (@eq R l r) end. field.
Qed.
Print Assumptions C47_velocity_verlet.

(** symplectic_euler is not symmetric, so the statement is not about every composition: q'' = -q. *)
Example C47_symplectic_euler_not : let st := fun z dt => fst (sy_do_step (N := Q0) (SMom (N := Q0) (fun (q : unit -> Q) (_ : unit) => Qred (- q tt)%Q)) symplectic_euler
    (fun _ => 0%Q) (fun _ => 0%Q) z 0%Q dt) in
  let z := st (st (fun _ => 1%Q, fun _ => 0%Q) 1%Q) (-1)%Q in (fst z tt, snd z tt) = (2%Q, 1%Q).
Proof. reflexivity. Qed.
(** A non-trivial step: the force -q moves the state. *)
Example C47_example : let st := fun z dt => fst (sy_do_step (N := Q0) (SMom (N := Q0) (fun (q : unit -> Q) (_ : unit) => Qred (- q tt)%Q)) sb3a_mclachlan
    (fun _ => 0%Q) (fun _ => 0%Q) z 0%Q dt) in
  Qeq_bool (fst (st (fun _ => 1%Q, fun _ => 0%Q) 1%Q) tt) 1%Q = false.
Proof. vm_compute. reflexivity. Qed.

(** ** C48 *)
(** Whatever sequence of steps (with any step widths), resets, resizes and initializations is
    performed at the point reached so far, the points are those of the textbook scheme. *)
Theorem C48_cache : forall (N : Num) (I : Type) (g : vec N I -> N -> vec N I) (s : vv N I) x t (ops : list (vv_op N I)),
  vv_first s = true \/ vv_cur s = g (fst x) t ->
  fst (vv_run (fun q _ t => g q t) s x t ops) = verlet_run g x t ops.
Proof. intros N I g s x t ops H. exact (vv_run_spec g ops s x t H). Qed.
Print Assumptions C48_cache.
(** One evaluation per step, and one more for the first step of a fresh object. *)
Theorem C48_calls : forall (N : Num) (I : Type) (g : vec N I -> N -> vec N I) a1 a2 x t dt (dts : list N),
  length (snd (vv_run (fun q _ t => g q t) (vv_new a1 a2) x t (map (OStep None) (dt :: dts)))) = (S (length dts) + 1)%nat.
Proof. intros N I g a1 a2 x t dt dts. exact (vv_run_calls g (dt :: dts) (vv_new a1 a2) x t (or_introl eq_refl)). Qed.
Print Assumptions C48_calls.
Example C48_example : let r := vv_run (N := Q0) (fun (q _ : unit -> Q) (_ : Q) (_ : unit) => Qred (- q tt)%Q) (vv_new (N := Q0) (fun _ => 7%Q) (fun _ => 9%Q))
    (fun _ => 1%Q, fun _ => 0%Q) 0%Q [OStep (N := Q0) None 1%Q; OStep (N := Q0) None 1%Q; OReset; OStep (N := Q0) (Some (fun _ => 3%Q, fun _ => 3%Q)) 2%Q] in
  map (fun p => (fst (fst p) tt, snd (fst p) tt)) (fst r)
    = [(1 # 2, -3 # 4); (-1 # 2, -3 # 4); (-1 # 1, 3 # 4)]%Q /\ length (snd r) = 5%nat.
Proof. vm_compute. split; reflexivity. Qed.
(** With a force depending on the velocity the cached acceleration is that of the old velocity:
    a' = f(q',p), so the hypothesis is needed.  x'' = -x', p0 = 1, dt = 1, second step. *)
Example C48_velocity : let r := vv_run (N := Q0) (fun (q p : unit -> Q) (_ : Q) (_ : unit) => Qred (- p tt)%Q) (vv_new (N := Q0) (fun _ => 0%Q) (fun _ => 0%Q))
    (fun _ => 0%Q, fun _ => 1%Q) 0%Q [OStep (N := Q0) None 1%Q; OStep (N := Q0) None 1%Q] in
  map (fun p => (fst (fst p) tt, snd (fst p) tt)) (fst r) = [(1 # 2, 0); (0, -1 # 2)]%Q.
Proof. vm_compute. reflexivity. Qed.

(** ** C82: a linear function of the momenta whose rate vanishes is conserved. *)
Theorem C82_step : forall (eps : R) I (l : (I -> R) -> R) (sys : sysys (RNum eps) I) (abs : list (R * R)) dq dp x (t dt : R),
  linear_functional l -> (forall q, l (mf_of sys q) = 0) -> abs <> [] ->
  l (snd (fst (sy_do_step (N := RNum eps) sys abs dq dp x t dt))) = l (snd x).
Proof.
  intros eps I l sys abs dq dp x t dt Hl Hg H. rewrite (do_step_spec (N := RNum eps) sys abs dq dp x t dt H). cbn [fst].
  rewrite (shears_R eps). apply applies_momentum; [|exact Hg].
  intros u v c. rewrite Hl. lra.
Qed.
Print Assumptions C82_step.
Theorem C82_verlet : forall (eps : R) I (l : (I -> R) -> R) (f : (I -> R) -> (I -> R) -> R -> (I -> R)) (s : vv (RNum eps) I) rs x (t dt : R),
  linear_functional l -> (forall q p t, l (f q p t) = 0) -> vv_first s = true \/ l (vv_cur s) = 0 ->
  let '(s', x', _) := vv_do_step (N := RNum eps) f s rs x t dt in l (snd x') = l (snd x) /\ l (vv_cur s') = 0.
Proof.
  intros eps I l f s rs [q p] t dt Hl Hf H.
  assert (G : forall a a' : I -> R, l a = 0 -> l a' = 0 -> l (vv_pout (N := RNum eps) p a a' dt) = l p).
  { intros a a' H1 H2. unfold vv_pout, scale_sum. cbn [fold_left fst snd nadd nmul ndiv nofZ RNum].
    rewrite (f_equal l (FunctionalExtensionality.functional_extensionality
      (fun i => 1 * p i + 1 / 2 * dt * a i + 1 / 2 * dt * a' i)
      (fun i => 1 * (fun j => 1 * p j + 1 / 2 * dt * a j) i + 1 / 2 * dt * a' i) (fun i => ltac:(cbv beta; ring)))).
    rewrite (Hl 1 (1 / 2 * dt)), (Hl 1 (1 / 2 * dt)), H1, H2. lra. }
  destruct s as [a1 a2 c fi]. unfold vv_do_step.
  destruct rs as [[b1 b2]|], c, fi; cbn in *; (split; [apply G|]); try apply Hf;
    destruct H as [H|H]; try discriminate H; exact H.
Qed.
Print Assumptions C82_verlet.
(** Whole runs of the plain integrate functions. *)
Theorem C82_integrate : forall (eps : R) I W (l : (I -> R) -> R) (sys : sysys (RNum eps) I) (abs : list (R * R)) dq dp
    (obs : W -> (I -> R) * (I -> R) -> R -> res W) x fuel w,
  linear_functional l -> (forall q, l (mf_of sys q) = 0) -> abs <> [] ->
  let st := plain_step (W := W) (fun (s : unit) x t dt => (s, fst (sy_do_step (N := RNum eps) sys abs dq dp x t dt))) in
  let same := fun y : (I -> R) * (I -> R) => l (snd y) = l (snd x) in
  (forall t0 tend dt, run_inv (obs_inv same) (fun '(_, _, y, _) => same y)
     (integrate_const (N := RNum eps) (user_obs obs) st fuel tt w x t0 tend dt))
  /\ (forall t0 dt k, run_inv (obs_inv same) (fun '(_, _, y, _) => same y)
     (integrate_n_steps (N := RNum eps) (user_obs obs) st tt w x t0 dt k))
  /\ (forall t0 tend dt, run_inv (obs_inv same) (fun '(_, _, y, _) => same y)
     (integrate_adaptive_plain (N := RNum eps) (user_obs obs) st fuel tt w x t0 tend dt))
  /\ (forall times dt, run_inv (obs_inv same) (fun '(_, _, y, _) => same y)
     (integrate_times_plain (N := RNum eps) (user_obs obs) st fuel tt w x times dt)).
Proof.
  intros eps I W l sys abs dq dp obs x fuel w Hl Hg H st same.
  pose proof (user_obs_shows (N := RNum eps) same obs) as O.
  assert (K : step_keeps (N := RNum eps) (fun _ : unit => True) same st).
  { intros s w0 y t dt _ Hy. unfold st, plain_step. split; [repeat constructor|]. intros [[s' w'] y'] E. cbn [snd] in E.
    injection E as <- _ <-. split; [exact Logic.I|]. exact (eq_trans (C82_step eps I l sys abs dq dp y t dt Hl Hg H) Hy). }
  assert (Wk : forall D F V (E : V -> Prop) (r : M V (unit * D * ((I -> R) * (I -> R)) * F)),
     run_inv E (fun '(s', _, y, _) => True /\ same y) r -> run_inv E (fun '(_, _, y, _) => same y) r).
  { intros D F V E r [A B]. split; auto. intros [[[s' w'] y] k] E'. exact (proj2 (B _ E')). }
  destruct (C69_plain (RNum eps) unit W _ (fun _ => True) same (user_obs obs) st O K fuel tt w x Logic.I eq_refl) as (A & B & C & D).
  split; [|split; [|split]]; intros; apply Wk; [apply A|apply B|apply C|apply D].
Qed.
Print Assumptions C82_integrate.
(** Two particles with a spring: the total momentum. *)
Example C82_example : let l := fun u : bool -> R => u true + u false in
  linear_functional l /\ (forall q : bool -> R, l (fun b => q (negb b) - q b) = 0) /\ l (fun b => if b then 1 else 2) = 3.
Proof. cbv zeta. split; [intros a b u v; ring|]. split; [intros q; cbn; ring|lra]. Qed.

(** ** C83: order() of velocity_verlet (velocity_verlet.hpp:78) *)
Definition vv_order_value : nat := 1.
(** Exact for solutions of degree k: for every polynomial q of degree at most k, with force q''(t), a step of a
    fresh object from (q(t), q'(t)) ends at (q(t+dt), q'(t+dt)). *)
Definition vv_exact (eps : R) (k : nat) : Prop := forall (c : list R) (a1 a2 : unit -> R) (t dt : R), (length c <= S k)%nat ->
  let q := fun s (_ : unit) => peval c s in let v := fun s (_ : unit) => peval (pder c) s in
  let '(_, x', _) := vv_do_step (N := RNum eps) (fun _ _ s (_ : unit) => peval (pder (pder c)) s) (vv_new (N := RNum eps) a1 a2) None (q t, v t) t dt in
  fst x' tt = q (t + dt) tt /\ snd x' tt = v (t + dt) tt.
Theorem C83_refuted : forall eps, vv_exact eps 2 /\ ~ vv_exact eps 3 /\ vv_order_value <> 2%nat.
Proof.
  intros eps. split; [|split; [|discriminate]].
  - intros c a1 a2 t dt H. destruct c as [|c0 [|c1 [|c2 [|c3 c]]]]; [| | | |cbn in H; lia]; cbn; split; field.
  - intros H. specialize (H [0; 0; 0; 1] (fun _ => 0) (fun _ => 0) 0 1 (le_n _)). cbn in H. destruct H as [H _]. lra.
Qed.
Print Assumptions C83_refuted.

(** ** C84: order 4 of the McLachlan steppers for linear forces *)
Theorem C84_sb3a_m4_mclachlan : forall (eps : R) I (L : (I -> R) -> (I -> R)) dq dp (sq : R) q p i,
  linear_map L -> sq * sq = 7 / 8 -> exists K, forall t h, Rabs h <= 1 ->
  let z := fst (sy_do_step (N := RNum eps) (SMom (N := RNum eps) L) (sb3a_m4_mclachlan (N := RNum eps) sq) dq dp (q, p) t h) in
  Rabs (fst z i - (q i + h * p i + h ^ 2 / 2 * L q i + h ^ 3 / 6 * L p i + h ^ 4 / 24 * L (L q) i)) <= K * Rabs h ^ 5
  /\ Rabs (snd z i - (p i + h * L q i + h ^ 2 / 2 * L p i + h ^ 3 / 6 * L (L q) i + h ^ 4 / 24 * L (L p) i)) <= K * Rabs h ^ 5.
Proof.
  intros eps I L dq dp sq q p i HL Hs. destruct (coefs_nonempty (RNum eps) sq) as (_ & _ & H).
  destruct (csteps (flat (sb3a_m4_mclachlan (N := RNum eps) sq)) c0) as [[[al be] ga] de] eqn:E.
  assert (V : nth 0 al 0 = 1 /\ nth 1 al 0 = / 2 /\ nth 2 al 0 = / 24 /\ nth 0 be 0 = 1 /\ nth 1 be 0 = / 6
              /\ nth 0 ga 0 = 1 /\ nth 1 ga 0 = / 6 /\ nth 0 de 0 = 1 /\ nth 1 de 0 = / 2 /\ nth 2 de 0 = / 24).
  { cbn in E. injection E as <- <- <- <-. cbn [nth].
    repeat split; nra. }
  destruct V as (A0 & A1 & A2 & B0 & B1 & G0 & G1 & D0 & D1 & D2).
  destruct (order4 L HL _ al be ga de E A0 A1 B0 G0 D0 D1 q p i) as [K HK]. exists K. intros t h Hh.
  specialize (HK h Hh). rewrite A2, B1, G1, D2 in HK.
  rewrite (do_step_spec (N := RNum eps) (SMom (N := RNum eps) L) _ dq dp (q, p) t h H). cbn [fst]. rewrite (shears_R eps). cbn [cf_of mf_of].
  cbv zeta in *. replace (/ 6 - / 6) with 0 in HK by lra. replace (/ 24 - / 24) with 0 in HK by lra. rewrite Rabs_R0 in HK.
  destruct HK as [K1 K2]. split; [eapply Rle_trans; [exact K1|]|eapply Rle_trans; [exact K2|]]; lra.
Qed.
Print Assumptions C84_sb3a_m4_mclachlan.

(** sb3a_mclachlan: its constants a1 and a2 are 20-digit decimals; the coefficients of the exact solution are met
    up to 10^-20. *)
Theorem C84_sb3a_mclachlan : forall (eps : R) I (L : (I -> R) -> (I -> R)) dq dp q p i,
  linear_map L -> exists K, forall t h, Rabs h <= 1 ->
  let z := fst (sy_do_step (N := RNum eps) (SMom (N := RNum eps) L) (sb3a_mclachlan (N := RNum eps)) dq dp (q, p) t h) in
  Rabs (fst z i - (q i + h * p i + h ^ 2 / 2 * L q i + h ^ 3 / 6 * L p i + h ^ 4 / 24 * L (L q) i))
    <= / 10 ^ 20 * (Rabs h ^ 3 * Rabs (L p i) + Rabs h ^ 4 * Rabs (L (L q) i)) + K * Rabs h ^ 5
  /\ Rabs (snd z i - (p i + h * L q i + h ^ 2 / 2 * L p i + h ^ 3 / 6 * L (L q) i + h ^ 4 / 24 * L (L p) i))
    <= / 10 ^ 20 * (Rabs h ^ 3 * Rabs (L (L q) i) + Rabs h ^ 4 * Rabs (L (L p) i)) + K * Rabs h ^ 5.
Proof.
  intros eps I L dq dp q p i HL. destruct (coefs_nonempty (RNum eps) 0) as (_ & H & _).
  destruct (csteps (flat (sb3a_mclachlan (N := RNum eps))) c0) as [[[al be] ga] de] eqn:E.
  assert (V : nth 0 al 0 = 1 /\ nth 1 al 0 = / 2 /\ Rabs (nth 2 al 0 - / 24) <= / 10 ^ 20 /\ nth 0 be 0 = 1 /\ Rabs (nth 1 be 0 - / 6) <= / 10 ^ 20
              /\ nth 0 ga 0 = 1 /\ Rabs (nth 1 ga 0 - / 6) <= / 10 ^ 20 /\ nth 0 de 0 = 1 /\ nth 1 de 0 = / 2 /\ Rabs (nth 2 de 0 - / 24) <= / 10 ^ 20).
  { exact (sb3a_close eps al be ga de E). }
  destruct V as (A0 & A1 & A2 & B0 & B1 & G0 & G1 & D0 & D1 & D2).
  destruct (order4 L HL _ al be ga de E A0 A1 B0 G0 D0 D1 q p i) as [K HK]. exists K. intros t h Hh.
  specialize (HK h Hh).
  rewrite (do_step_spec (N := RNum eps) (SMom (N := RNum eps) L) _ dq dp (q, p) t h H). cbn [fst]. rewrite (shears_R eps). cbn [cf_of mf_of].
  cbv zeta in *. destruct HK as [K1 K2].
  assert (G : forall c3 c4 k u v, Rabs c3 <= / 10 ^ 20 -> Rabs c4 <= / 10 ^ 20 ->
    Rabs c3 * Rabs h ^ 3 * Rabs u + Rabs c4 * Rabs h ^ 4 * Rabs v + k <= / 10 ^ 20 * (Rabs h ^ 3 * Rabs u + Rabs h ^ 4 * Rabs v) + k).
  { intros c3 c4 k u v H3 H4.
    assert (P3 : 0 <= Rabs h ^ 3 * Rabs u) by (apply Rmult_le_pos; [apply pow_le|]; apply Rabs_pos).
    assert (P4 : 0 <= Rabs h ^ 4 * Rabs v) by (apply Rmult_le_pos; [apply pow_le|]; apply Rabs_pos).
    pose proof (Rmult_le_compat_r _ _ _ P3 H3). pose proof (Rmult_le_compat_r _ _ _ P4 H4). lra. }
  split; [eapply Rle_trans; [exact K1|]|eapply Rle_trans; [exact K2|]]; apply G; assumption.
Qed.
Print Assumptions C84_sb3a_mclachlan.
Example C84_example : linear_map (fun (q : bool -> R) b => q (negb b) - 2 * q b) /\ sqrt (7 / 8) * sqrt (7 / 8) = 7 / 8.
Proof. split; [intros a b u v j; ring|apply sqrt_sqrt; lra]. Qed.

(** Proofs about the symplectic steppers (any arithmetic): the buffers do not matter. *)
From Coq Require Import ZArith List Bool.
From Verif Require Import M_Num M_RK M_Symp S_Symp.
Import ListNotations.
Local Open Scope num_scope.

Section Any.
Context {N : Num} {I : Type}.
Notation vecN := (vec N I).

Section Sys.
Variables (cf mf : vecN -> vecN) (dt : N).
Definition shear (z : vecN * vecN) (ab : N * N) : vecN * vecN :=
  let q1 := add2 (fst z) (cf (snd z)) (fst ab * dt) in (q1, add2 (snd z) (mf q1) (snd ab * dt)).
Definition shears (abs : list (N * N)) (z : vecN * vecN) := fold_left shear abs z.
Fixpoint shear_log (abs : list (N * N)) (z : vecN * vecN) : list (scall N I) :=
  match abs with
  | [] => []
  | ab :: r => CCoor (snd z) :: CMom (fst (shear z ab)) :: shear_log r (shear z ab)
  end.
Fixpoint shear_log1 (abs : list (N * N)) (z : vecN * vecN) : list (scall N I) :=
  match abs with
  | [] => []
  | ab :: r => CMom (fst (shear z ab)) :: shear_log1 r (shear z ab)
  end.

Definition start (al : salias) (l0 : bool) (m : symem N I) : vecN * vecN :=
  if l0 then (sm_qi m, sm_pi m) else (rd_qo al m, rd_po al m).

Lemma stage_spec : forall al l0 ab m,
  start al false (fst (sy_stage cf mf al l0 dt ab m)) = shear (start al l0 m) ab
  /\ snd (sy_stage cf mf al l0 dt ab m) = [CCoor (snd (start al l0 m)); CMom (fst (shear (start al l0 m) ab))].
Proof.
  intros [[|] [|]] [|] [a b] m; split; reflexivity.
Qed.

Lemma stages_spec : forall abs al l0 m, abs <> [] \/ l0 = false ->
  start al false (fst (sy_stages cf mf al l0 dt abs m)) = shears abs (start al l0 m)
  /\ snd (sy_stages cf mf al l0 dt abs m) = shear_log abs (start al l0 m).
Proof.
  induction abs as [|ab r IH]; intros al l0 m H.
  - destruct H as [H| ->]; [now elim H|]. split; reflexivity.
  - cbn [sy_stages]. destruct (stage_spec al l0 ab m) as [E L].
    destruct (sy_stage cf mf al l0 dt ab m) as [m1 l1]. cbn [fst snd] in E, L.
    destruct (IH al false m1 (or_intror eq_refl)) as [E2 L2].
    destruct (sy_stages cf mf al false dt r m1) as [m2 l2]. cbn [fst snd] in *.
    rewrite E2, L2, L, E. split; reflexivity.
Qed.
End Sys.

Lemma stage1_spec : forall mf dt al l0 ab m,
  start al false (fst (sy_stage1 mf al l0 dt ab m)) = shear (fun p => p) mf dt (start al l0 m) ab
  /\ snd (sy_stage1 mf al l0 dt ab m) = [CMom (fst (shear (fun p => p) mf dt (start al l0 m) ab))].
Proof.
  intros mf dt [[|] [|]] [|] [a b] m; split; reflexivity.
Qed.

Lemma stages1_spec : forall mf dt abs al l0 m, abs <> [] \/ l0 = false ->
  start al false (fst (sy_stages1 mf al l0 dt abs m)) = shears (fun p => p) mf dt abs (start al l0 m)
  /\ snd (sy_stages1 mf al l0 dt abs m) = shear_log1 (fun p => p) mf dt abs (start al l0 m).
Proof.
  intros mf dt. induction abs as [|ab r IH]; intros al l0 m H.
  - destruct H as [H| ->]; [now elim H|]. split; reflexivity.
  - cbn [sy_stages1]. destruct (stage1_spec mf dt al l0 ab m) as [E L].
    destruct (sy_stage1 mf al l0 dt ab m) as [m1 l1]. cbn [fst snd] in E, L.
    destruct (IH al false m1 (or_intror eq_refl)) as [E2 L2].
    destruct (sy_stages1 mf al false dt r m1) as [m2 l2]. cbn [fst snd] in *.
    rewrite E2, L2, L, E. split; reflexivity.
Qed.

Definition cf_of (sys : sysys N I) : vecN -> vecN := match sys with SPair cf _ => cf | SMom _ => fun p => p end.
Definition mf_of (sys : sysys N I) : vecN -> vecN := match sys with SPair _ mf => mf | SMom mf => mf end.
Definition log_of (sys : sysys N I) := match sys with SPair cf mf => shear_log cf mf | SMom mf => shear_log1 (fun p => p) mf end.

Lemma step_spec : forall sys al abs dt m, abs <> [] ->
  let r := sy_step sys al abs dt m in
  (rd_qo al (fst r), rd_po al (fst r)) = shears (cf_of sys) (mf_of sys) dt abs (sm_qi m, sm_pi m)
  /\ snd r = log_of sys dt abs (sm_qi m, sm_pi m).
Proof.
  intros [cf mf|mf] al abs dt m H; cbn [sy_step cf_of mf_of log_of].
  - exact (stages_spec cf mf dt abs al true m (or_introl H)).
  - exact (stages1_spec mf dt abs al true m (or_introl H)).
Qed.

Lemma do_step_spec : forall sys abs dq dp x t dt, abs <> [] ->
  sy_do_step sys abs dq dp x t dt = (shears (cf_of sys) (mf_of sys) dt abs x, log_of sys dt abs x).
Proof.
  intros sys abs dq dp [q p] t dt H. unfold sy_do_step. cbn [fst snd].
  destruct (step_spec sys (true, true) abs dt (mkSymem q p q p dq dp) H) as [E L].
  destruct (sy_step sys (true, true) abs dt (mkSymem q p q p dq dp)) as [m l]. cbn [fst snd] in E, L.
  cbn in E. now rewrite E, L.
Qed.
Lemma do_step_out_spec : forall sys abs dq dp x o t dt, abs <> [] ->
  sy_do_step_out sys abs dq dp x o t dt = (shears (cf_of sys) (mf_of sys) dt abs x, log_of sys dt abs x).
Proof.
  intros sys abs dq dp [q p] [qo po] t dt H. unfold sy_do_step_out. cbn [fst snd].
  destruct (step_spec sys (false, false) abs dt (mkSymem q p qo po dq dp) H) as [E L].
  destruct (sy_step sys (false, false) abs dt (mkSymem q p qo po dq dp)) as [m l]. cbn [fst snd] in E, L.
  cbn in E. now rewrite E, L.
Qed.

(** ** velocity_verlet *)
Section VV.
Variable g : vecN -> N -> vecN.
Notation sys := (fun (q p : vecN) (t : N) => g q t).

(** The current acceleration is that of the point (x,t) or will be recomputed. *)
Definition coherent (s : vv N I) (x : vecN * vecN) (t : N) : Prop :=
  vv_first s = true \/ vv_cur s = g (fst x) t.

Lemma vv_do_step_spec : forall s rs x t dt, coherent s x t ->
  let '(s', x', l) := vv_do_step sys s rs x t dt in
  x' = verlet g x t dt /\ vv_first s' = false /\ vv_cur s' = g (fst x') (t + dt)
  /\ l = (if (match rs with Some _ => true | None => false end) || vv_first s then [(fst x, snd x, t)] else [])
         ++ [(fst x', snd x, t + dt)].
Proof.
  intros [a1 a2 c f] rs [q p] t dt H. unfold vv_do_step. unfold coherent, vv_cur in H.
  destruct rs as [[b1 b2]|], c, f; cbn in *;
    try (destruct H as [H|H]; [discriminate H|rewrite H]); repeat split; reflexivity.
Qed.

Lemma vv_run_spec : forall ops s x t, coherent s x t ->
  fst (vv_run sys s x t ops) = verlet_run g x t ops.
Proof.
  induction ops as [|o r IH]; intros s x t H; [reflexivity|].
  destruct o as [rs dt| |rs|rs|rs]; cbn [vv_run verlet_run].
  - pose proof (vv_do_step_spec s rs x t dt H) as E. destruct (vv_do_step _ s rs x t dt) as [[s' x'] l].
    destruct E as (-> & F & C & _). rewrite <- (IH s' (verlet g x t dt) (t + dt)) by (right; exact C).
    now destruct (vv_run _ s' _ (t + dt) r).
  - apply IH. left. reflexivity.
  - apply IH. destruct rs as [[b1 b2]|]; [left; reflexivity|exact H].
  - unfold vv_initialize, vv_init_acc.
    match goal with |- context [vv_run _ ?s0 x t r] => rewrite <- (IH s0 x t) end.
    + now destruct (vv_run _ _ x t r).
    + right. now destruct rs as [[b1 b2]|], s as [a1 a2 [|] f].
  - apply IH. right. now destruct rs as [[b1 b2]|], s as [a1 a2 [|] f].
Qed.

(** Steps only, without a resize: one call per step after the first. *)
Lemma vv_run_calls : forall dts s x t, coherent s x t ->
  length (snd (vv_run sys s x t (map (OStep None) dts)))
  = (length dts + if vv_first s && negb (match dts with [] => true | _ => false end) then 1 else 0)%nat.
Proof.
  induction dts as [|dt r IH]; intros s x t H; [now destruct (vv_first s)|].
  cbn [map vv_run]. pose proof (vv_do_step_spec s None x t dt H) as E.
  destruct (vv_do_step _ s None x t dt) as [[s' x'] l]. destruct E as (-> & F & C & L).
  pose proof (IH s' (verlet g x t dt) (t + dt) (or_intror C)) as E2.
  destruct (vv_run _ s' _ (t + dt) (map (OStep None) r)) as [ps l']. cbn [fst snd] in *.
  rewrite app_length, E2, F, L. cbn. destruct (vv_first s); cbn; rewrite ?PeanoNat.Nat.add_0_r; try reflexivity.
  now rewrite PeanoNat.Nat.add_1_r.
Qed.
End VV.
End Any.

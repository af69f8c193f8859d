(** Observations of integrate_adaptive with any well-behaved controller, any observer. *)
From Coq Require Import List Arith ZArith QArith Reals Lia Lra.
From Verif Require Import M_Num M_Sign M_Run M_Checker M_Controlled S_Grid M_RK S_RK M_CtrlRK S_Real S_Ctrl S_CtrlRK
  M_Integrate S_Integrate P_Run P_R P_PlainR P_Ctrl P_CtrlR P_RK P_Det P_CtrlRK P_CtrlRKR P_CtrlRKT P_CtrlRKN P_CtrlTerm P_CtrlTermRK P_RKOrder P_RKAll.
Import ListNotations.
Local Open Scope nat_scope.
Local Open Scope run_scope.
Local Open Scope R_scope.

Section Gen.
Variable eps : R.
Hypothesis Heps : 0 <= eps.
Notation N := (RNum eps).
Context {S W X : Type}.
Notation V := (ev X R).
Variable f : S -> X -> R -> R -> S * X * R * R * bool.
Variable Inv : S -> X -> R -> Prop.
Variable Step : X -> R -> R -> X -> Prop.
Variable sg : R.
Hypothesis Hsg : sg = 1 \/ sg = -1.
Hypothesis Hf : forall s x t dt, Inv s x t -> 0 < sg * dt ->
  let '(s', x', t', dt', ok) := f s x t dt in
  Inv s' x' t' /\ 0 < sg * dt' /\
  (if ok : bool then t' = t + dt /\ Step x t dt x' else x' = x /\ t' = t /\ sg * dt' <= sg * dt).
Notation tstep := (ctrl_step (W := W) f).

Lemma sg_dir dt : 0 < sg * dt -> dir dt = sg.
Proof. destruct (dir_cases dt) as [[H ->]|[H ->]], Hsg as [->| ->]; lra. Qed.

Lemma try_loop_links : forall fuel cnt s w x t dt tr r, Inv s x t -> 0 < sg * dt ->
  @try_loop N S W X tstep fuel cnt s w x t dt = (tr, r) ->
  obs_of tr = [] /\
  (forall s' w' x' t' dt', r = Ok (s', w', x', t', dt') ->
    w' = w /\ exists d, Inv s' x' t' /\ t' = t + d /\ Step x t d x' /\ 0 < sg * d <= sg * dt /\ 0 < sg * dt')
  /\ (forall e, r = Exc e -> e = StepAdjustment) /\ r <> UB.
Proof.
  induction fuel as [|fuel IH]; intros cnt s w x t dt tr r HI Hdt H; cbn [try_loop] in H.
  - injection H as <- <-. repeat split; discriminate.
  - unfold ctrl_step in H at 1. pose proof (Hf s x t dt HI Hdt) as HC.
    destruct (f s x t dt) as [[[[s1 x1] t1] dt1] ok] eqn:E. destruct HC as (HI1 & Hd1 & HC).
    unfold bind at 1 in H. destruct (bind (fail (fail_check cnt)) _) as [tr2 r2] eqn:E2.
    injection H as <- <-.
    apply bind_inv in E2 as [(tr3 & c & tr4 & H1 & H & ->)|(r1 & H1 & Hn & Hr)].
    + injection H1 as <- H1. destruct ok.
      * injection H as <- <-. destruct HC as [-> HC]. split; [reflexivity|]. split; [|split; discriminate].
        intros s' w' x' t' dt' H. injection H as <- <- <- <- <-.
        split; [reflexivity|]. exists dt. repeat split; auto. lra.
      * destruct HC as (-> & -> & HC). apply IH in H; auto. destruct H as (G1 & G2 & G3 & G4).
        split; [exact G1|]. split; [|split; auto].
        intros s' w' x' t' dt' Hr. destruct (G2 _ _ _ _ _ Hr) as (-> & d & A & B & C & D & F).
        split; [reflexivity|]. exists d. repeat split; auto; lra.
    + injection H1 as <- H1. split; [reflexivity|].
      unfold fail_check, checker_call in H1. destruct (Nat.leb _ _); subst r1; [|destruct (Hn _ eq_refl)].
      subst r2. split; [discriminate|]. split; [|discriminate]. intros e He. now injection He.
Qed.

Definition link (tend : R) (p q : X * R) : Prop :=
  Step (fst p) (snd p) (snd q - snd p) (fst q) /\ 0 < sg * (snd q - snd p) /\ sg * (snd q - tend) <= eps.

Lemma ia_loop_links (g : W -> X -> R -> res W) : forall fuel tend s w x t dt count tr r, Inv s x t -> 0 < sg * dt ->
  @ia_loop N S W X tstep (user_obs g) (Datatypes.S fuel) tend s w x t dt count = (tr, r) ->
  (exists l, obs_of tr = (x, t) :: l) /\ linked (link tend) (obs_of tr)
  /\ (forall s' w' x' t' dt' n, r = Ok (s', w', x', t', dt', n) ->
       (length (obs_of tr) + count = Datatypes.S n)%nat /\ last (obs_of tr) (x, t) = (x', t')
       /\ sg * (tend - t') <= eps /\ (- eps <= sg * (tend - t) -> - eps <= sg * (tend - t'))
       /\ 0 < sg * dt' /\ Inv s' x' t')
  /\ (forall e, r = Exc e -> e = StepAdjustment \/ exists w0 x0 t0, g w0 x0 t0 = Exc e)
  /\ (r = UB -> exists w0 x0 t0, g w0 x0 t0 = UB).
Proof.
  induction fuel as [|fuel IH]; intros tend s w x t dt count tr r HI Hdt H.
  all: pose proof (sg_dir dt Hdt) as Ed; cbn [ia_loop] in H;
    (destruct (@less_with_sign N t tend dt) eqn:El; cbv zeta in H;
      [apply less_R in El|apply less_R_false in El]; rewrite Ed in El).
  all: unfold user_obs at 1 in H; unfold bind at 1 in H;
    (destruct (g w x t) as [w1|e| |] eqn:Eg; cbn [fst snd] in H;
     [|injection H as <- <-; cbn; repeat split; eauto; try discriminate; intros e0 He; injection He as <-; eauto
      |injection H as <- <-; cbn; repeat split; eauto; discriminate
      |injection H as <- <-; cbn; repeat split; eauto; discriminate]).
  all: match type of H with
       | context [ret _] => unfold ret in H; injection H as <- <-; cbn [app obs_of flat_map];
          (split; [eauto|]; split; [cbn; auto|]; split; [|split; discriminate]);
          intros s' w' x' t' dt' n Hr; injection Hr as <- <- <- <- <- <-; cbn;
          (repeat split; auto; lra)
       | _ => idtac end.
  all: match type of H with (let (_, _) := ?b in _) = _ => destruct b as [tr2 r2] eqn:E2 end; injection H as <- <-.
  all: set (dt1 := if @less_with_sign N _ _ _ then _ else _) in E2.
  all: assert (Hdt1 : 0 < sg * dt1 /\ sg * (t + dt1 - tend) <= eps);
    [subst dt1; destruct (@less_with_sign N tend _ dt) eqn:E3;
      [rnum; split; [lra|replace (t + (tend - t) - tend) with 0 by ring; lra]
      |apply less_R_false in E3; rewrite Ed in E3; rnum; split; lra]|].
  all: clearbody dt1; change R in dt1; destruct Hdt1 as [Hp Hb].
  all: apply bind_inv in E2 as [(tr3 & [[[[s2 w2] x2] t2] dt2] & tr4 & H1 & H & ->)|(r1 & H1 & Hn & Hr)];
    apply (try_loop_links _ _ _ _ _ _ _ _ _ HI Hp) in H1; destruct H1 as (Hno & Hok & Hexc & Hub).
  - cbn [ia_loop] in H. injection H as <- <-.
    change (EObs x t :: tr3 ++ []) with ([EObs x t] ++ (tr3 ++ [])). rewrite !obs_of_app, Hno. cbn.
    repeat split; eauto; discriminate.
  - change (EObs x t :: tr2) with ([EObs x t] ++ tr2). rewrite obs_of_app, Hno. cbn.
    split; [eauto|]. split; [auto|]. split; [|split].
    + intros; subst. now destruct r1.
    + intros e ->. destruct r1; try contradiction; try discriminate. injection Hr as <-. left. now apply Hexc.
    + intros ->. destruct r1; try contradiction; discriminate.
  - destruct (Hok _ _ _ _ _ eq_refl) as (-> & d & HI2 & -> & HS & Hd & Hd2).
    pose proof (IH _ _ _ _ _ _ _ _ _ HI2 Hd2 H) as ((l & El2) & G2 & G3 & G4 & G5).
    change (EObs x t :: tr3 ++ tr4) with ([EObs x t] ++ (tr3 ++ tr4)). rewrite !obs_of_app, Hno.
    change (obs_of [EObs x t]) with [(x, t)]. cbn [app].
    split; [eauto|]. split; [|split; [|split; auto]].
    + cbn [linked]. split; [|exact G2]. rewrite El2. unfold link. cbn [fst snd].
      replace (t + d - t) with d by ring. split; [exact HS|]. split; [lra|].
      replace (t + d - tend) with (t + dt1 - tend - (dt1 - d)) by ring. rewrite Rmult_minus_distr_l. lra.
    + intros s' w' x' t' dt' n Hr. destruct (G3 _ _ _ _ _ _ Hr) as (A1 & A2 & A3 & A4 & A5).
      split; [cbn [length]; lia|]. split.
      { rewrite El2 in *. change (last ((x, t) :: (x2, t + d) :: l) (x, t)) with (last ((x2, t + d) :: l) (x, t)).
        rewrite <- A2. clear. revert x2 d. induction l as [|a l IHl]; intros; [reflexivity|].
        cbn [last]. destruct l as [|b l']; [reflexivity|].
        clear IHl. generalize (x2, t + d) as z. intro z. revert b.
        induction l' as [|b' l' IH']; intros; [reflexivity|]. exact (IH' b'). }
      split; [exact A3|]. split; [|exact A5]. intros _. apply A4.
      replace (tend - (t + d)) with (- (t + dt1 - tend) + (dt1 - d)) by ring. rewrite Rmult_plus_distr_l, Rmult_minus_distr_l. lra.
  - change (EObs x t :: tr2) with ([EObs x t] ++ tr2). rewrite obs_of_app, Hno. cbn.
    split; [eauto|]. split; [auto|]. split; [|split].
    + intros; subst. now destruct r1.
    + intros e ->. destruct r1; try contradiction; try discriminate. injection Hr as <-. left. now apply Hexc.
    + intros ->. destruct r1; try contradiction; discriminate.
Qed.
End Gen.

(** ** controlled_runge_kutta made by make_controlled. *)
Section Made.
Variable eps : R.
Hypothesis Heps : 0 <= eps.
Notation NN := (RNum eps).
Context {I W : Type}.
Variable idx : list I.
Variable sys : (I -> R) -> R -> (I -> R).
Variables abs rel max_dt : R.
Hypothesis Habs : 0 < abs.
Hypothesis Hrel : 0 <= rel.

Lemma made_tol : good_tol (eps_abs (made_cfg (N := NN) abs rel)) (eps_rel (made_cfg (N := NN) abs rel))
  (a_x (made_cfg (N := NN) abs rel)) (a_dxdt (made_cfg (N := NN) abs rel)).
Proof. unfold good_tol, made_cfg. cbn [eps_abs eps_rel a_x a_dxdt]. rnum. repeat split; lra. Qed.

(** One attempt seen through its outcome. *)
Definition goodS (n : rk_name) (x : I -> R) (t h : R) (x' : I -> R) : Prop :=
  rk_result eps (tab_of n) sys x t h x'
  /\ (exists e, rk_error eps (tab_of n) sys x t h e
       /\ forall i, In i idx -> Rabs (e i) <= abs + rel * (Rabs (x i) + Rabs h * Rabs (sys x t i)))
  /\ (max_dt <> 0 -> Rabs h <= Rabs max_dt + eps).

Lemma made_outcome : forall (n : rk_name) sg x e t dt dt' ok, (0 < rk_error_order n)%nat ->
  0 < sg * dt -> sg = dir dt -> agrees dt max_dt ->
  outcome eps idx (Z.of_nat (rk_error_order n)) (Z.of_nat (rk_order n)) (made_cfg (N := NN) abs rel) max_dt
    x (sys x t) e dt dt' ok ->
  0 < sg * dt' /\ (ok = false -> sg * dt' <= sg * dt)
  /\ (ok = true -> (forall i, In i idx -> Rabs (e i) <= abs + rel * (Rabs (x i) + Rabs dt * Rabs (sys x t i)))
        /\ (max_dt <> 0 -> Rabs dt <= Rabs max_dt + eps)).
Proof.
  intros n sg x e t dt dt' ok Hn Hd -> Ha Ho.
  destruct (outcome_tol eps idx _ _ (made_cfg (N := NN) abs rel) max_dt _ _ _ _ _ _ made_tol Ho) as [T1 _].
  destruct (order_bounds n Hn) as [O1 O2].
  assert (Nz : dt <> 0) by (intro Z; rewrite Z, Rmult_0_r in Hd; lra).
  destruct (outcome_dt eps idx _ _ (made_cfg (N := NN) abs rel) max_dt _ _ _ _ _ _ Nz O1 (proj1 O2) Heps Ha Ho)
    as (D1 & D2 & _ & _ & _ & D6).
  split; [exact D1|]. split.
  - intro F. pose proof (D2 F) as Q.
    rewrite dir_abs. rewrite <- (dir_abs dt'), (dir_eq_of_pos _ _ D1) in Q. lra.
  - intro F. split; [|intro M; exact (proj2 (D6 M) F)].
    intros i Hi. pose proof (T1 F i Hi) as Q. unfold made_cfg in Q. cbn [eps_abs eps_rel a_x a_dxdt] in Q. rnum.
    replace (1 * Rabs (x i) + 1 * Rabs dt * Rabs (sys x t i)) with (Rabs (x i) + Rabs dt * Rabs (sys x t i)) in Q by ring. exact Q.
Qed.

Lemma agrees_sg sg dt dt0 : 0 < sg * dt -> sg = dir dt0 -> agrees dt0 max_dt -> agrees dt max_dt.
Proof.
  intros H -> [Ha|Ha]; [now left|right]. now rewrite (dir_eq_of_pos _ _ H).
Qed.

Lemma explicit_Hf : forall n dt0, (0 < rk_error_order n)%nat -> agrees dt0 max_dt ->
  forall s x t dt, True -> 0 < dir dt0 * dt ->
  let '(s', x', t', dt', ok) := made_explicit (N := NN) idx rpow sys n abs rel max_dt s x t dt in
  True /\ 0 < dir dt0 * dt' /\
  (if ok : bool then t' = t + dt /\ goodS n x t dt x' else x' = x /\ t' = t /\ dir dt0 * dt' <= dir dt0 * dt).
Proof.
  intros n dt0 Hn Ha s x t dt _ Hd.
  destruct (made_explicit (N := NN) idx rpow sys n abs rel max_dt s x t dt) as [[[[s' x'] t'] dt'] ok] eqn:E.
  split; [exact Logic.I|]. unfold made_explicit in E.
  pose proof (ck_effect (N := NN) idx rpow sys (rk_estep (N := NN) sys n) _ _ _ _ s x t dt s' x' t' dt' ok E) as Ef.
  destruct (ck_outcome eps idx sys _ _ _ max_dt _ _ _ _ _ _ _ _ _ _ E) as [Oc _].
  destruct (rk_estep (N := NN) sys n (ck_st s) x (sys x t) t dt) as [[st out] e] eqn:Ee. cbn [fst snd] in Ef, Oc.
  destruct (rk_estep_R eps sys n (ck_st s) x t dt st out e Hn Ee) as [R1 R2].
  pose proof (dir_eq_of_pos _ _ Hd) as Ed.
  destruct (made_outcome n (dir dt0) x e t dt dt' ok Hn Hd (eq_sym Ed) (agrees_sg _ _ _ Hd eq_refl Ha) Oc) as (A1 & A2 & A3).
  split; [exact A1|]. destruct ok.
  - destruct Ef as [-> ->]. split; [reflexivity|]. destruct (A3 eq_refl) as [B1 B2].
    split; [exact R1|]. split; [|exact B2]. exists e. split; [exact R2|exact B1].
  - destruct Ef as [-> ->]. auto.
Qed.

Lemma dopri5_Hf : forall rs dt0, agrees dt0 max_dt ->
  forall s x t dt, cache_ok (N := NN) sys s x t -> 0 < dir dt0 * dt ->
  let '(s', x', t', dt', ok) := made_dopri5 (N := NN) idx rpow sys abs rel max_dt rs s x t dt in
  cache_ok (N := NN) sys s' x' t' /\ 0 < dir dt0 * dt' /\
  (if ok : bool then t' = t + dt /\ goodS rk_dopri5 x t dt x' else x' = x /\ t' = t /\ dir dt0 * dt' <= dir dt0 * dt).
Proof.
  intros rs dt0 Ha s x t dt HP Hd.
  destruct (made_dopri5 (N := NN) idx rpow sys abs rel max_dt rs s x t dt) as [[[[s' x'] t'] dt'] ok] eqn:E.
  unfold made_dopri5 in E.
  destruct (ckf_step (N := NN) idx rpow sys (dopri5_fstep (N := NN) sys (mkAlias false false)) _ _ _ _
      (dopri5_fstep_last (N := NN) sys (mkAlias false false)) rs s x t dt s' x' t' dt' ok HP E) as [K1 Ef].
  split; [exact K1|].
  destruct (ckf_outcome eps idx sys _ _ _ max_dt _ _ _ _ _ _ _ _ _ _ _ E) as (dx & Edx & Oc & _).
  rewrite (Edx HP) in Oc. clear Edx dx.
  destruct (dopri5_fstep (N := NN) sys (mkAlias false false) (cf_st s) x (sys x t) t dt) as [[[st out] dxo] e] eqn:Ee.
  cbn [fst snd] in Ef, Oc.
  destruct (dopri5_fstep_R eps sys _ (cf_st s) x t dt st out dxo e Ee) as [R1 R2].
  pose proof (dir_eq_of_pos _ _ Hd) as Ed.
  assert (Hn : (0 < rk_error_order rk_dopri5)%nat) by (cbn; lia).
  destruct (made_outcome rk_dopri5 (dir dt0) x e t dt dt' ok Hn Hd (eq_sym Ed) (agrees_sg _ _ _ Hd eq_refl Ha) Oc) as (A1 & A2 & A3).
  split; [exact A1|]. destruct ok.
  - destruct Ef as [-> ->]. split; [reflexivity|]. destruct (A3 eq_refl) as [B1 B2].
    split; [exact R1|]. split; [|exact B2]. exists e. split; [exact R2|exact B1].
  - destruct Ef as [-> ->]. auto.
Qed.

Lemma linked_impl {A} (L M : A -> A -> Prop) : (forall a b, L a b -> M a b) -> forall l, linked L l -> linked M l.
Proof.
  intros H. induction l as [|a l IH]; [auto|]. intros [H1 H2]. split; [|now apply IH].
  destruct l; [exact Logic.I|]. now apply H.
Qed.

Lemma link_good n sg tend p q : link eps (goodS n) sg tend p q ->
  good_step eps (tab_of n) idx sys abs rel max_dt sg tend p q.
Proof. intros ((A & B & C) & D & E). repeat split; assumption. Qed.

Lemma dir_pm dt : dir dt = 1 \/ dir dt = -1.
Proof. destruct (dir_cases dt) as [[_ ->]|[_ ->]]; auto. Qed.

Lemma end_abs sg a : (sg = 1 \/ sg = -1) -> sg * a <= eps -> - eps <= sg * a -> Rabs a <= eps.
Proof. intros [->| ->] H1 H2; apply Rabs_le; lra. Qed.

Lemma adaptive_explicit : forall n (g : W -> (I -> R) -> R -> res W) fuel c w x t0 tend dt tr r,
  (0 < rk_error_order n)%nat -> dt <> 0 -> agrees dt max_dt ->
  integrate_adaptive_ctrl (N := NN) (ctrl_step (made_explicit (N := NN) idx rpow sys n abs rel max_dt))
    (user_obs g) (Datatypes.S fuel) c w x t0 tend dt = (tr, r) ->
  (exists l, obs_of tr = (x, t0) :: l)
  /\ linked (good_step eps (tab_of n) idx sys abs rel max_dt (dir dt) tend) (obs_of tr)
  /\ (forall c' w' x' t' dt' k, r = Ok (c', w', x', t', dt', k) ->
       length (obs_of tr) = Datatypes.S k /\ last (obs_of tr) (x, t0) = (x', t')
       /\ (0 <= dir dt * (tend - t0) -> Rabs (tend - t') <= eps))
  /\ (forall e, r = Exc e -> e = StepAdjustment \/ exists w0 x0 t1, g w0 x0 t1 = Exc e)
  /\ (r = UB -> exists w0 x0 t1, g w0 x0 t1 = UB).
Proof.
  intros n g fuel c w x t0 tend dt tr r Hn Hd Ha H.
  assert (Pd : 0 < dir dt * dt) by (rewrite dir_abs; now apply Rabs_pos_lt).
  destruct (ia_loop_links eps Heps _ (fun _ _ _ => True) _ _ (dir_pm dt) (explicit_Hf n dt Hn Ha) g fuel tend c w x t0 dt 0 tr r
    Logic.I Pd H) as (A1 & A2 & A3 & A4 & A5).
  split; [exact A1|]. split; [exact (linked_impl _ _ (link_good n (dir dt) tend) _ A2)|]. split; [|auto].
  intros c' w' x' t' dt' k Hr. destruct (A3 _ _ _ _ _ _ Hr) as (B1 & B2 & B3 & B4 & _).
  split; [lia|]. split; [exact B2|]. intro Hs. apply (end_abs (dir dt)); [apply dir_pm|exact B3|apply B4; lra].
Qed.

Lemma adaptive_dopri5 : forall rs (g : W -> (I -> R) -> R -> res W) fuel c w x t0 tend dt tr r,
  cf_first c = true -> dt <> 0 -> agrees dt max_dt ->
  integrate_adaptive_ctrl (N := NN) (ctrl_step (made_dopri5 (N := NN) idx rpow sys abs rel max_dt rs))
    (user_obs g) (Datatypes.S fuel) c w x t0 tend dt = (tr, r) ->
  (exists l, obs_of tr = (x, t0) :: l)
  /\ linked (good_step eps (tab_of rk_dopri5) idx sys abs rel max_dt (dir dt) tend) (obs_of tr)
  /\ (forall c' w' x' t' dt' k, r = Ok (c', w', x', t', dt', k) ->
       length (obs_of tr) = Datatypes.S k /\ last (obs_of tr) (x, t0) = (x', t')
       /\ (0 <= dir dt * (tend - t0) -> Rabs (tend - t') <= eps))
  /\ (forall e, r = Exc e -> e = StepAdjustment \/ exists w0 x0 t1, g w0 x0 t1 = Exc e)
  /\ (r = UB -> exists w0 x0 t1, g w0 x0 t1 = UB).
Proof.
  intros rs g fuel c w x t0 tend dt tr r Hc Hd Ha H.
  assert (Pd : 0 < dir dt * dt) by (rewrite dir_abs; now apply Rabs_pos_lt).
  destruct (ia_loop_links eps Heps _ (fun s x t => cache_ok (N := NN) sys s x t) _ _ (dir_pm dt) (dopri5_Hf rs dt Ha) g fuel tend c w x t0 dt 0 tr r
    (or_introl Hc) Pd H) as (A1 & A2 & A3 & A4 & A5).
  split; [exact A1|]. split; [exact (linked_impl _ _ (link_good rk_dopri5 (dir dt) tend) _ A2)|]. split; [|auto].
  intros c' w' x' t' dt' k Hr. destruct (A3 _ _ _ _ _ _ Hr) as (B1 & B2 & B3 & B4 & _).
  split; [lia|]. split; [exact B2|]. intro Hs. apply (end_abs (dir dt)); [apply dir_pm|exact B3|apply B4; lra].
Qed.
End Made.

(** Polynomial right-hand sides along a list of steps. *)
Lemma linked_polynomial eps {I} (P : I -> list R) n idx abs rel max_dt sg tend :
  (forall i, (length (P i) <= Datatypes.S (rk_order n))%nat) ->
  forall l x t, (forall i, x i = peval (P i) t) ->
  linked (good_step eps (tab_of n) idx (fun _ s i => peval (pder (P i)) s) abs rel max_dt sg tend) ((x, t) :: l) ->
  Forall (fun p => forall i, fst p i = peval (P i) (snd p)) ((x, t) :: l).
Proof.
  intros HP. induction l as [|[y s] l IH]; intros x t Hx H.
  - repeat constructor. exact Hx.
  - destruct H as [(Hs & _) H]. cbn [fst snd] in Hs.
    constructor; [exact Hx|]. apply IH; [|exact H]. intro i.
    replace s with (t + (s - t)) by ring.
    apply (rk_polynomial eps (tab_of n) (tab_of n) (rk_order n) (twin_tab_of eps n) (wf_tab_of _ n)
           (tab_b (tab_of (N := QNum 0%Q) n)) (named_order n)) with (x := x); auto.
    symmetry. apply twin_tab_of.
Qed.


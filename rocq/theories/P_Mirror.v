(** Proofs of mirror symmetry. *)
From Coq Require Import List Arith ZArith Reals Lra Lia.
From Verif Require Import M_Num M_Sign M_Run M_Checker M_Plain M_Controlled M_Dense
  S_Check S_Mirror S_Real P_Run P_R.
Import ListNotations.
Local Open Scope R_scope.
Local Open Scope run_scope.

Lemma mirror_bind {X A B} (h : A -> A) (k : B -> B) (m : M (ev X R) A) (f f' : A -> M (ev X R) B) :
  (forall tr a, m = (tr, Ok a) -> f' (h a) = mirror k (f a)) ->
  bind (mirror h m) f' = mirror k (bind m f).
Proof.
  intros H. destruct m as [tr [a|e| |]]; unfold mirror, bind; cbn [fst snd map_res]; try reflexivity.
  rewrite (H tr a eq_refl). unfold mirror. destruct (f a) as [tr2 r]. cbn [fst snd]. now rewrite map_app.
Qed.
Lemma mirror_ret {X A} (h : A -> A) (a : A) : mirror (X := X) h (ret a) = ret (h a).
Proof. reflexivity. Qed.

Lemma mirror_fail {X A B} (k : B -> B) (r : res A) (f f' : A -> M (ev X R) B) :
  (forall a, f' a = mirror k (f a)) -> bind (fail r) f' = mirror k (bind (fail r) f).
Proof.
  intros H. unfold fail, bind. destruct r as [a|e| |]; try reflexivity. rewrite H.
  unfold mirror. destruct (f a). reflexivity.
Qed.

Section E.
Variable eps : R.
Hypothesis Heps : 0 <= eps.
Notation NN := (RNum eps).
Notation less := (@less_with_sign NN).
Notation leq := (@less_eq_with_sign NN).

Lemma dir_opp dt : dt <> 0 -> dir (- dt) = - dir dt.
Proof. intros H. destruct (dir_cases dt) as [[H1 ->]|[H1 ->]]; destruct (dir_cases (- dt)) as [[H2 ->]|[H2 ->]]; lra. Qed.

Lemma less_mir a b dt : dt <> 0 \/ a = b -> less (- a) (- b) (- dt) = less a b dt.
Proof.
  intros [H| ->].
  - destruct (less a b dt) eqn:E.
    + apply less_R in E. apply less_R. rewrite dir_opp by auto. lra.
    + apply less_R_false in E. apply less_R_false. rewrite dir_opp by auto. lra.
  - transitivity false; [|symmetry]; apply less_R_false; match goal with |- ?a <= _ => replace a with 0 by ring end; auto.
Qed.
Lemma leq_mir a b dt : dt <> 0 -> leq (- a) (- b) (- dt) = leq a b dt.
Proof.
  intros H. destruct (leq a b dt) eqn:E.
  - apply leq_R in E. apply leq_R. rewrite dir_opp by auto. lra.
  - apply leq_R_false in E. apply leq_R_false. rewrite dir_opp by auto. lra.
Qed.
Lemma Rltb_opp a b : Rltb (- a) (- b) = Rltb b a.
Proof. unfold Rltb. destruct (Rlt_dec (- a) (- b)), (Rlt_dec b a); auto; lra. Qed.
Lemma npos_mir dt : dt <> 0 -> @npos NN (- dt) = negb (@npos NN dt).
Proof. intros H. rewrite !npos_R. unfold Rltb. destruct (Rlt_dec 0 (- dt)), (Rlt_dec 0 dt); auto; lra. Qed.
Lemma min_abs_mir a b : a <> 0 -> @min_abs NN (- a) (- b) = - @min_abs NN a b.
Proof.
  intros H. unfold min_abs, nmin, nmax. rewrite npos_mir by auto. rnum. rewrite !Rltb_opp.
  destruct (@npos NN a); cbn [negb]; [destruct (Rltb b a)|destruct (Rltb a b)]; reflexivity.
Qed.
Lemma max_abs_mir a b : a <> 0 -> @max_abs NN (- a) (- b) = - @max_abs NN a b.
Proof.
  intros H. unfold max_abs, nmin, nmax. rewrite npos_mir by auto. rnum. rewrite !Rltb_opp.
  destruct (@npos NN a); cbn [negb]; [destruct (Rltb a b)|destruct (Rltb b a)]; reflexivity.
Qed.
Lemma min_abs_nz a b : a <> 0 -> b <> 0 -> @min_abs NN a b <> 0.
Proof. intros H1 H2. unfold min_abs, nmin, nmax. destruct (@npos NN a); [destruct (@nlt NN b a)|destruct (@nlt NN a b)]; auto. Qed.
Lemma max_abs_nz a b : a <> 0 -> b <> 0 -> @max_abs NN a b <> 0.
Proof. intros H1 H2. unfold max_abs, nmin, nmax. destruct (@npos NN a); [destruct (@nlt NN a b)|destruct (@nlt NN b a)]; auto. Qed.
Lemma less_nz a b dt : less a b dt = true -> b - a <> 0.
Proof. intros H. apply less_R in H. intros E. rewrite E in H. lra. Qed.

Section Plain.
Context {S W X : Type}.
Variable obs : W -> X -> R -> M (ev X R) W.
Variable do_step : S -> W -> X -> R -> R -> M (ev X R) (S * W * X).
Notation mobs := (mirror_obs obs).
Notation mdo := (mirror_do do_step).

Lemma obs_m w x t : mobs w x (- t) = mirror (fun w => w) (obs w x t).
Proof. unfold mirror_obs. now rewrite Ropp_involutive. Qed.
Lemma do_m s w x t dt : mdo s w x (- t) (- dt) = mirror (fun p => p) (do_step s w x t dt).
Proof. unfold mirror_do. now rewrite !Ropp_involutive. Qed.

Lemma grid_m (t0 c dt : R) : - t0 + c * - dt = - (t0 + c * dt).
Proof. ring. Qed.

Lemma ic_loop_m t0 tend dt : dt <> 0 -> forall fuel step s w x time,
  ic_loop (N := NN) mobs mdo fuel (- t0) (- tend) (- dt) step s w x (- time) =
  mirror (fun p => p) (ic_loop (N := NN) obs do_step fuel t0 tend dt step s w x time).
Proof.
  intros Hdt. induction fuel as [|fuel IH]; intros; cbn [ic_loop]; [reflexivity|].
  rnum. change (carrier NN) with R in *.
  replace (- time + - dt) with (- (time + dt)) by ring. rewrite leq_mir by auto. rewrite obs_m.
  destruct (leq (time + dt)%R tend dt).
  - apply mirror_bind. intros _ w1 _. rewrite do_m. apply mirror_bind. intros _ [[s2 w2] x2] _.
    rewrite grid_m. apply IH.
  - apply mirror_bind. reflexivity.
Qed.

Lemma integrate_const_m fuel s w x t0 tend dt : dt <> 0 ->
  integrate_const (N := NN) mobs mdo fuel s w x (- t0) (- tend) (- dt) =
  mirror (fun p => p) (integrate_const (N := NN) obs do_step fuel s w x t0 tend dt).
Proof. intros H. now apply ic_loop_m. Qed.

Lemma ins_loop_m t0 dt : forall todo step s w x time,
  ins_loop (N := NN) mobs mdo (- t0) (- dt) todo step s w x (- time) =
  mirror (fun p => let '(s, w, x, t) := p in (s, w, x, - t)) (ins_loop (N := NN) obs do_step t0 dt todo step s w x time).
Proof.
  induction todo as [|todo IH]; intros; cbn [ins_loop]; rewrite obs_m.
  - apply mirror_bind. reflexivity.
  - apply mirror_bind. intros _ w1 _. rewrite do_m. apply mirror_bind. intros _ [[s2 w2] x2] _.
    rnum. rewrite grid_m. apply IH.
Qed.

Lemma integrate_adaptive_m fuel s w x t0 tend dt : dt <> 0 ->
  integrate_adaptive_plain (N := NN) mobs mdo fuel s w x (- t0) (- tend) (- dt) =
  mirror (fun p => p) (integrate_adaptive_plain (N := NN) obs do_step fuel s w x t0 tend dt).
Proof.
  intros H. unfold integrate_adaptive_plain. rewrite integrate_const_m by auto. apply mirror_bind.
  intros _ [[[s1 w1] x1] n] _. cbn [fst snd]. rnum. change (carrier NN) with R in *.
  set (c := nofnat n). replace (- t0 + - dt * c) with (- (t0 + dt * c)) by ring. rewrite less_mir by auto.
  destruct (less (t0 + dt * c)%R tend dt); [|reflexivity].
  replace (- tend - - (t0 + dt * c)) with (- (tend - (t0 + dt * c))) by ring. rewrite do_m.
  apply mirror_bind. intros _ [[s2 w2] x2] _. rewrite obs_m. apply mirror_bind. reflexivity.
Qed.

Lemma it_inner_m dt target : dt <> 0 -> forall fuel s w x cur cdt steps, cdt <> 0 ->
  it_inner (N := NN) mdo fuel (- dt) (- target) s w x (- cur) (- cdt) steps =
  mirror (fun p => let '(s, w, x, c, n) := p in (s, w, x, - c, n))
    (it_inner (N := NN) do_step fuel dt target s w x cur cdt steps).
Proof.
  intros Hdt. induction fuel as [|fuel IH]; intros * Hc; cbn [it_inner]; [reflexivity|].
  rnum. change (carrier NN) with R in *. rewrite less_mir by auto.
  destruct (less cur target cdt) eqn:E; [|reflexivity].
  replace (- target - - cur) with (- (target - cur)) by ring. rewrite min_abs_mir by auto. rewrite do_m.
  apply mirror_bind. intros _ [[s2 w2] x2] _.
  replace (- cur + - min_abs (N := NN) dt (target - cur)%R) with (- (cur + min_abs (N := NN) dt (target - cur)%R)) by ring.
  apply IH. apply min_abs_nz; auto. now apply less_nz in E.
Qed.

Lemma it_inner_nz dt target : dt <> 0 -> forall fuel s w x cur cdt steps tr s' w' x' c n, cdt <> 0 ->
  it_inner (N := NN) do_step fuel dt target s w x cur cdt steps = (tr, Ok (s', w', x', c, n)) -> c <> 0.
Proof.
  intros Hdt. induction fuel as [|fuel IH]; intros * Hc H; cbn [it_inner] in H; [discriminate|].
  destruct (less cur target cdt) eqn:E.
  - apply bind_ok_inv in H as (tr1 & [[s2 w2] x2] & tr2 & _ & H & _). apply IH in H; auto.
    apply min_abs_nz; auto. now apply less_nz in E.
  - now injection H as _ _ _ _ <- _.
Qed.

Lemma it_outer_m fuel dt : dt <> 0 -> forall times s w x cdt steps, cdt <> 0 ->
  it_outer (N := NN) mobs mdo fuel (- dt) (map Ropp times) s w x (- cdt) steps =
  mirror (fun p => p) (it_outer (N := NN) obs do_step fuel dt times s w x cdt steps).
Proof.
  intros Hdt. induction times as [|t rest IH]; intros * Hc; cbn [it_outer map]; [reflexivity|].
  rewrite obs_m. apply mirror_bind. intros _ w1 _.
  destruct rest as [|target rest']; [reflexivity|]. cbn [map].
  rewrite it_inner_m by auto. apply mirror_bind. intros tr [[[[s2 w2] x2] c2] n2] H.
  apply IH. eapply it_inner_nz; [exact Hdt|exact Hc|exact H].
Qed.
Lemma integrate_times_m fuel s w x times dt : dt <> 0 ->
  integrate_times_plain (N := NN) mobs mdo fuel s w x (map Ropp times) (- dt) =
  mirror (fun p => p) (integrate_times_plain (N := NN) obs do_step fuel s w x times dt).
Proof. intros H. now apply it_outer_m. Qed.
End Plain.

Section Ctrl.
Context {S W X : Type}.
Variable obs : W -> X -> R -> M (ev X R) W.
Variable try_step : S -> W -> X -> R -> R -> M (ev X R) (S * W * X * R * R * bool).
Hypothesis Hnz : forall s w x t dt tr s' w' x' t' dt' ok, dt <> 0 ->
  try_step s w x t dt = (tr, Ok (s', w', x', t', dt', ok)) -> dt' <> 0.
Notation mobs := (mirror_obs obs).
Notation mtry := (mirror_try try_step).

Lemma try_m s w x t dt : mtry s w x (- t) (- dt) = mirror mirror_try_res (try_step s w x t dt).
Proof. unfold mirror_try. now rewrite !Ropp_involutive. Qed.

Lemma try_loop_m : forall fuel cnt s w x t dt,
  try_loop (N := NN) mtry fuel cnt s w x (- t) (- dt) =
  mirror (fun p => let '(s, w, x, t, dt) := p in (s, w, x, - t, - dt)) (try_loop (N := NN) try_step fuel cnt s w x t dt).
Proof.
  induction fuel as [|fuel IH]; intros; cbn [try_loop]; [reflexivity|].
  rewrite try_m. apply mirror_bind. intros _ [[[[[s1 w1] x1] t1] dt1] ok] _. cbn [mirror_try_res].
  apply mirror_fail. intros c1. destruct ok; [reflexivity|apply IH].
Qed.
Lemma try_loop_nz : forall fuel cnt s w x t dt tr s1 w1 x1 t1 dt1, dt <> 0 ->
  try_loop (N := NN) try_step fuel cnt s w x t dt = (tr, Ok (s1, w1, x1, t1, dt1)) -> dt1 <> 0.
Proof.
  induction fuel as [|fuel IH]; intros * Hdt H; cbn [try_loop] in H; [discriminate|].
  apply bind_ok_inv in H as (tr1 & [[[[[s2 w2] x2] t2] dt2] ok] & tr2 & H1 & H & _).
  apply Hnz in H1; auto. apply bind_ok_inv in H as (tr3 & cnt1 & tr4 & _ & H & _).
  destruct ok; [now injection H as _ _ _ _ _ <-|]. eapply IH; [|exact H]; auto.
Qed.

Definition ia_h (p : S * W * X * R * R * nat) := let '(s, w, x, t, dt, n) := p in (s, w, x, - t, - dt, n).

Lemma ia_loop_m (ob mob : W -> X -> R -> M (ev X R) W) tend :
  (forall w x t, mob w x (- t) = mirror (fun w => w) (ob w x t)) ->
  forall fuel s w x t dt count, dt <> 0 ->
  ia_loop (N := NN) mtry mob fuel (- tend) s w x (- t) (- dt) count =
  mirror ia_h (ia_loop (N := NN) try_step ob fuel tend s w x t dt count).
Proof.
  intros Hob. induction fuel as [|fuel IH]; intros * Hdt; [reflexivity|].
  cbn -[try_loop default_max_steps Nat.add less_with_sign bind]. change (carrier NN) with R in *.
  rewrite less_mir by auto. rewrite Hob. destruct (less t tend dt) eqn:E.
  - apply mirror_bind. intros _ w1 _.
    replace (- t + - dt) with (- (t + dt)) by ring. rewrite less_mir by auto.
    set (dt1 := if less tend (t + dt)%R dt then tend - t else dt).
    replace (if less tend (t + dt)%R dt then - tend - - t else - dt) with (- dt1)
      by (unfold dt1; destruct (less tend (t + dt)%R dt); ring).
    assert (Hd1 : dt1 <> 0) by (unfold dt1; destruct (less tend (t + dt)%R dt); auto; now apply less_nz in E).
    rewrite try_loop_m. apply mirror_bind. intros tr [[[[s2 w2] x2] t2] dt2] H. apply IH.
    eapply try_loop_nz; [|exact H]. auto.
  - apply mirror_bind. reflexivity.
Qed.
Lemma ia_loop_nz (ob : W -> X -> R -> M (ev X R) W) tend : forall fuel s w x t dt count tr s1 w1 x1 t1 dt1 n, dt <> 0 ->
  ia_loop (N := NN) try_step ob fuel tend s w x t dt count = (tr, Ok (s1, w1, x1, t1, dt1, n)) -> dt1 <> 0.
Proof.
  induction fuel as [|fuel IH]; intros * Hdt H; [discriminate|].
  cbn -[try_loop default_max_steps Nat.add less_with_sign bind] in H. change (carrier NN) with R in *.
  destruct (less t tend dt) eqn:E.
  - apply bind_ok_inv in H as (tr1 & w2 & tr2 & _ & H & _).
    apply bind_ok_inv in H as (tr3 & [[[[s2 w3] x2] t2] dt2] & tr4 & H1 & H & _).
    eapply IH; [|exact H]. eapply try_loop_nz; [|exact H1].
    destruct (less tend (t + dt)%R dt); auto. now apply less_nz in E.
  - apply bind_ok_inv in H as (tr1 & w2 & tr2 & _ & H & _). now injection H as _ _ _ _ _ <- _.
Qed.

Lemma integrate_adaptive_ctrl_m fuel s w x t0 tend dt : dt <> 0 ->
  integrate_adaptive_ctrl (N := NN) mtry mobs fuel s w x (- t0) (- tend) (- dt) =
  mirror ia_h (integrate_adaptive_ctrl (N := NN) try_step obs fuel s w x t0 tend dt).
Proof. intros H. apply ia_loop_m; auto. intros. apply obs_m. Qed.

Lemma icc_loop_m t0 tend ts : forall fuel step real s w x time dt, dt <> 0 ->
  icc_loop (N := NN) mtry mobs fuel (- t0) (- tend) (- ts) step real s w x (- time) (- dt) =
  mirror (fun p => p) (icc_loop (N := NN) try_step obs fuel t0 tend ts step real s w x time dt).
Proof.
  induction fuel as [|fuel IH]; intros * Hdt; cbn [icc_loop]; [reflexivity|].
  rnum. change (carrier NN) with R in *. replace (- time + - ts) with (- (time + ts)) by ring. rewrite leq_mir by auto.
  rewrite obs_m. destruct (leq (time + ts)%R tend dt); [|apply mirror_bind; reflexivity].
  apply mirror_bind. intros _ w1 _. unfold integrate_adaptive_ctrl. rewrite (ia_loop_m null_obs null_obs) by (auto || reflexivity).
  apply mirror_bind. intros tr [[[[[s2 w2] x2] t2] dt2] k] H. cbn [ia_h].
  rewrite grid_m. apply IH. eapply ia_loop_nz; [|exact H]. auto.
Qed.
Lemma integrate_const_ctrl_m fuel s w x t0 tend dt : dt <> 0 ->
  integrate_const_ctrl (N := NN) mtry mobs fuel s w x (- t0) (- tend) (- dt) =
  mirror (fun p => p) (integrate_const_ctrl (N := NN) try_step obs fuel s w x t0 tend dt).
Proof. intros H. now apply icc_loop_m. Qed.

Lemma itc_inner_m target : forall fuel cnt s w x cur dt steps, dt <> 0 ->
  itc_inner (N := NN) mtry fuel (- target) cnt s w x (- cur) (- dt) steps =
  mirror (fun p => let '(s, w, x, d, c, n) := p in (s, w, x, - d, c, n))
   (itc_inner (N := NN) try_step fuel target cnt s w x cur dt steps).
Proof.
  induction fuel as [|fuel IH]; intros * Hdt; cbn [itc_inner]; [reflexivity|].
  rnum. change (carrier NN) with R in *. rewrite less_mir by auto.
  destruct (less cur target dt) eqn:E; [|reflexivity].
  replace (- target - - cur) with (- (target - cur)) by ring. rewrite min_abs_mir by auto. rewrite try_m.
  assert (Hm : @min_abs NN dt (target - cur)%R <> 0) by (apply min_abs_nz; auto; now apply less_nz in E).
  apply mirror_bind. intros tr [[[[[s1 w1] x1] t1] dt1] ok] H. cbn [mirror_try_res]. apply Hnz in H; auto.
  destruct ok.
  - rewrite max_abs_mir by auto. apply IH. apply max_abs_nz; auto.
  - apply mirror_fail. intros c1. now apply IH.
Qed.
Lemma itc_inner_nz target : forall fuel cnt s w x cur dt steps tr s' w' x' d c n, dt <> 0 ->
  itc_inner (N := NN) try_step fuel target cnt s w x cur dt steps = (tr, Ok (s', w', x', d, c, n)) -> d <> 0.
Proof.
  induction fuel as [|fuel IH]; intros * Hdt H; cbn [itc_inner] in H; [discriminate|].
  rnum. change (carrier NN) with R in *.
  destruct (less cur target dt) eqn:E.
  - assert (Hm : @min_abs NN dt (target - cur)%R <> 0) by (apply min_abs_nz; auto; now apply less_nz in E).
    apply bind_ok_inv in H as (tr1 & [[[[[s2 w2] x2] t2] dt2] ok] & tr2 & H1 & H & _).
    apply Hnz in H1; auto. destruct ok.
    + eapply IH; [|exact H]. apply max_abs_nz; auto.
    + apply bind_ok_inv in H as (tr3 & cnt1 & tr4 & _ & H & _). eapply IH; [|exact H]. auto.
  - now injection H as _ _ _ _ <- _ _.
Qed.
Lemma itc_outer_m fuel : forall times cnt s w x dt steps, dt <> 0 ->
  itc_outer (N := NN) mtry mobs fuel (map Ropp times) cnt s w x (- dt) steps =
  mirror (fun p => p) (itc_outer (N := NN) try_step obs fuel times cnt s w x dt steps).
Proof.
  induction times as [|t rest IH]; intros * Hc; cbn [itc_outer map]; [reflexivity|].
  rewrite obs_m. apply mirror_bind. intros _ w1 _.
  destruct rest as [|target rest']; [reflexivity|]. cbn [map].
  rewrite itc_inner_m by auto. apply mirror_bind. intros tr [[[[[s2 w2] x2] d2] c2] n2] H.
  apply IH. eapply itc_inner_nz; [|exact H]; auto.
Qed.
Lemma integrate_times_ctrl_m fuel s w x times dt : dt <> 0 ->
  integrate_times_ctrl (N := NN) mtry mobs fuel s w x (map Ropp times) (- dt) =
  mirror (fun p => p) (integrate_times_ctrl (N := NN) try_step obs fuel s w x times dt).
Proof. intros H. now apply itc_outer_m. Qed.
End Ctrl.
Section Dense.
Context {S W X : Type}.
Variable obs : W -> X -> R -> M (ev X R) W.
Variable D : DenseOps NN S W X.
Notation mobs := (mirror_obs obs).
Notation mD := (mirror_dense eps D).
Hypothesis Hit : forall s x t dt, d_t D (d_init D s x t dt) = t.
Hypothesis Hidt : forall s x t dt, d_dt D (d_init D s x t dt) = dt.
Hypothesis Hstep : forall s w tr s' w', d_dt D s <> 0 -> d_step D s w = (tr, Ok (s', w')) ->
  0 < dir (d_dt D s) * d_dt D s'.

Lemma Hnz' s w tr s' w' : d_dt D s <> 0 -> d_step D s w = (tr, Ok (s', w')) -> d_dt D s' <> 0.
Proof. intros H1 H2. pose proof (Hstep _ _ _ _ _ H1 H2) as H. intros E. rewrite E, Rmult_0_r in H. lra. Qed.

Lemma init_m s x t dt : call_init mD s x (- t) (- dt) = mirror (fun s => s) (call_init D s x t dt).
Proof. unfold call_init, mirror. cbn. now rewrite !Ropp_involutive. Qed.
Lemma calc_m s t : call_calc mD s (- t) = mirror (fun x => x) (call_calc D s t).
Proof. unfold call_calc, mirror. cbn. now rewrite !Ropp_involutive. Qed.
Lemma step_m s w : d_step mD s w = mirror (fun p => p) (d_step D s w).
Proof. reflexivity. Qed.
Lemma t_m s : d_t mD s = - d_t D s. Proof. reflexivity. Qed.
Lemma dt_m s : d_dt mD s = - d_dt D s. Proof. reflexivity. Qed.
Lemma x_m s : d_x mD s = d_x D s. Proof. reflexivity. Qed.
Lemma reinit_m s tend : reinit_to mD s (- tend) = mirror (fun s => s) (reinit_to D s tend).
Proof.
  unfold reinit_to. rewrite t_m, x_m. rnum. replace (- tend - - d_t D s) with (- (tend - d_t D s)) by ring. apply init_m.
Qed.
Lemma sum_m a b : - a + - b = - (a + b). Proof. ring. Qed.

Lemma iad_inner_m tend : forall fuel s w count, d_dt D s <> 0 ->
  iad_inner mD mobs fuel (- tend) s w count = mirror (fun p => p) (iad_inner D obs fuel tend s w count).
Proof.
  induction fuel as [|fuel IH]; intros * Hdt; cbn [iad_inner]; [reflexivity|].
  rewrite t_m, dt_m, x_m. rnum. rewrite sum_m, leq_mir by auto. change (carrier NN) with R in *.
  destruct (leq (d_t D s + d_dt D s)%R tend (d_dt D s)); [|reflexivity].
  rewrite obs_m. apply mirror_bind. intros _ w1 _. rewrite step_m. apply mirror_bind. intros tr [s2 w2] H.
  apply IH. eapply Hnz'; eauto.
Qed.
Lemma iad_outer_m tend : forall fuel s w count, d_dt D s <> 0 \/ d_t D s = tend ->
  iad_outer mD mobs fuel (- tend) s w count = mirror (fun p => p) (iad_outer D obs fuel tend s w count).
Proof.
  induction fuel as [|fuel IH]; intros * Hdt; cbn [iad_outer]; [reflexivity|].
  rewrite t_m, dt_m. rnum. rewrite less_mir by auto. change (carrier NN) with R in *.
  destruct (less (d_t D s) tend (d_dt D s)) eqn:E; [|reflexivity].
  assert (Hn : d_dt D s <> 0).
  { destruct Hdt as [|H]; auto. apply less_nz in E. rewrite H in E. lra. }
  rewrite iad_inner_m by auto. apply mirror_bind. intros tr [[s1 w1] c1] H1. rewrite reinit_m.
  apply mirror_bind. intros tr2 s2 H2. apply IH.
  unfold reinit_to, call_init in H2. injection H2 as _ <-. rewrite Hit, Hidt.
  destruct (Req_dec (tend - d_t D s1) 0) as [E0|E0]; [right|left]; rnum; lra.
Qed.
Lemma integrate_adaptive_dense_m fuel s w x t0 tend dt : dt <> 0 ->
  integrate_adaptive_dense mD mobs fuel s w x (- t0) (- tend) (- dt) =
  mirror (fun p => p) (integrate_adaptive_dense D obs fuel s w x t0 tend dt).
Proof.
  intros Hdt. unfold integrate_adaptive_dense. rewrite init_m. apply mirror_bind. intros tr s1 H1.
  injection H1 as _ <-. rewrite iad_outer_m by (left; now rewrite Hidt). apply mirror_bind. intros _ [[s2 w2] n] _.
  rewrite t_m, x_m, obs_m. apply mirror_bind. reflexivity.
Qed.

Lemma icd_obs_m t0 dt : dt <> 0 -> forall fuel s w x time k,
  icd_obs mD mobs fuel (- t0) (- dt) s w x (- time) k =
  mirror (fun p => let '(w, x, t, k) := p in (w, x, - t, k)) (icd_obs D obs fuel t0 dt s w x time k).
Proof.
  intros Hdt. induction fuel as [|fuel IH]; intros; cbn [icd_obs]; [reflexivity|].
  rewrite t_m. rewrite leq_mir by auto. change (carrier NN) with R in *.
  destruct (leq time (d_t D s) dt); [|reflexivity].
  rewrite calc_m. apply mirror_bind. intros _ x1 _. rewrite obs_m. apply mirror_bind. intros _ w1 _.
  rnum. rewrite grid_m. apply IH.
Qed.
Lemma icd_steps_m dt time : dt <> 0 -> forall fuel s w real,
  icd_steps mD fuel (- dt) (- time) s w real = mirror (fun p => p) (icd_steps D fuel dt time s w real).
Proof.
  intros Hdt. induction fuel as [|fuel IH]; intros; cbn [icd_steps]; [reflexivity|].
  rewrite t_m. rewrite leq_mir by auto. change (carrier NN) with R in *.
  destruct (leq (d_t D s) time dt); [|reflexivity].
  rewrite step_m. apply mirror_bind. intros _ [s1 w1] _. apply IH.
Qed.
Lemma icd_steps_nz dt time : forall fuel s w real tr s' w' r', d_dt D s <> 0 ->
  icd_steps D fuel dt time s w real = (tr, Ok (s', w', r')) -> d_dt D s' <> 0.
Proof.
  induction fuel as [|fuel IH]; intros * Hn H; cbn [icd_steps] in H; [discriminate|].
  destruct (leq (d_t D s) time dt).
  - apply bind_ok_inv in H as (tr1 & [s1 w1] & tr2 & H1 & H & _). eapply IH; [|exact H]. eapply Hnz'; eauto.
  - now injection H as _ <- _ _.
Qed.
Lemma icd_loop_m t0 tend dt : dt <> 0 -> forall fuel s w x time k real, d_dt D s <> 0 ->
  icd_loop mD mobs fuel (- t0) (- tend) (- dt) s w x (- time) k real =
  mirror (fun p => p) (icd_loop D obs fuel t0 tend dt s w x time k real).
Proof.
  intros Hdt. induction fuel as [|fuel IH]; intros * Hn; cbn [icd_loop]; [reflexivity|].
  rnum. rewrite sum_m. rewrite !leq_mir by auto. change (carrier NN) with R in *.
  destruct (leq (time + dt)%R tend dt).
  - rewrite icd_obs_m by auto. apply mirror_bind. intros _ [[[w1 x1] time1] k1] _.
    rewrite t_m, dt_m, sum_m. rewrite !less_mir by auto.
    set (blk := if less (d_t D s + d_dt D s)%R tend (d_dt D s) then icd_steps D fuel dt time1 s w1 real
      else if less (d_t D s) tend (d_dt D s)
      then let* s' := reinit_to D s tend in let* (s'', w'') := d_step D s' w1 in ret (s'', w'', Datatypes.S real)
      else ret (s, w1, real)).
    transitivity (bind (mirror (fun p => p) blk) (fun a => let '(s2, w2, real2) := a in
        icd_loop mD mobs fuel (- t0) (- tend) (- dt) s2 w2 x1 (- time1) k1 real2)).
    + f_equal. unfold blk. destruct (less (d_t D s + d_dt D s)%R tend (d_dt D s)); [now apply icd_steps_m|].
      destruct (less (d_t D s) tend (d_dt D s)); [|reflexivity].
      rewrite reinit_m. apply mirror_bind. intros _ s' _. rewrite step_m. apply mirror_bind. intros _ [s'' w''] _. reflexivity.
    + apply mirror_bind. intros tr [[s2 w2] r2] H. apply IH. unfold blk in H.
      destruct (less (d_t D s + d_dt D s)%R tend (d_dt D s)); [eapply icd_steps_nz; eauto|].
      destruct (less (d_t D s) tend (d_dt D s)) eqn:E.
      * apply bind_ok_inv in H as (tr1 & s' & tr2 & H1 & H & _).
        apply bind_ok_inv in H as (tr3 & [s'' w''] & tr4 & H2 & H & _). injection H as _ <- _ _.
        eapply Hnz'; [|exact H2]. injection H1 as _ <-. rewrite Hidt. now apply less_nz in E.
      * now injection H as _ <- _ _.
  - destruct (leq time tend dt); [|reflexivity].
    rewrite calc_m. apply mirror_bind. intros _ x1 _. rewrite obs_m. apply mirror_bind. reflexivity.
Qed.
Lemma integrate_const_dense_m fuel s w x t0 tend dt : dt <> 0 ->
  integrate_const_dense mD mobs fuel s w x (- t0) (- tend) (- dt) =
  mirror (fun p => p) (integrate_const_dense D obs fuel s w x t0 tend dt).
Proof.
  intros Hdt. unfold integrate_const_dense. rewrite init_m. apply mirror_bind. intros tr s1 H1.
  injection H1 as _ <-. rewrite obs_m. apply mirror_bind. intros _ w1 _. rnum. rewrite sum_m.
  apply icd_loop_m; auto. now rewrite Hidt.
Qed.

Lemma itd_obs_m : forall times s w x, d_dt D s <> 0 ->
  itd_obs mD mobs (map Ropp times) s w x =
  bind (mirror (fun p => p) (itd_obs D obs times s w x)) (fun '(l, w, x) => ret (map Ropp l, w, x)).
Proof.
  induction times as [|t rest IH]; intros * Hn; cbn [itd_obs map]; [reflexivity|].
  rewrite t_m, dt_m, leq_mir by auto. change (carrier NN) with R in *.
  destruct (leq t (d_t D s) (d_dt D s)); [|reflexivity].
  rewrite calc_m. erewrite <- (mirror_bind (fun x => x)) by (intros; reflexivity). rewrite bind_assoc. apply bind_ext.
  intros x1. rewrite obs_m. erewrite <- (mirror_bind (fun x => x)) by (intros; reflexivity). rewrite bind_assoc. apply bind_ext.
  intros w1. now apply IH.
Qed.
(** What remains after the observation loop: either nothing, or a time strictly ahead. *)
Lemma itd_obs_left : forall times s w x tr l w' x',
  itd_obs D obs times s w x = (tr, Ok (l, w', x')) ->
  (exists p, times = p ++ l) /\
  match l with [] => True | t :: _ => leq t (d_t D s) (d_dt D s) = false end.
Proof.
  induction times as [|t rest IH]; intros * H; cbn [itd_obs] in H.
  - injection H as _ <- _ _. split; auto. now exists [].
  - destruct (leq t (d_t D s) (d_dt D s)) eqn:E.
    + apply bind_ok_inv in H as (tr1 & x1 & tr2 & _ & H & _).
      apply bind_ok_inv in H as (tr3 & w1 & tr4 & _ & H & _). apply IH in H as [[p ->] H]. split; auto.
      exists (t :: p). reflexivity.
    + injection H as _ <- _ _. split; auto. now exists [].
Qed.

Lemma itd_loop_m sg last : forall fuel times s w x count,
  d_dt D s <> 0 -> dir (d_dt D s) = sg -> Forall (fun t => 0 <= sg * (last - t)) times ->
  itd_loop mD mobs fuel (- last) (map Ropp times) s w x count =
  mirror (fun p => p) (itd_loop D obs fuel last times s w x count).
Proof.
  induction fuel as [|fuel IH]; intros * Hn Hsg Hl; cbn [itd_loop]; [reflexivity|].
  change (carrier NN) with R in *.
  destruct times as [|t rest]; [reflexivity|]. cbn [map].
  change (- t :: map Ropp rest) with (map Ropp (t :: rest)).
  rewrite itd_obs_m by auto. rewrite bind_assoc. apply mirror_bind. intros tr [[l1 w1] x1] H1. rewrite bind_ret_l.
  apply itd_obs_left in H1 as [[p Hp] H1].
  assert (Hl1 : Forall (fun t => 0 <= sg * (last - t)) l1).
  { change (carrier NN) with R in *. rewrite Hp in Hl. now apply Forall_app in Hl. }
  rewrite t_m, dt_m. rnum. rewrite sum_m, leq_mir by auto. change (carrier NN) with R in *.
  destruct (leq (d_t D s + d_dt D s)%R last (d_dt D s)).
  - rewrite step_m. apply mirror_bind. intros tr2 [s2 w2] H2. pose proof (Hstep _ _ _ _ _ Hn H2) as Hd.
    apply IH; auto.
    + eapply Hnz'; eauto.
    + now rewrite (dir_eq_of_pos _ _ Hd).
  - destruct l1 as [|t1 l1].
    + cbn [map]. apply (IH []); auto.
    + cbn [map]. rewrite reinit_m. apply mirror_bind. intros tr2 s' H2. injection H2 as _ <-.
      apply leq_R_false in H1. pose proof (Forall_inv Hl1) as Ht1. cbn beta in Ht1. rewrite Hsg in H1.
      assert (Hlt : 0 < sg * (last - d_t D s)).
      { replace (last - d_t D s) with ((last - t1) + (t1 - d_t D s)) by ring. rewrite Rmult_plus_distr_l.
        change (carrier NN) with R in *. lra. }
      rewrite step_m. apply mirror_bind. intros tr3 [s2 w2] H2.
      assert (Hn' : d_dt D (d_init D s (d_x D s) (d_t D s) (last - d_t D s)%R) <> 0).
      { rewrite Hidt. rnum. intros E. rewrite E, Rmult_0_r in Hlt. lra. }
      pose proof (Hstep _ _ _ _ _ Hn' H2) as Hd.
      change (- t1 :: map Ropp l1) with (map Ropp (t1 :: l1)).
      apply IH; auto.
      * eapply Hnz'; eauto.
      * rewrite (dir_eq_of_pos _ _ Hd). rewrite Hidt. rnum. rewrite <- Hsg in *. now apply dir_eq_of_pos.
Qed.

Lemma last_opp : forall (l : list R) d, List.last (map Ropp l) (- d) = - List.last l d.
Proof. induction l as [|a [|b l] IH]; intros; try reflexivity. apply IH. Qed.

Lemma last_any : forall (l : list R) a d d', List.last (a :: l) d = List.last (a :: l) d'.
Proof. induction l as [|b l IH]; intros; [reflexivity|]. apply (IH b). Qed.

Lemma integrate_times_dense_m fuel s w x times dt : dt <> 0 ->
  Forall (fun t => 0 <= dir dt * (List.last times 0 - t)) times ->
  integrate_times_dense mD mobs fuel s w x (map Ropp times) (- dt) =
  mirror (fun p => p) (integrate_times_dense D obs fuel s w x times dt).
Proof.
  intros Hdt Hl. unfold integrate_times_dense. destruct times as [|t rest]; [reflexivity|]. cbn [map].
  rewrite init_m. apply mirror_bind. intros tr s1 H1. injection H1 as _ <-. rewrite obs_m.
  apply mirror_bind. intros _ w1 _.
  change (- t :: map Ropp rest) with (map Ropp (t :: rest)). rewrite last_opp.
  apply (itd_loop_m (dir dt)).
  - now rewrite Hidt.
  - now rewrite Hidt.
  - apply Forall_inv_tail in Hl.
    change (carrier NN) with R. rewrite (last_any rest t t 0). exact Hl.
Qed.
End Dense.
End E.

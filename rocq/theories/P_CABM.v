(** Runs of controlled_adams_bashforth_moulton in any arithmetic. *)
From Coq Require Import ZArith List Bool Arith Lia.
From Verif Require Import M_Num M_Run M_RK M_CtrlRK M_Midpoint M_Adams M_AABM S_Adams S_AABM P_BS P_Adams P_AABM P_AABM2.
Import ListNotations.
Local Open Scope res_scope.

Section Gen.
Context {N : Num} {I : Type}.
Local Open Scope num_scope.
Notation hist := (list (N * vec N I)).
Variable ov : nat.
Hypothesis Hov : (1 <= ov)%nat.
Notation inv := (inv (N := N) (I := I) ov).
Notation mid := (mid (N := N) (I := I) ov).
Notation shape := (shape (N := N) (I := I) ov).
Context {PA : Type}.
Variable norm : vec N I -> N.
Variable adjust_stepsize : PA -> nat -> N -> vec N I -> vec N I -> vec N I -> PA * vec N I * N.
Variable threshold : N.
Notation try := (cabm_try ov norm adjust_stepsize threshold).

Lemma vset_len {A} (l : list A) k a l' : vset l k a = Ok l' -> length l' = length l.
Proof.
  revert k l'. induction l as [|b l IH]; intros k l'; [intro E; discriminate E|]. destruct k as [|k]; cbn [vset].
  - intro E. injection E as <-. reflexivity.
  - destruct (vset l k a) as [r| | |] eqn:Er; cbn [rbind]; try (intro E; discriminate E). intro E. injection E as <-. cbn [length]. f_equal. now apply (IH k).
Qed.
Lemma est_len (s : aac N I) dt j k xe xe' : est s dt j k xe = Ok xe' -> length xe' = length xe.
Proof.
  unfold est. destruct (get2 3 (a_phi s) 1 j) as [p| | |]; cbn [rbind]; try (intro E; discriminate E).
  destruct (vget gs j) as [g| | |]; cbn [rbind]; try (intro E; discriminate E). apply vset_len.
Qed.
Lemma est_ok (s : aac N I) dt j k xe : sh2 3 (ov + 2) (a_phi s) -> (j <= ov)%nat -> (ov <= 13)%nat -> (k < length xe)%nat ->
  exists xe', est s dt j k xe = Ok xe' /\ length xe' = length xe.
Proof.
  intros Hp Hj Ho Hk. unfold est. destruct (get2_ok 3 (ov + 2) ltac:(lia) (a_phi s) 1 j Hp ltac:(lia)) as (p & Ep). rewrite Ep. cbn [rbind].
  destruct (vget_Ok_lt (gs (N := N)) j) as (g & Eg); [change (j < 14)%nat; lia|]. rewrite Eg. cbn [rbind].
  match goal with |- context [vset xe k ?a] => destruct (vset_lt xe k a Hk) as (xe' & E & L & _) end. eauto.
Qed.
Lemma order_ok order init (xe : list (vec N I)) : length xe = 4%nat -> (1 <= order <= ov)%nat -> (order <= init)%nat ->
  exists r, adjust_order ov norm order init xe = Ok r /\ (1 <= r <= ov)%nat /\ (r <= order + 1)%nat /\ (order <= r + 1)%nat.
Proof.
  intros L Ho Hi. destruct xe as [|e0 [|e1 [|e2 [|e3 [|? ?]]]]]; try discriminate L.
  unfold adjust_order. cbn [vget rbind nth_error]. change (vget [e0; e1; e2; e3] 2) with (Ok e2). cbn [rbind].
  change (vget [e0; e1; e2; e3] 0) with (Ok e0). change (vget [e0; e1; e2; e3] 1) with (Ok e1). change (vget [e0; e1; e2; e3] 3) with (Ok e3). cbn [rbind].
  destruct (Nat.ltb_spec 2 order) as [A|A]; destruct (Nat.leb_spec 2 order) as [B|B]; try lia; cbn [rbind]; cbv zeta;
  repeat match goal with
       | |- context [(init <? order)%nat] => destruct (Nat.ltb_spec init order); [lia|]
       | |- context [(order <=? ov)%nat] => destruct (Nat.leb_spec order ov); [|lia]
       | |- context [(order =? 2)%nat] => destruct (Nat.eqb_spec order 2)
       | |- context [(1 <? order)%nat] => destruct (Nat.ltb_spec 1 order)
       | |- context [(order <? ov)%nat] => destruct (Nat.ltb_spec order ov)
       end; cbn [andb];
     repeat match goal with
       | |- context [if ?b then (order - 1)%nat else _] => destruct b
       | |- context [(?a =? order - 1)%nat] => destruct (Nat.eqb_spec a (order - 1)%nat)
       | |- context [if ?b then Ok _ else _] => destruct b
       end; try (eexists; split; [reflexivity|]; lia).
Qed.

Lemma try_spec sys s x t dt c1 out dxdt e2 log : shape c1 -> length (cm_xerr s) = 4%nat ->
  aabm_impl ov sys (cm_coeff s) x t dt = Ok (c1, out, dxdt, e2, log) ->
  ((ov <= 13)%nat -> exists r, try sys s x t dt = Ok r) /\
  forall s' b out' t' dt', try sys s x t dt = Ok (s', b, out', t', dt') ->
    out' = out /\ length (cm_xerr s') = 4%nat /\ b = (threshold <=? dt' / dt) /\
    (if b then exists c2 eo', aac_do_step ov c1 (sys out (t + dt)) 0 = Ok c2 /\ cm_coeff s' = set_eo (aac_confirm ov c2) eo'
          /\ (1 <= eo' <= ov)%nat /\ (eo' <= a_eo c1 + 1)%nat /\ (a_eo c1 <= eo' + 1)%nat /\ t' = t + dt
     else cm_coeff s' = c1 /\ t' = t).
Proof.
  intros Hs L E. unfold cabm_try. rewrite E. cbn [rbind].
  destruct (adjust_stepsize (cm_adj s) (a_eo c1) dt e2 out dxdt) as [[pa e2'] dt1].
  destruct (vset_lt (cm_xerr s) 2 e2') as (xe0 & E0 & L0 & _); [lia|]. rewrite E0. cbn [rbind]. rewrite L in L0.
  destruct (threshold <=? dt1 / dt) eqn:Eth; [|split; [intros _; eauto|]; intros s' b out' t' dt' Q; injection Q as <- <- <- <- <-; cbn [cm_xerr cm_coeff]; auto].
  destruct (do_step_shape ov Hov c1 (sys out (t + dt)) 0 Hs ltac:(lia)) as (c2 & E2 & Hs2 & P1 & P2 & _). rewrite E2. cbn [rbind].
  pose proof Hs as [Z1 Z2 _ _ _ _ _ _ _ _ _].
  assert (Z3 : (a_eo c1 <= Nat.min (a_si c1 + 1) (ov + 1))%nat) by lia.
  destruct (confirm_shape ov Hov c2 (a_eo c1) Hs2) as (Hs3 & P3); [lia|lia|]. rewrite P2 in P3.
  pose proof (sh_phi ov _ Hs3) as Hp. cbn [set_eo a_phi] in Hp.
  change (a_eo (aac_confirm ov c2)) with (a_eo c2). rewrite P1.
  set (c3 := aac_confirm ov c2) in *.
  assert (Hi : (a_eo c1 <= a_si c3 - 1)%nat) by lia.
  split.
  - intro Ho.
    destruct (est_ok c3 dt1 (a_eo c1) 2 xe0 Hp ltac:(lia) Ho ltac:(lia)) as (xe1 & E3 & L1). rewrite E3. cbn [rbind].
    assert (Y2 : exists xe2, (if (1 <? a_eo c1)%nat then est c3 dt1 (a_eo c1 - 1) 1 xe1 else Ok xe1) = Ok xe2 /\ length xe2 = length xe1).
    { destruct (1 <? a_eo c1)%nat; [apply est_ok; (exact Hp || lia)|eauto]. }
    destruct Y2 as (xe2 & E4 & L2). rewrite E4. cbn [rbind].
    assert (Y3 : exists xe3, (if (2 <? a_eo c1)%nat then est c3 dt1 (a_eo c1 - 2) 0 xe2 else Ok xe2) = Ok xe3 /\ length xe3 = length xe2).
    { destruct (2 <? a_eo c1)%nat; [apply est_ok; (exact Hp || lia)|eauto]. }
    destruct Y3 as (xe3 & E5 & L3). rewrite E5. cbn [rbind].
    assert (Y4 : exists xe4, (if (a_eo c1 <? ov)%nat && (a_eo c1 <? a_si c3 - 1)%nat then est c3 dt1 (a_eo c1 + 1) 3 xe3 else Ok xe3) = Ok xe4 /\ length xe4 = length xe3).
    { destruct (Nat.ltb_spec (a_eo c1) ov) as [W|W]; cbn [andb]; [|eauto]. destruct (a_eo c1 <? a_si c3 - 1)%nat; [apply est_ok; (exact Hp || lia)|eauto]. }
    destruct Y4 as (xe4 & E6 & L4). rewrite E6. cbn [rbind].
    destruct (order_ok (a_eo c1) (a_si c3 - 1) xe4 ltac:(lia) ltac:(lia) Hi) as (r & Er & _). rewrite Er. cbn [rbind]. eauto.
  - intros s' b out' t' dt'.
    destruct (est c3 dt1 (a_eo c1) 2 xe0) as [xe1| | |] eqn:E3; cbn [rbind]; try (intro Q; discriminate Q). apply est_len in E3.
    match goal with |- context [rbind (if (1 <? a_eo c1)%nat then ?a else ?b) _] => destruct (if (1 <? a_eo c1)%nat then a else b) as [xe2| | |] eqn:E4 end; cbn [rbind]; try (intro Q; discriminate Q).
    assert (L2 : length xe2 = length xe1) by (destruct (1 <? a_eo c1)%nat; [now apply est_len in E4|congruence]).
    match goal with |- context [rbind (if (2 <? a_eo c1)%nat then ?a else ?b) _] => destruct (if (2 <? a_eo c1)%nat then a else b) as [xe3| | |] eqn:E5 end; cbn [rbind]; try (intro Q; discriminate Q).
    assert (L3 : length xe3 = length xe2) by (destruct (2 <? a_eo c1)%nat; [now apply est_len in E5|congruence]).
    match goal with |- context [rbind (if ?t then ?a else ?b) _] => destruct (if t then a else b) as [xe4| | |] eqn:E6 end; cbn [rbind]; try (intro Q; discriminate Q).
    assert (L4 : length xe4 = length xe3) by (destruct ((a_eo c1 <? ov)%nat && (a_eo c1 <? a_si c3 - 1)%nat); [now apply est_len in E6|congruence]).
    destruct (order_ok (a_eo c1) (a_si c3 - 1) xe4 ltac:(lia) ltac:(lia) Hi) as (r & Er & R1 & R2 & R3). rewrite Er. cbn [rbind].
    intro Q. injection Q as <- <- <- <- <-. cbn [cm_xerr cm_coeff]. split; [reflexivity|]. split; [lia|]. split; [now rewrite Eth|].
    exists c2, r. auto 8.
Qed.

(** ** Objects *)
Lemma try_shape sys s x t dt : shape (cm_coeff s) -> length (cm_xerr s) = 4%nat ->
  ((ov <= 13)%nat -> exists r, try sys s x t dt = Ok r) /\
  forall s' b out' t' dt', try sys s x t dt = Ok (s', b, out', t', dt') -> shape (cm_coeff s') /\ length (cm_xerr s') = 4%nat.
Proof.
  intros Hs L. destruct (impl_shape ov Hov sys (cm_coeff s) x t dt Hs) as (c1 & out & d & e2 & log & E & Hs1 & P1 & P2).
  destruct (try_spec sys s x t dt c1 out d e2 log Hs1 L E) as (A & B). split; [exact A|].
  intros s' b out' t' dt' Q. destruct (B _ _ _ _ _ Q) as (_ & L' & _ & C). split; [|exact L'].
  destruct b; [|destruct C as (-> & _); exact Hs1]. destruct C as (c2 & eo' & E2 & -> & R1 & R2 & _).
  destruct (do_step_shape ov Hov c1 (sys out (t + dt)) 0 Hs1 ltac:(lia)) as (c2' & E2' & Hs2 & P3 & P4 & _).
  rewrite E2 in E2'. injection E2' as <-. pose proof Hs1 as [Z1 Z2 _ _ _ _ _ _ _ _ _].
  apply (confirm_shape ov Hov c2 eo' Hs2); lia.
Qed.
Lemma init_ctrl_shape sys {ES} (ctry : ES -> vec N I -> N -> N -> res (ES * bool * vec N I * N * N)) fuel :
  forall n e c x t dt e' c' x' t' dt', shape c -> cabm_init_loop ov sys ctry fuel n e c x t dt = Ok (e', c', x', t', dt') -> shape c'.
Proof.
  induction n as [|n IH]; intros e c x t dt e' c' x' t' dt' Hs; cbn [cabm_init_loop]; [intro Q; now injection Q as _ <- _ _ _|].
  destruct (ctry_loop ctry fuel e x t dt) as [[[[e1 x1] t1] dt1]| | |]; cbn [rbind]; try (intro Q; discriminate Q).
  destruct (init_round_shape ov Hov c (t1 - dt1) dt1 (sys x1 t1) Hs) as (c1 & c2 & -> & E & Hs').
  cbn [rbind]. rewrite E. cbn [rbind]. apply IH. exact Hs'.
Qed.
Lemma steps_shape sys : forall n s x t dt s' x' t', shape s -> aabm_steps ov sys n s x t dt = Ok (s', x', t') -> shape s'.
Proof.
  induction n as [|n IH]; intros s x t dt s' x' t' Hs; cbn [aabm_steps]; [intro Q; now injection Q as <- _ _|].
  destruct (step_shape ov Hov sys s x t dt Hs) as (s1 & out & xerr & log & -> & Hs1). cbn [rbind]. apply IH. exact Hs1.
Qed.
Lemma cobj_shape s : cabm_obj ov norm adjust_stepsize threshold s -> shape (cm_coeff s) /\ length (cm_xerr s) = 4%nat.
Proof.
  induction 1 as [beta phi g time c s xerr pa M E L|s _ [IH1 IH2]|sys s x t dt s' b out t' dt' _ [IH1 IH2] E
                 |sys ES estep e s x t dt e' c' x' t' _ [IH1 IH2] E|sys s x t dt c' x' t' _ [IH1 IH2] E
                 |sys ES ctry fuel e s x t dt e' s' x' t' dt' _ [IH1 IH2] E].
  - split; [|exact L]. apply (obj_shape ov Hov). now apply (ob_ctor ov beta phi g time c).
  - split; [now apply reset_shape|exact IH2].
  - exact (proj2 (try_shape sys s x t dt IH1 IH2) _ _ _ _ _ E).
  - split; [|exact IH2]. unfold aabm_initialize in E. apply (init_shape ov Hov) in E; [exact E|]. now apply reset_shape.
  - split; [|exact IH2]. unfold aabm_initialize_own in E. apply steps_shape in E; [exact E|]. now apply reset_shape.
  - unfold cabm_initialize_controlled in E.
    destruct (cabm_init_loop ov sys ctry fuel ov e (aac_reset (cm_coeff s)) x t dt) as [[[[[e1 c1] x1] t1] dt1]| | |] eqn:El; cbn [rbind] in E; try discriminate E.
    injection E as _ <- _ _ _. split; [|exact IH2]. apply init_ctrl_shape in El; [exact El|]. now apply reset_shape.
Qed.

(** ** Orders for which gs is too short *)
Lemma gs_end j : (14 <= j)%nat -> vget (gs (N := N)) j = UB.
Proof. intro H. unfold vget. replace (nth_error gs j) with (@None N); [reflexivity|]. symmetry. apply nth_error_None. exact H. Qed.
Lemma large_order sys s x t dt : shape (cm_coeff s) -> length (cm_xerr s) = 4%nat -> (14 <= a_eo (cm_coeff s))%nat ->
  (forall pa n e y d, threshold <=? snd (adjust_stepsize pa n dt e y d) / dt = true) -> try sys s x t dt = UB.
Proof.
  intros Hs L H14 Ha. destruct (impl_shape ov Hov sys (cm_coeff s) x t dt Hs) as (c1 & out & d & e2 & log & E & Hs1 & P1 & P2).
  unfold cabm_try. rewrite E. cbn [rbind]. specialize (Ha (cm_adj s) (a_eo c1) e2 out d).
  destruct (adjust_stepsize (cm_adj s) (a_eo c1) dt e2 out d) as [[pa e2'] dt1]. cbn [snd] in Ha.
  destruct (vset_lt (cm_xerr s) 2 e2') as (xe0 & E0 & L0 & _); [lia|]. rewrite E0. cbn [rbind]. rewrite Ha.
  destruct (do_step_shape ov Hov c1 (sys out (t + dt)) 0 Hs1 ltac:(lia)) as (c2 & E2 & Hs2 & P3 & P4 & _). rewrite E2. cbn [rbind].
  pose proof Hs1 as [Z1 Z2 _ _ _ _ _ _ _ _ _].
  destruct (confirm_shape ov Hov c2 (a_eo c1) Hs2) as (Hs3 & P5); [lia|lia|].
  pose proof (sh_phi ov _ Hs3) as Hp. cbn [set_eo a_phi] in Hp.
  change (a_eo (aac_confirm ov c2)) with (a_eo c2). rewrite P3.
  unfold est at 1. destruct (get2_ok 3 (ov + 2) ltac:(lia) (a_phi (aac_confirm ov c2)) 1 (a_eo c1) Hp ltac:(lia)) as (p & Ep). rewrite Ep. cbn [rbind].
  rewrite gs_end by lia. reflexivity.
Qed.
(** initialize ends with the full order. *)
Lemma init_total sys {ES} (estep : ES -> vec N I -> vec N I -> N -> N -> res (ES * vec N I)) dt :
  (forall e x d t, exists r, estep e x d t dt = Ok r) ->
  forall n e s x d t, shape s -> exists e' s' x' t', aabm_init_loop ov sys estep n e s x d t dt = Ok (e', s', x', t').
Proof.
  intros He n. induction n as [|n IH]; intros e s x d t Hs; cbn [aabm_init_loop]; [eauto|].
  destruct (He e x d t) as ([e1 x1] & ->). cbn [rbind].
  destruct (init_round_shape ov Hov s t dt (sys x1 (t + dt)) Hs) as (s1 & s2 & -> & E & Hs'). cbn [rbind]. rewrite E. cbn [rbind].
  apply IH. exact Hs'.
Qed.
Lemma init_full sys {ES} (estep : ES -> vec N I -> vec N I -> N -> N -> res (ES * vec N I)) e s x t dt :
  (forall e x d t dt, exists r, estep e x d t dt = Ok r) -> shape s ->
  exists e' s' x' t', aabm_initialize ov sys estep e s x t dt = Ok (e', s', x', t') /\ a_eo s' = ov.
Proof.
  intros He Hs. unfold aabm_initialize.
  destruct (init_total sys estep (dt / nofnat ov) (fun e x d t => He e x d t _) ov e (aac_reset s) x (sys x t) t (reset_shape ov Hov s Hs)) as (e' & s' & x' & t' & E).
  exists e', s', x', t'. split; [exact E|].
  destruct (get2_ok 3 (ov + 2) ltac:(lia) (a_phi s) 1 0 (sh_phi ov s Hs) ltac:(lia)) as (d & Ed).
  destruct (trace_ready ov Hov s _ s' Hs (tr_init ov _ sys ES estep e x t dt e' s' x' t' d E Ed)) as [(_ & Q)|(_ & _ & K2 & K3 & K4)].
  - exfalso. assert (Hi : inv (aac_reset s) [(t, d)]).
    { split; [now apply reset_shape|]. split; [intros i Hi; cbn [aac_reset a_si] in Hi; lia|].
      intros [|j] Hj; [exact Ed|]. unfold ok_to in Hj. cbn [aac_reset a_si a_eo] in Hj. exfalso. change (Nat.min 1 (1 - 1)) with 0%nat in Hj. lia. }
    destruct (init_loop_inv ov Hov sys estep (dt / nofnat ov) ov _ _ _ t _ _ _ _ [(t, d)] Hi eq_refl ltac:(cbn [length aac_reset a_si a_eo]; lia) ltac:(cbn [length aac_reset a_si a_eo]; lia) E) as (_ & K2 & K3 & _).
    rewrite Q in K3. rewrite K2 in K3. cbn [length aac_reset a_si] in K3. lia.
  - rewrite K4. clear -E Ed Hs Hov K3 K4 K2.
    assert (Hi : inv (aac_reset s) [(t, d)]).
    { split; [now apply reset_shape|]. split; [intros i Hi; cbn [aac_reset a_si] in Hi; lia|].
      intros [|j] Hj; [exact Ed|]. unfold ok_to in Hj. cbn [aac_reset a_si a_eo] in Hj. exfalso. change (Nat.min 1 (1 - 1)) with 0%nat in Hj. lia. }
    destruct (init_loop_inv ov Hov sys estep (dt / nofnat ov) ov _ _ _ t _ _ _ _ [(t, d)] Hi eq_refl ltac:(cbn [length aac_reset a_si a_eo]; lia) ltac:(cbn [length aac_reset a_si a_eo]; lia) E) as (_ & K5 & _).
    rewrite K5. cbn [length]. lia.
Qed.

(** ** Runs *)
Lemma ctrace_ready s0 h s : shape (cm_coeff s0) -> length (cm_xerr s0) = 4%nat -> cabm_trace ov norm adjust_stepsize threshold s0 h s ->
  length (cm_xerr s) = 4%nat /\
  ((h = [] /\ shape (cm_coeff s) /\ a_si (cm_coeff s) = 1%nat /\ a_eo (cm_coeff s) = 1%nat) \/
   (inv (cm_coeff s) h /\ (2 <= length h)%nat /\ a_si (cm_coeff s) = Nat.min (length h) (ov + 1) /\ (a_eo (cm_coeff s) <= Nat.min (length h) ov)%nat)).
Proof.
  intros Hs L T. induction T as [|sys ES estep e x t dt e' c' x' t' d Ei Ed|h s sys x t dt s' out t' dt' T [L1 IH] St E|h s sys x t dt s' out t' dt' T [L1 IH] St E].
  - split; [exact L|]. left. split; [reflexivity|]. split; [now apply reset_shape|]. split; reflexivity.
  - split; [exact L|]. right.
    destruct (trace_ready ov Hov (cm_coeff s0) _ c' Hs (tr_init ov _ sys ES estep e x t dt e' c' x' t' d Ei Ed)) as [(Q & _)|(K1 & _ & K2 & K3 & K4)].
    + exfalso. cbn [cm_coeff] in *. assert (Hi : inv (aac_reset (cm_coeff s0)) [(t, d)]).
      { split; [now apply reset_shape|]. split; [intros i Hi; cbn [aac_reset a_si] in Hi; lia|].
        intros [|j] Hj; [exact Ed|]. unfold ok_to in Hj. cbn [aac_reset a_si a_eo] in Hj. exfalso. change (Nat.min 1 (1 - 1)) with 0%nat in Hj. lia. }
      destruct (init_loop_inv ov Hov sys estep (dt / nofnat ov) ov _ _ _ t _ _ _ _ [(t, d)] Hi eq_refl ltac:(cbn [length aac_reset a_si a_eo]; lia) ltac:(cbn [length aac_reset a_si a_eo]; lia) Ei) as (_ & K2 & _).
      rewrite Q in K2. cbn [length] in K2. lia.
    + cbn [cm_coeff]. split; [exact K1|]. split; [exact K2|]. split; [exact K3|]. lia.
  - assert (Rd : ready ov sys (cm_coeff s) (with_start h t (sys x t)) x t).
    { destruct IH as [(-> & H1 & H2 & _)|(Hi & H3 & H4 & _)]; [right; auto|]. left. destruct h as [|p h]; [cbn in H3; lia|]. split; [exact Hi|lia]. }
    destruct (impl_ok ov Hov sys (cm_coeff s) x t dt _ Rd (starts_tms h t _ St)) as (c1 & E1 & M & Hp & P1 & P2).
    assert (Hs1 : shape c1) by apply M.
    destruct (proj2 (try_spec sys s x t dt c1 _ _ _ _ Hs1 L1 E1) _ _ _ _ _ E) as (_ & L2 & _ & -> & _).
    split; [exact L2|]. destruct IH as [(-> & H1 & H2 & H3)|(Hi & H3 & H4 & H5)].
    + left. split; [reflexivity|]. split; [exact Hs1|]. split; congruence.
    + right. destruct h as [|p h]; [cbn in H3; lia|]. split; [|split; [exact H3|split; [congruence|now rewrite P1]]].
      split; [exact Hs1|]. split; [apply M|exact Hp].
  - assert (Rd : ready ov sys (cm_coeff s) (with_start h t (sys x t)) x t).
    { destruct IH as [(-> & H1 & H2 & _)|(Hi & H3 & H4 & _)]; [right; auto|]. left. destruct h as [|p h]; [cbn in H3; lia|]. split; [exact Hi|lia]. }
    destruct (impl_ok ov Hov sys (cm_coeff s) x t dt _ Rd (starts_tms h t _ St)) as (c1 & E1 & M & Hp & P1 & P2).
    assert (Hs1 : shape c1) by apply M.
    destruct (proj2 (try_spec sys s x t dt c1 _ _ _ _ Hs1 L1 E1) _ _ _ _ _ E) as (Eo & L2 & _ & c2 & eo' & E2 & -> & R1 & R2 & _ & _).
    rewrite <- Eo in E2. destruct (accept_ok ov Hov c1 dt (sys out (t + dt)) _ M Hp) as (c2' & E2' & P3 & P4 & _ & _ & G).
    rewrite E2 in E2'. injection E2' as <-. rewrite (starts_tms h t _ St) in G. split; [exact L2|]. right.
    change (a_si (set_eo (aac_confirm ov c2) eo')) with (a_si (aac_confirm ov c2)).
    change (a_eo (set_eo (aac_confirm ov c2) eo')) with eo'. rewrite P4. cbn [length].
    pose proof Hs1 as [Z1 Z2 _ _ _ _ _ _ _ _ _].
    split; [apply G; lia|].
    destruct IH as [(-> & H1 & H2 & H3)|(Hi & H3 & H4 & H5)].
    + cbn [with_start length]. lia.
    + destruct h as [|p h]; [cbn in H3; lia|]. cbn [with_start]. lia.
Qed.
Lemma ctrace_next s0 h s sys x t : shape (cm_coeff s0) -> length (cm_xerr s0) = 4%nat ->
  cabm_trace ov norm adjust_stepsize threshold s0 h s -> starts h t ->
  ready ov sys (cm_coeff s) (with_start h t (sys x t)) x t /\ (1 <= a_eo (cm_coeff s) <= Nat.min (length (with_start h t (sys x t))) ov)%nat
  /\ length (cm_xerr s) = 4%nat.
Proof.
  intros Hs L T St. destruct (ctrace_ready s0 h s Hs L T) as (L1 & [(-> & H1 & H2 & H3)|(Hi & H3 & H4 & H5)]).
  - split; [right; auto|]. cbn [with_start length]. split; [lia|exact L1].
  - destruct h as [|p h]; [cbn in H3; lia|]. split; [left; split; [exact Hi|lia]|]. cbn [with_start].
    pose proof (proj1 Hi) as [Z1 Z2 _ _ _ _ _ _ _ _ _]. split; [lia|exact L1].
Qed.
(** One attempt of a run. *)
Lemma try_run sys s x t dt h : ready ov sys (cm_coeff s) h x t -> length (cm_xerr s) = 4%nat -> tms h 0 = t ->
  let k := a_eo (cm_coeff s) in
  let pred := predS h dt k x in
  let h1 := (t + dt, sys pred (t + dt)) :: h in
  forall s' b out t' dt', try sys s x t dt = Ok (s', b, out, t', dt') ->
    out = fun j => scale_sum [(nofZ 1, pred j); (dt * cS (t + dt) dt h k 0, pS h1 k j)].
Proof.
  intros R L E0 k pred h1 s' b out t' dt' E. destruct (impl_ok ov Hov sys (cm_coeff s) x t dt h R E0) as (c1 & E1 & M & _).
  exact (proj1 (proj2 (try_spec sys s x t dt c1 _ _ _ _ (proj1 M) L E1) _ _ _ _ _ E)).
Qed.
End Gen.

(** Runs of adaptive_adams_bashforth_moulton in any arithmetic. *)
From Coq Require Import ZArith List Bool Arith Lia.
From Verif Require Import M_Num M_Run M_RK M_CtrlRK M_Midpoint M_Adams M_AABM S_Adams S_AABM P_BS P_Adams P_AABM.
Import ListNotations.
Local Open Scope res_scope.

Section Gen.
Context {N : Num} {I : Type}.
Local Open Scope num_scope.
Notation hist := (list (N * vec N I)).
Variable ov : nat.
Hypothesis Hov : (1 <= ov)%nat.
Notation inv := (inv (N := N) (I := I) ov).
Notation mid := (mid (N := N) (I := I) ov).
Notation shape := (shape (N := N) (I := I) ov).

(** The object before a step from (x,t). *)
Definition ready sys (s : aac N I) (h : hist) (x : vec N I) (t : N) : Prop :=
  (inv s h /\ (2 <= a_si s)%nat) \/ (shape s /\ a_si s = 1%nat /\ h = [(t, sys x t)]).

Lemma ready_shape sys s h x t : ready sys s h x t -> shape s.
Proof. intros [[(H & _) _]|(H & _)]; exact H. Qed.

Lemma impl_ok sys s x t dt h : ready sys s h x t -> tms h 0 = t ->
  let pred := predS h dt (a_eo s) x in
  let h' := (t + dt, sys pred (t + dt)) :: h in
  exists s', aabm_impl ov sys s x t dt = Ok (s',
      (fun j => scale_sum [(nofZ 1, pred j); (dt * cS (t + dt) dt h (a_eo s) 0, pS h' (a_eo s) j)]), sys pred (t + dt),
      (fun j => scale_sum [(dt * cS (t + dt) dt h (a_eo s) 0, pS h' (a_eo s) j)]),
      (if (a_si s =? 1)%nat then [(x, t)] else []) ++ [(pred, t + dt)])
   /\ mid s' dt h /\ phis s' 1 h (ok_to s') /\ a_eo s' = a_eo s /\ a_si s' = a_si s.
Proof.
  intros R E0 pred h'. pose proof (ready_shape _ _ _ _ _ R) as Hs.
  assert (Ht : times ov s h).
  { destruct R as [[(_ & H & _) _]|(_ & H & _)]; [exact H|]. intros i Hi. lia. }
  destruct (predict_ok ov Hov s t dt h Hs Ht E0) as (s1 & E1 & Q1 & Q2 & Q3 & M1).
  unfold aabm_impl. rewrite E1. cbn [rbind]. rewrite Q2.
  assert (X : exists s2, (if (a_si s =? 1)%nat then let! s2 := aac_do_step ov s1 (sys x t) 1 in Ok (s2, [(x, t)]) else Ok (s1, []))
      = Ok (s2, if (a_si s =? 1)%nat then [(x, t)] else []) /\ mid s2 dt h /\ phis s2 1 h (ok_to s2) /\ a_eo s2 = a_eo s /\ a_si s2 = a_si s).
  { destruct R as [[(_ & _ & Hp) H2]|(_ & H1 & Eh)].
    - replace (a_si s =? 1)%nat with false by (symmetry; apply Nat.eqb_neq; lia).
      exists s1. split; [reflexivity|]. split; [exact M1|]. split; [|auto].
      intros j Hj. rewrite Q3. apply Hp. unfold ok_to in *. lia.
    - rewrite H1. cbn [Nat.eqb]. destruct (do_step1_ok ov Hov s1 dt (sys x t) h M1) as (s2 & E2 & P1 & P2 & M2 & G).
      rewrite E2. cbn [rbind]. exists s2. split; [reflexivity|]. split; [exact M2|]. split; [|split; congruence].
      intros j Hj. unfold ok_to in Hj. replace j with 0%nat by lia. rewrite G, Eh. reflexivity. }
  destruct X as (s2 & E2 & M2 & Hp & P1 & P2). rewrite E2. cbn [rbind]. clear E2 E1 Q3.
  pose proof M2 as (_ & _ & _ & Hb & Hg). pose proof Hs as [Z1 Z2 _ _ _ _ _ _ _ _ _].
  match goal with |- context [for_lt 0 (a_eo s) ?f x] => set (body := f) end.
  destruct (for_lt_inv (fun i out => (i <= a_eo s)%nat /\ out = predS h dt i x) body 0 (a_eo s) x) as (out & E3 & _ & G3).
  { intros i out Hi (_ & ->). unfold body. rewrite (Hp i) by (unfold ok_to; lia). cbn [rbind].
    rewrite (Hg i) by (unfold ok_to; lia). cbn [rbind]. rewrite (Hb i) by (unfold ok_to; lia). cbn [rbind].
    eexists. split; [reflexivity|]. split; [lia|]. reflexivity. }
  { split; [lia|reflexivity]. }
  cbn [Nat.max] in G3. rewrite E3. cbn [rbind]. rewrite G3. fold pred.
  destruct (do_step0_ok ov Hov s2 dt (sys pred (t + dt)) h M2 Hp) as (s3 & E4 & P3 & P4 & M3 & Ph1 & Eg & Eb & Et & Ph0).
  rewrite E4. cbn [rbind]. rewrite (Ph0 (a_eo s)) by (unfold ok_to; lia). cbn [rbind].
  rewrite Eg, (Hg (a_eo s)) by (unfold ok_to; lia). cbn [rbind]. rewrite E0.
  exists s3. split; [reflexivity|]. split; [exact M3|]. split; [|split; congruence].
  intros j Hj. rewrite Ph1. apply Hp. unfold ok_to in *. rewrite <- P3, <- P4. exact Hj.
Qed.

(** Accepting a step. *)
Lemma accept_ok s dt d h : mid s dt h -> phis s 1 h (ok_to s) ->
  exists s', aac_do_step ov s d 0 = Ok s' /\ a_eo s' = a_eo s
   /\ a_si (aac_confirm ov s') = Nat.min (a_si s + 1) (ov + 1)
   /\ sh2 3 (ov + 2) (a_phi (aac_confirm ov s'))
   /\ phis (aac_confirm ov s') 1 ((tms h 0 + dt, d) :: h) (S (ok_to s))
   /\ forall eo', (1 <= eo' <= ov)%nat -> (eo' <= a_eo s + 1)%nat -> (eo' <= Nat.min (a_si s + 1) (ov + 1))%nat ->
      inv (set_eo (aac_confirm ov s') eo') ((tms h 0 + dt, d) :: h).
Proof.
  intros M Hp. destruct (do_step0_ok ov Hov s dt d h M Hp) as (s' & E & P1 & P2 & M' & _ & _ & _ & _ & Ph).
  exists s'. split; [exact E|]. split; [exact P1|].
  assert (Eok : ok_to s' = ok_to s) by (unfold ok_to; now rewrite P1, P2).
  assert (G := confirm_ok ov Hov s' dt d h). rewrite Eok, P1, P2 in G.
  pose proof M as ([Z1 Z2 _ _ _ _ _ _ _ _ _] & _).
  destruct (G 1%nat M' Ph) as (G1 & G2 & (Gs & _)); [lia|lia|lia|].
  split; [exact G1|]. split; [exact (sh_phi ov _ Gs)|]. split; [exact G2|]. intros eo' Q1 Q2 Q3. exact (proj2 (proj2 (G eo' M' Ph Q1 Q2 Q3))).
Qed.

Lemma inv_si s h : inv s h -> (1 <= a_si s)%nat.
Proof. intros ([Z1 Z2 _ _ _ _ _ _ _ _ _] & _). lia. Qed.

(** One do_step. *)
Lemma do_step_ok sys s x t dt h : ready sys s h x t -> tms h 0 = t ->
  let pred := predS h dt (a_eo s) x in
  let h1 := (t + dt, sys pred (t + dt)) :: h in
  let out := fun j => scale_sum [(nofZ 1, pred j); (dt * cS (t + dt) dt h (a_eo s) 0, pS h1 (a_eo s) j)] in
  exists s', aabm_do_step ov sys s x t dt = Ok (s', out,
      (fun j => scale_sum [(dt * cS (t + dt) dt h (a_eo s) 0, pS h1 (a_eo s) j)]),
      (if (a_si s =? 1)%nat then [(x, t)] else []) ++ [(pred, t + dt)] ++ [(out, t + dt)])
   /\ inv s' ((t + dt, sys out (t + dt)) :: h) /\ a_eo s' = Nat.min (a_eo s + 1) ov /\ a_si s' = Nat.min (a_si s + 1) (ov + 1).
Proof.
  intros R E0 pred h1 out. destruct (impl_ok sys s x t dt h R E0) as (s1 & E1 & M & Hp & P1 & P2).
  fold pred in E1. fold h1 in E1. fold out in E1.
  unfold aabm_do_step. rewrite E1. cbn [rbind].
  destruct (accept_ok s1 dt (sys out (t + dt)) h M Hp) as (s2 & E2 & P3 & P4 & _ & _ & G).
  rewrite E2. cbn [rbind]. rewrite E0 in G.
  change (a_eo (aac_confirm ov s2)) with (a_eo s2). rewrite P3, P1. rewrite P1, P2 in G. rewrite P2 in P4.
  pose proof (ready_shape _ _ _ _ _ R) as [Z1 Z2 _ _ _ _ _ _ _ _ _].
  assert (Eo : (if (a_eo s <? ov)%nat then S (a_eo s) else a_eo s) = Nat.min (a_eo s + 1) ov) by (destruct (Nat.ltb_spec (a_eo s) ov); lia).
  rewrite Eo. eexists. split; [now rewrite <- app_assoc|]. split; [apply G; lia|]. split; [reflexivity|exact P4].
Qed.

(** ** Runs *)
Lemma reset_shape s : shape s -> shape (aac_reset s).
Proof. intros [Z1 Z2 Z3 Z4 Z5 Z6 Z7 Z8 Z9 Z10 Z11]. split; unfold aac_reset; cbn [a_eo a_si a_ns a_beta a_phi a_time a_g a_c]; try assumption; lia. Qed.

Lemma starts_tms (h : hist) (t : N) d : starts h t -> tms (with_start h t d) 0 = t.
Proof. destruct h as [|[t0 d0] h]; cbn; [reflexivity|congruence]. Qed.

Lemma init_loop_inv sys {ES} (estep : ES -> vec N I -> vec N I -> N -> N -> res (ES * vec N I)) dt :
  forall n e s x t e' s' x' t' h, inv s h -> tms h 0 = t -> a_si s = Nat.min (length h) (ov + 1) -> a_eo s = Nat.min (length h) ov ->
  aabm_init_loop ov sys estep n e s x (sys x t) t dt = Ok (e', s', x', t') ->
  let h' := init_pts estep sys n e x t dt h in
  inv s' h' /\ length h' = (n + length h)%nat /\ a_si s' = Nat.min (length h') (ov + 1) /\ a_eo s' = Nat.min (length h') ov.
Proof.
  induction n as [|n IH]; intros e s x t e' s' x' t' h Hi E0 Hsi Heo E; cbn [aabm_init_loop] in E.
  - injection E as _ <- _ _. cbn [init_pts]. auto.
  - cbn [init_pts]. destruct (estep e x (sys x t) t dt) as [[e1 x1]| | |]; cbn [rbind] in E; try discriminate E.
    pose proof Hi as (Hs & Ht & Hp).
    destruct (predict_ok ov Hov s t dt h Hs Ht E0) as (s1 & E1 & Q1 & Q2 & Q3 & M1). rewrite E1 in E. cbn [rbind] in E.
    assert (Hp1 : phis s1 1 h (ok_to s1)).
    { intros j Hj. rewrite Q3. apply Hp. unfold ok_to in *. lia. }
    destruct (accept_ok s1 dt (sys x1 (t + dt)) h M1 Hp1) as (s2 & E2 & P1 & P2 & _ & _ & G). rewrite E2 in E. cbn [rbind] in E.
    rewrite E0 in G. change (a_eo (aac_confirm ov s2)) with (a_eo s2) in E. rewrite P1, Q1 in E. rewrite Q1, Q2 in G. rewrite Q2 in P2.
    pose proof Hs as [Z1 Z2 _ _ _ _ _ _ _ _ _].
    assert (Eo : (if (a_eo s <? ov)%nat then S (a_eo s) else a_eo s) = Nat.min (a_eo s + 1) ov) by (destruct (Nat.ltb_spec (a_eo s) ov); lia).
    rewrite Eo in E.
    assert (Hi2 := G (Nat.min (a_eo s + 1) ov) ltac:(lia) ltac:(lia) ltac:(lia)).
    destruct (fun A B => IH _ _ _ (t + dt) _ _ _ _ ((t + dt, sys x1 (t + dt)) :: h) Hi2 eq_refl A B E) as (K1 & K2 & K3 & K4).
    + change (a_si (aac_confirm ov s2) = Nat.min (length ((t + dt, sys x1 (t + dt)) :: h)) (ov + 1)). rewrite P2. cbn [length]. lia.
    + change (Nat.min (a_eo s + 1) ov = Nat.min (length ((t + dt, sys x1 (t + dt)) :: h)) ov). cbn [length]. lia.
    + split; [exact K1|]. split; [|split; [exact K3|exact K4]]. rewrite K2. cbn [length]. lia.
Qed.

Lemma trace_ready s0 h s : shape s0 -> aabm_trace ov s0 h s ->
  (h = [] /\ s = aac_reset s0) \/
  (inv s h /\ (2 <= a_si s)%nat /\ (2 <= length h)%nat /\ a_si s = Nat.min (length h) (ov + 1) /\ a_eo s = Nat.min (length h) ov).
Proof.
  intros Hs T. induction T as [|sys ES estep e x t dt e' s' x' t' d Ei Ed|h s sys x t dt s' out xerr log T IH St E]; [now left| |]; right.
  - unfold aabm_initialize in Ei.
    assert (Hi : inv (aac_reset s0) [(t, d)]).
    { split; [now apply reset_shape|]. split; [intros i Hi; cbn [aac_reset a_si] in Hi; lia|].
      intros [|j] Hj; [exact Ed|]. unfold ok_to in Hj. cbn [aac_reset a_si a_eo] in Hj. exfalso. change (Nat.min 1 (1 - 1)) with 0%nat in Hj. lia. }
    destruct (init_loop_inv sys estep (dt / nofnat ov) ov _ _ _ t _ _ _ _ [(t, d)] Hi eq_refl ltac:(cbn [length aac_reset a_si a_eo]; lia) ltac:(cbn [length aac_reset a_si a_eo]; lia) Ei) as (K1 & K2 & K3 & K4).
    cbn [length] in K2. split; [exact K1|]. rewrite K3, K4, K2. lia.
  - assert (Rd : ready sys s (with_start h t (sys x t)) x t).
    { destruct IH as [(-> & ->)|(Hi & H2 & H3 & _)].
      - right. split; [now apply reset_shape|]. split; reflexivity.
      - left. destruct h as [|p h]; [cbn in H3; lia|]. split; [exact Hi|exact H2]. }
    destruct (do_step_ok sys s x t dt _ Rd (starts_tms h t _ St)) as (s1 & E1 & Hi & Q1 & Q2).
    rewrite E1 in E. injection E as <- <- <- <-. split; [exact Hi|].
    destruct IH as [(-> & ->)|(_ & H2 & H3 & H4 & H5)].
    + cbn [aac_reset a_si a_eo] in Q1, Q2. cbn [with_start length]. lia.
    + destruct h as [|p h]; [cbn in H3; lia|]. cbn [with_start]. cbn [length] in *. lia.
Qed.
Lemma trace_next s0 h s sys x t : shape s0 -> aabm_trace ov s0 h s -> starts h t ->
  ready sys s (with_start h t (sys x t)) x t /\ a_eo s = Nat.min (length (with_start h t (sys x t))) ov
  /\ (a_si s =? 1)%nat = match h with [] => true | _ => false end.
Proof.
  intros Hs T St. destruct (trace_ready s0 h s Hs T) as [(-> & ->)|(Hi & H2 & H3 & H4 & H5)].
  - split; [right; split; [now apply reset_shape|split; reflexivity]|]. cbn [with_start length aac_reset a_eo]. split; [lia|reflexivity].
  - destruct h as [|p h]; [cbn in H3; lia|]. split; [now left|]. split; [exact H5|]. apply Nat.eqb_neq. lia.
Qed.

(** ** Objects *)
Lemma ctor_ok beta phi g time c : memory (I := I) ov beta phi g time c ->
  exists s, aac_ctor ov beta phi g time c = Ok s /\ shape s.
Proof.
  intros (L1 & F1 & L2 & F2 & L3 & L4 & L5). unfold aac_ctor.
  set (body := fun i c0 => _).
  set (P := fun (k : nat) (c0 : list N) => length c0 = ((ov + 2) * (ov + 2))%nat
     /\ forall i j, (i < 2)%nat -> (j < k)%nat -> (j < ov + 2)%nat -> vget c0 (c_size ov * i + j) = Ok (cS (nofZ 0) (nofZ 0) ([] : hist) i j)).
  destruct (for_lt_inv P body 0 (ov + 2) c) as (c1 & E & K1 & K2).
  { intros k c0 Hk (K1 & K2). unfold body.
    destruct (vset_lt c0 k (nofZ 1 / nofnat (k + 1))) as (c1 & E1 & M1 & G1 & G1').
    { rewrite K1. pose proof (idx_lt ov Hov 0 k ltac:(lia) ltac:(lia)). lia. }
    rewrite E1. cbn [rbind].
    destruct (vset_lt c1 (c_size ov + k) (nofZ 1 / nofnat ((k + 1) * (k + 2)))) as (c2 & E2 & M2 & G2 & G2').
    { rewrite M1, K1. pose proof (idx_lt ov Hov 1 k ltac:(lia) ltac:(lia)). lia. }
    exists c2. split; [exact E2|]. split; [lia|]. intros i j Hi Hj Hj'. unfold vget.
    destruct i as [|[|i]]; [| |lia].
    - rewrite Nat.mul_0_r, Nat.add_0_l. rewrite G2' by (unfold c_size; lia). destruct (Nat.eq_dec j k) as [Q|Q].
      + rewrite Q, G1. reflexivity.
      + rewrite G1' by lia. specialize (K2 0%nat j ltac:(lia) ltac:(lia) Hj'). rewrite Nat.mul_0_r, Nat.add_0_l in K2. exact K2.
    - rewrite Nat.mul_1_r. destruct (Nat.eq_dec j k) as [Q|Q].
      + rewrite Q, G2. reflexivity.
      + rewrite G2' by lia. rewrite G1' by (unfold c_size; lia). specialize (K2 1%nat j ltac:(lia) ltac:(lia) Hj'). rewrite Nat.mul_1_r in K2. exact K2. }
  { split; [exact L5|]. intros i j _ Hj. lia. }
  rewrite E. cbn [rbind]. cbn [Nat.max] in K2.
  assert (V0 := K2 0%nat 0%nat ltac:(lia) ltac:(lia) ltac:(lia)). rewrite Nat.mul_0_r, Nat.add_0_l in V0. rewrite V0. cbn [rbind].
  destruct (vset_lt g 0 (cS (nofZ 0) (nofZ 0) ([] : hist) 0 0)) as (g1 & E1 & M1 & G1 & G1'); [lia|]. rewrite E1. cbn [rbind].
  assert (V1 := K2 1%nat 0%nat ltac:(lia) ltac:(lia) ltac:(lia)). rewrite Nat.mul_1_r, Nat.add_0_r in V1. rewrite V1. cbn [rbind].
  destruct (vset_lt g1 1 (cS (nofZ 0) (nofZ 0) ([] : hist) 1 0)) as (g2 & E2 & M2 & G2 & G2'); [lia|]. rewrite E2. cbn [rbind].
  destruct (set2_ok 2 (ov + 1) ltac:(lia) (mkRb beta 0) 0 0 (nofZ 1)) as (b1 & B1 & B2 & B3 & B4);
    [split; [split; [exact L1|cbn; lia]|exact F1]|lia|lia|].
  rewrite B1. cbn [rbind].
  destruct (set2_ok 2 (ov + 1) ltac:(lia) b1 1 0 (nofZ 1)) as (b2 & D1 & D2 & D3 & D4); [exact B2|lia|lia|].
  rewrite D1. cbn [rbind]. eexists. split; [reflexivity|]. split; cbn [a_eo a_si a_ns a_beta a_phi a_time a_g a_c]; try lia; try assumption.
  - intros [|[|o]] Ho; [rewrite D4 by lia; exact B3|exact D3|lia].
  - split; [split; [exact L2|cbn; lia]|exact F2].
  - split; [exact L4|cbn; lia].
  - intros [|[|i]] Hi; [|unfold vget; now rewrite G2|lia]. unfold vget. rewrite G2' by lia. now rewrite G1.
  - intros i j Hi Hj. apply K2; [exact Hi| |exact Hj]. lia.
Qed.

(** Without knowledge of the contents. *)
Lemma any_times s t : shape s -> exists h, times ov s h /\ tms h 0 = t.
Proof.
  intro Hs. pose proof (sh_time ov s Hs) as Hw.
  assert (G : forall n, exists l : list N, length l = n /\ forall i, (i < n)%nat -> rb_get (ov + 1) (a_time s) (S i) = Ok (nth i l (nofZ 0))).
  { induction n as [|n (l & L & G)]; [exists []; split; [reflexivity|intros; lia]|].
    destruct (get_ok (ov + 1) ltac:(lia) (a_time s) (S n) Hw) as (a & Ea). exists (l ++ [a]). split; [rewrite app_length; cbn; lia|].
    intros i Hi. destruct (Nat.eq_dec i n) as [Q|Q].
    - rewrite Q, Ea, app_nth2, L, Nat.sub_diag by lia. reflexivity.
    - rewrite app_nth1 by lia. apply G. lia. }
  destruct (G (a_si s)) as (l & L & Gl). exists (map (fun u => (u, fun _ => nofZ 0)) (t :: l)). split; [|reflexivity].
  intros [|i] Hi; [lia|]. rewrite Gl by lia. unfold tms. now rewrite map_map, map_id.
Qed.
Lemma mid_any s dt h : mid s dt h -> shape s.
Proof. now intros (H & _). Qed.

Lemma do_step_shape s d o : shape s -> (o < 2)%nat ->
  exists s', aac_do_step ov s d o = Ok s' /\ shape s' /\ a_eo s' = a_eo s /\ a_si s' = a_si s /\ a_g s' = a_g s.
Proof.
  intros Hs Ho. pose proof Hs as [X1 X2 X3 X4 X5 X6 X7 X8 X9 X10 X11].
  unfold aac_do_step. destruct (set2_ok 3 (ov + 2) ltac:(lia) (a_phi s) o 0 d X6) as (p0 & E & S0 & _ & _); [lia|lia|].
  rewrite E. cbn [rbind].
  destruct (for_lt_inv (fun (i : nat) (b : rb (list (vec N I))) => sh2 3 (ov + 2) b) (phi_upd (a_beta s) o) 1
     (Nat.min (a_eo s + 3) (Nat.min (a_si s + 2) (ov + 2))) p0) as (p & Ep & Sp).
  - intros i b Hi K1. unfold phi_upd.
    destruct (get2_ok 3 (ov + 2) ltac:(lia) b o (i - 1) K1 ltac:(lia)) as (u & Eu). rewrite Eu. cbn [rbind].
    destruct (o =? 0)%nat eqn:Eo.
    + destruct (get2_ok 3 (ov + 2) ltac:(lia) b (o + 1) (i - 1) K1 ltac:(lia)) as (v & Ev). rewrite Ev. cbn [rbind].
      destruct (get2_ok 2 (ov + 1) ltac:(lia) (a_beta s) o (i - 1) X4 ltac:(lia)) as (w & Ew). rewrite Ew. cbn [rbind].
      destruct (set2_ok 3 (ov + 2) ltac:(lia) b o i (fun j => scale_sum [(nofZ 1, u j); (nopp w, v j)])) as (b' & F1 & F2 & _);
        [exact K1|lia|lia|]. now exists b'.
    + destruct (set2_ok 3 (ov + 2) ltac:(lia) b o i (fun j => scale_sum [(nofZ 1, u j)])) as (b' & F1 & F2 & _); [exact K1|lia|lia|]. now exists b'.
  - exact S0.
  - rewrite Ep. cbn [rbind]. eexists. split; [reflexivity|]. split; [|split; [reflexivity|split; reflexivity]].
    split; cbn [a_eo a_si a_ns a_beta a_phi a_time a_g a_c set_phi]; assumption.
Qed.
Lemma confirm_shape s eo' : shape s -> (1 <= eo' <= ov)%nat -> (eo' <= Nat.min (a_si s + 1) (ov + 1))%nat ->
  shape (set_eo (aac_confirm ov s) eo') /\ a_si (aac_confirm ov s) = Nat.min (a_si s + 1) (ov + 1).
Proof.
  intros Hs H1 H3. pose proof Hs as [X1 X2 X3 X4 X5 X6 X7 X8 X9 X10 X11].
  assert (Esi : a_si (aac_confirm ov s) = Nat.min (a_si s + 1) (ov + 1)).
  { cbn [aac_confirm a_si]. destruct (Nat.ltb_spec (a_si s) (ov + 1)); lia. }
  split; [|exact Esi]. assert (Q : (eo' <= a_si (aac_confirm ov s) <= ov + 1)%nat) by lia.
  split; unfold set_eo; cbn [a_eo a_si a_ns a_beta a_phi a_time a_g a_c]; try assumption.
  + apply (rotate_sh2 2 (ov + 1)); [lia|exact X4].
  + intros [|o] Ho; cbn [aac_confirm a_beta].
    * rewrite (get2_rotate0 2 (ov + 1)) by (exact X4 || lia). apply X5. lia.
    * rewrite (get2_rotate 2 (ov + 1)) by (exact X4 || lia). apply X5. lia.
  + apply (rotate_sh2 3 (ov + 2)); [lia|exact X6].
  + apply (rotate_wf (ov + 1)); [lia|exact X7].
Qed.

Lemma impl_shape sys s x t dt : shape s ->
  exists s' out d xerr log, aabm_impl ov sys s x t dt = Ok (s', out, d, xerr, log) /\ shape s' /\ a_eo s' = a_eo s /\ a_si s' = a_si s.
Proof.
  intros Hs. pose proof Hs as [X1 X2 X3 X4 X5 X6 X7 X8 X9 X10 X11]. destruct (any_times s t Hs) as (h & Ht & E0).
  destruct (predict_ok ov Hov s t dt h Hs Ht E0) as (s1 & E1 & Q1 & Q2 & Q3 & M1).
  pose proof (mid_any _ _ _ M1) as Hs1.
  unfold aabm_impl. rewrite E1. cbn [rbind].
  assert (X : exists s2 log, (if (a_si s1 =? 1)%nat then let! s2 := aac_do_step ov s1 (sys x t) 1 in Ok (s2, [(x, t)]) else Ok (s1, []))
      = Ok (s2, log) /\ shape s2 /\ a_eo s2 = a_eo s /\ a_si s2 = a_si s).
  { destruct (a_si s1 =? 1)%nat.
    - destruct (do_step_shape s1 (sys x t) 1 Hs1 ltac:(lia)) as (s2 & E2 & P1 & P2 & P3 & _). rewrite E2. cbn [rbind].
      do 2 eexists. split; [reflexivity|]. split; [exact P1|]. split; congruence.
    - do 2 eexists. split; [reflexivity|]. auto. }
  destruct X as (s2 & log & E2 & Hs2 & P1 & P2). rewrite E2. cbn [rbind].
  match goal with |- context [for_lt 0 (a_eo s) ?f x] => set (body := f) end.
  destruct (for_lt_inv (fun i (out : vec N I) => True) body 0 (a_eo s) x) as (pred & E3 & _); [|exact Logic.I|].
  { intros i out Hi _. unfold body.
    destruct (get2_ok 3 (ov + 2) ltac:(lia) (a_phi s2) 1 i (sh_phi ov s2 Hs2) ltac:(lia)) as (p & Ep). rewrite Ep. cbn [rbind].
    destruct (vget_Ok_lt (a_g s2) i ltac:(rewrite (sh_g ov s2 Hs2); lia)) as (q & Eq). rewrite Eq. cbn [rbind].
    destruct (get2_ok 2 (ov + 1) ltac:(lia) (a_beta s2) 0 i (sh_beta ov s2 Hs2) ltac:(lia)) as (b & Eb). rewrite Eb. cbn [rbind]. eauto. }
  rewrite E3. cbn [rbind].
  destruct (do_step_shape s2 (sys pred (t + dt)) 0 Hs2 ltac:(lia)) as (s3 & E4 & Hs3 & P3 & P4 & _). rewrite E4. cbn [rbind].
  destruct (get2_ok 3 (ov + 2) ltac:(lia) (a_phi s3) 0 (a_eo s) (sh_phi ov s3 Hs3) ltac:(lia)) as (p & Ep). rewrite Ep. cbn [rbind].
  destruct (vget_Ok_lt (a_g s3) (a_eo s) ltac:(rewrite (sh_g ov s3 Hs3); lia)) as (q & Eq). rewrite Eq. cbn [rbind].
  do 5 eexists. split; [reflexivity|]. split; [exact Hs3|]. split; congruence.
Qed.
Lemma bump_eo (s : aac N I) : (1 <= a_eo s <= ov)%nat -> (1 <= (if (a_eo s <? ov)%nat then S (a_eo s) else a_eo s) <= ov)%nat
  /\ ((if (a_eo s <? ov)%nat then S (a_eo s) else a_eo s) <= a_eo s + 1)%nat.
Proof. intro H. destruct (Nat.ltb_spec (a_eo s) ov); lia. Qed.
Lemma step_shape sys s x t dt : shape s ->
  exists s' out xerr log, aabm_do_step ov sys s x t dt = Ok (s', out, xerr, log) /\ shape s'.
Proof.
  intro Hs. destruct (impl_shape sys s x t dt Hs) as (s1 & out & d & xerr & log & E & Hs1 & P1 & P2).
  unfold aabm_do_step. rewrite E. cbn [rbind].
  destruct (do_step_shape s1 (sys out (t + dt)) 0 Hs1 ltac:(lia)) as (s2 & E2 & Hs2 & P3 & P4 & _). rewrite E2. cbn [rbind].
  do 4 eexists. split; [reflexivity|]. change (a_eo (aac_confirm ov s2)) with (a_eo s2).
  pose proof Hs2 as [Z1 Z2 _ _ _ _ _ _ _ _ _]. pose proof (bump_eo s2 Z1) as [B1 B2].
  apply confirm_shape; [exact Hs2|exact B1|]. lia.
Qed.
Lemma init_round_shape s t dt d : shape s ->
  exists s1 s2, aac_predict ov s t dt = Ok s1 /\ aac_do_step ov s1 d 0 = Ok s2
   /\ shape (set_eo (aac_confirm ov s2) (if (a_eo (aac_confirm ov s2) <? ov)%nat then S (a_eo (aac_confirm ov s2)) else a_eo (aac_confirm ov s2))).
Proof.
  intro Hs. destruct (any_times s t Hs) as (h & Ht & E0).
  destruct (predict_ok ov Hov s t dt h Hs Ht E0) as (s1 & E1 & Q1 & Q2 & Q3 & M1).
  destruct (do_step_shape s1 d 0 (mid_any _ _ _ M1) ltac:(lia)) as (s2 & E2 & Hs2 & P3 & P4 & _).
  exists s1, s2. split; [exact E1|]. split; [exact E2|]. change (a_eo (aac_confirm ov s2)) with (a_eo s2).
  pose proof Hs2 as [Z1 Z2 _ _ _ _ _ _ _ _ _]. pose proof (bump_eo s2 Z1) as [B1 B2].
  apply confirm_shape; [exact Hs2|exact B1|]. lia.
Qed.
Lemma init_shape sys {ES} (estep : ES -> vec N I -> vec N I -> N -> N -> res (ES * vec N I)) : forall n e s x d t dt e' s' x' t', shape s ->
  aabm_init_loop ov sys estep n e s x d t dt = Ok (e', s', x', t') -> shape s'.
Proof.
  induction n as [|n IH]; intros e s x d t dt e' s' x' t' Hs E; cbn [aabm_init_loop] in E.
  - injection E as _ <- _ _. exact Hs.
  - destruct (estep e x d t dt) as [[e1 x1]| | |]; cbn [rbind] in E; try discriminate E.
    destruct (init_round_shape s t dt (sys x1 (t + dt)) Hs) as (s1 & s2 & E1 & E2 & Hs2).
    rewrite E1 in E. cbn [rbind] in E. rewrite E2 in E. cbn [rbind] in E. exact (IH _ _ _ _ _ _ _ _ _ _ Hs2 E).
Qed.
Lemma obj_shape s : aabm_obj ov s -> shape s.
Proof.
  induction 1 as [beta phi g time c s M E|s H IH|sys s x t dt s' out xerr log H IH E|sys ES estep e s x t dt e' s' x' t' H IH E].
  - destruct (ctor_ok _ _ _ _ _ M) as (s1 & E1 & Hs). rewrite E1 in E. injection E as <-. exact Hs.
  - now apply reset_shape.
  - destruct (step_shape sys s x t dt IH) as (s1 & o1 & x1 & l1 & E1 & Hs). rewrite E1 in E. injection E as <- _ _ _. exact Hs.
  - unfold aabm_initialize in E. exact (init_shape sys estep _ _ _ _ _ _ _ _ _ _ _ (reset_shape s IH) E).
Qed.
End Gen.

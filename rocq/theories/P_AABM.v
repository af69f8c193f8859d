(** The tables of adaptive_adams_bashforth_moulton in any arithmetic: accesses in bounds, and what they hold. *)
From Coq Require Import ZArith List Bool Arith Lia.
From Verif Require Import M_Num M_Run M_RK M_CtrlRK M_Midpoint M_Adams M_AABM S_Adams P_BS P_Adams.
Import ListNotations.
Local Open Scope res_scope.

(** ** Loops *)
Lemma for_n_inv {S} (P : nat -> S -> Prop) (f : nat -> S -> res S) : forall n i s,
  (forall j s, (i <= j < i + n)%nat -> P j s -> exists s', f j s = Ok s' /\ P (Datatypes.S j) s') ->
  P i s -> exists s', for_n f n i s = Ok s' /\ P (i + n)%nat s'.
Proof.
  induction n as [|n IH]; intros i s H Hs; cbn [for_n].
  - exists s. rewrite Nat.add_0_r. auto.
  - destruct (H i s ltac:(lia) Hs) as (s1 & E & H1). rewrite E. cbn [rbind].
    destruct (IH (Datatypes.S i) s1) as (s2 & E2 & H2); [intros j s' Hj; apply H; lia|exact H1|].
    exists s2. split; [exact E2|]. now replace (i + Datatypes.S n)%nat with (Datatypes.S i + n)%nat by lia.
Qed.
Lemma for_lt_inv {S} (P : nat -> S -> Prop) (f : nat -> S -> res S) lo hi s :
  (forall j s, (lo <= j < hi)%nat -> P j s -> exists s', f j s = Ok s' /\ P (Datatypes.S j) s') ->
  P lo s -> exists s', for_lt lo hi f s = Ok s' /\ P (Nat.max lo hi) s'.
Proof.
  intros H Hs. unfold for_lt. destruct (for_n_inv P f (hi - lo) lo s) as (s' & E & H').
  - intros j s0 Hj. apply H. lia.
  - exact Hs.
  - exists s'. split; [exact E|]. now replace (Nat.max lo hi) with (lo + (hi - lo))%nat by lia.
Qed.

(** ** Rotating buffers of arrays *)
Section Sh2.
Context {A : Type}.
Variables dim len : nat.
Hypothesis Hd : (0 < dim)%nat.

Definition sh2 (b : rb (list A)) : Prop := rb_wf dim b /\ Forall (fun r => length r = len) (rb_data b).

Lemma vget_Ok_lt {B} (l : list B) k : (k < length l)%nat -> exists a, vget l k = Ok a.
Proof. intro H. destruct (vget_lt l k H) as (a & E). exists a. unfold vget. now rewrite E. Qed.

Lemma row_ok b o : sh2 b -> exists r, rb_get dim b o = Ok r /\ length r = len.
Proof.
  intros [Hw Hf]. destruct (get_ok dim Hd b o Hw) as (r & E). exists r. split; [exact E|].
  unfold rb_get, vget in E. destruct (nth_error (rb_data b) (rb_index dim b o)) as [r'|] eqn:En; [|discriminate E].
  injection E as ->. rewrite Forall_forall in Hf. apply Hf. eapply nth_error_In; eassumption.
Qed.

Lemma get2_ok b o i : sh2 b -> (i < len)%nat -> exists a, get2 dim b o i = Ok a.
Proof.
  intros Hb Hi. destruct (row_ok b o Hb) as (r & E & L). unfold get2. rewrite E. cbn [rbind]. apply vget_Ok_lt. lia.
Qed.

Lemma set2_ok b o i a : sh2 b -> (o < dim)%nat -> (i < len)%nat -> exists b', set2 dim b o i a = Ok b' /\ sh2 b'
  /\ get2 dim b' o i = Ok a
  /\ forall o' i', (o' < dim)%nat -> (o' <> o \/ i' <> i) -> get2 dim b' o' i' = get2 dim b o' i'.
Proof.
  intros Hb Ho Hi. pose proof Hb as [Hw Hf]. pose proof Hw as [W1 W2].
  unfold set2, get2, rb_get, rb_set, vget.
  pose proof (rb_index_lt dim Hd b o) as Lo.
  destruct (nth_error (rb_data b) (rb_index dim b o)) as [r|] eqn:Er; [|apply nth_error_None in Er; lia].
  assert (Lr : length r = len) by (rewrite Forall_forall in Hf; apply Hf; eapply nth_error_In; eassumption).
  cbn [rbind]. destruct (vset_lt r i a ltac:(lia)) as (r' & E1 & L1 & G1 & G1').
  rewrite E1. cbn [rbind].
  destruct (vset_lt (rb_data b) (rb_index dim b o) r' ltac:(lia)) as (d' & E2 & L2 & G2 & G2').
  rewrite E2. cbn [rbind]. exists (mkRb d' (rb_first b)). split; [reflexivity|]. split.
  - split; [split; [cbn; lia|exact W2]|]. cbn [rb_data]. apply Forall_forall. intros y Hy. apply In_nth_error in Hy as (n & Hn).
    destruct (Nat.eq_dec n (rb_index dim b o)) as [Q|Q].
    + rewrite Q, G2 in Hn. injection Hn as <-. lia.
    + rewrite (G2' n Q) in Hn. rewrite Forall_forall in Hf. apply Hf. eapply nth_error_In; eassumption.
  - cbn [rb_data]. split.
    + change (rb_index dim (mkRb d' (rb_first b)) o) with (rb_index dim b o). rewrite G2. cbn [rbind]. now rewrite G1.
    + intros o' i' Ho' Hne. change (rb_index dim (mkRb d' (rb_first b)) o') with (rb_index dim b o').
      destruct (Nat.eq_dec o' o) as [Q|Q].
      * rewrite Q, G2, Er. cbn [rbind]. rewrite G1'; [reflexivity|]. destruct Hne; congruence.
      * rewrite G2'; [reflexivity|]. intro X. apply Q. apply (index_inj dim Hd b); assumption.
Qed.

Lemma rotate_sh2 b : sh2 b -> sh2 (rb_rotate dim b).
Proof. intros [Hw Hf]. split; [now apply rotate_wf|exact Hf]. Qed.
Lemma get2_rotate b o i : sh2 b -> get2 dim (rb_rotate dim b) (S o) i = get2 dim b o i.
Proof. intros [Hw Hf]. unfold get2, rb_get. cbn [rb_data rb_rotate]. now rewrite (rotate_index dim Hd b o Hw). Qed.
Lemma index_rot0 (b : rb (list A)) : rb_wf dim b -> rb_index dim (rb_rotate dim b) 0 = rb_index dim b (dim - 1).
Proof.
  intro Hw. pose proof (rotate_index dim Hd b (dim - 1) Hw) as E. rewrite <- E. unfold rb_index.
  replace (S (dim - 1) + rb_first (rb_rotate dim b))%nat with (0 + rb_first (rb_rotate dim b) + 1 * dim)%nat by lia.
  now rewrite Nat.mod_add by lia.
Qed.
Lemma get2_rotate0 b i : sh2 b -> get2 dim (rb_rotate dim b) 0 i = get2 dim b (dim - 1) i.
Proof. intros [Hw Hf]. unfold get2, rb_get. cbn [rb_data rb_rotate]. now rewrite (index_rot0 b Hw). Qed.
End Sh2.

Lemma rb_get_rotate {A} dim (b : rb A) i : (0 < dim)%nat -> rb_wf dim b -> rb_get dim (rb_rotate dim b) (S i) = rb_get dim b i.
Proof. intros Hd Hw. unfold rb_get. cbn [rb_data rb_rotate]. now rewrite (rotate_index dim Hd b i Hw). Qed.

(** ** The quantities of the method, by recurrence over the history (points with derivatives, latest first) *)
Section Gen.
Context {N : Num} {I : Type}.
Local Open Scope num_scope.
Notation hist := (list (N * vec N I)).

Definition tms (h : hist) (i : nat) : N := nth i (map fst h) (nofZ 0).
Fixpoint bS (t' : N) (h : hist) (j : nat) : N :=
  match j with
  | O => nofZ 1
  | S j' => bS t' h j' * (t' - tms h j') / (tms h 0 - tms h (S j'))
  end.
Fixpoint cS (t' dt : N) (h : hist) (j : nat) (q : nat) : N :=
  match j with
  | O => nofZ 1 / nofnat (q + 1)
  | S j' => match j' with
            | O => nofZ 1 / nofnat ((q + 1) * (q + 2))
            | S _ => cS t' dt h j' q - cS t' dt h j' (q + 1) * dt / (t' - tms h j')
            end
  end.
Fixpoint pS (h : hist) : nat -> vec N I :=
  match h with
  | [] => fun _ _ => nofZ 0
  | (t', d) :: h' =>
      fix go (j : nat) : vec N I :=
        match j with
        | O => d
        | S j' => fun i => scale_sum [(nofZ 1, go j' i); (nopp (bS t' h' j'), pS h' j' i)]
        end
  end.
Lemma pS_0 t d h : pS ((t, d) :: h) 0 = d.
Proof. reflexivity. Qed.
Lemma pS_S t d h j : pS ((t, d) :: h) (S j) = fun i => scale_sum [(nofZ 1, pS ((t, d) :: h) j i); (nopp (bS t h j), pS h j i)].
Proof. reflexivity. Qed.
Lemma cS_S t' dt h j q : cS t' dt h (S (S j)) q = cS t' dt h (S j) q - cS t' dt h (S j) (q + 1) * dt / (t' - tms h (S j)).
Proof. reflexivity. Qed.
Fixpoint predS (h : hist) (dt : N) (k : nat) (x : vec N I) : vec N I :=
  match k with
  | O => x
  | S k' => fun j => scale_sum [(nofZ 1, predS h dt k' x j); (dt * cS (tms h 0 + dt) dt h k' 0 * bS (tms h 0 + dt) h k', pS h k' j)]
  end.

Variable ov : nat.
Hypothesis Hov : (1 <= ov)%nat.

(** The object between two calls. *)
Record shape (s : aac N I) : Prop := mkShape {
  sh_eo : (1 <= a_eo s <= ov)%nat;
  sh_si : (a_eo s <= a_si s <= ov + 1)%nat;
  sh_ns : a_ns s = 0%nat;
  sh_beta : sh2 2 (ov + 1) (a_beta s);
  sh_b0 : forall o, (o < 2)%nat -> get2 2 (a_beta s) o 0 = Ok (nofZ 1);
  sh_phi : sh2 3 (ov + 2) (a_phi s);
  sh_time : rb_wf (ov + 1) (a_time s);
  sh_g : length (a_g s) = (ov + 2)%nat;
  sh_g01 : forall i, (i < 2)%nat -> vget (a_g s) i = Ok (cS (nofZ 0) (nofZ 0) [] i 0);
  sh_c : length (a_c s) = ((ov + 2) * (ov + 2))%nat;
  sh_c01 : forall i j, (i < 2)%nat -> (j < ov + 2)%nat -> vget (a_c s) (c_size ov * i + j) = Ok (cS (nofZ 0) (nofZ 0) [] i j) }.

(** The times before the current one are in the storage. *)
Definition times (s : aac N I) (h : hist) : Prop := forall i, (1 <= i < a_si s)%nat -> rb_get (ov + 1) (a_time s) i = Ok (tms h i).
(** The number of entries of phi[1] that are right. *)
Definition ok_to (s : aac N I) : nat := Nat.min (a_eo s) (a_si s - 1).
Definition phis (s : aac N I) (o : nat) (h : hist) (n : nat) : Prop := forall j, (j <= n)%nat -> get2 3 (a_phi s) o j = Ok (pS h j).
Definition inv (s : aac N I) (h : hist) : Prop := shape s /\ times s h /\ phis s 1 h (ok_to s).

Lemma c01_const t' dt h i j : (i < 2)%nat -> cS t' dt h i j = cS (nofZ 0) (nofZ 0) [] i j.
Proof. intro H. destruct i as [|[|i]]; [reflexivity|reflexivity|lia]. Qed.

Lemma idx_lt i j : (i < ov + 2)%nat -> (j < ov + 2)%nat -> (c_size ov * i + j < (ov + 2) * (ov + 2))%nat.
Proof. unfold c_size. intros H1 H2. nia. Qed.
Lemma idx_inj i j i' j' : (j < ov + 2)%nat -> (j' < ov + 2)%nat -> (c_size ov * i + j = c_size ov * i' + j')%nat -> i = i' /\ j = j'.
Proof.
  unfold c_size. intros H1 H2 E.
  assert (G : forall i j, (j < ov + 2)%nat -> (((ov + 2) * i + j) / (ov + 2) = i)%nat).
  { intros a b Hb. rewrite (Nat.mul_comm (ov + 2) a), Nat.div_add_l by lia. rewrite (Nat.div_small b) by exact Hb. lia. }
  assert (i = i') by (rewrite <- (G i j H1), E; now apply G). subst i'. split; [reflexivity|lia].
Qed.

(** Row [a], column [j] of c that predict uses. *)
Definition c_valid (eo a j : nat) : Prop := if (a <? 2)%nat then (j < ov + 2)%nat else (j < eo + 2 - a)%nat.
Definition cg_inv (eo : nat) (t' dt : N) (h : hist) (i : nat) (s : list N * list N) : Prop :=
  length (fst s) = ((ov + 2) * (ov + 2))%nat /\ length (snd s) = (ov + 2)%nat
  /\ (forall a j, (a < i)%nat -> c_valid eo a j -> vget (fst s) (c_size ov * a + j) = Ok (cS t' dt h a j))
  /\ (forall a, (a < i)%nat -> vget (snd s) a = Ok (cS t' dt h a 0)).

Lemma c_row eo tm t t' (dt : N) h i c g : (1 <= eo <= ov)%nat -> (2 <= i < eo + 2)%nat -> cg_inv eo t' dt h i (c, g) ->
  rb_get (ov + 1) tm 0 = Ok t -> rb_get (ov + 1) tm (i - 1) = Ok (tms h (i - 1)) -> t' = t + dt ->
  exists s', cg_upd ov eo tm dt i (c, g) = Ok s' /\ cg_inv eo t' dt h (S i) s'.
Proof.
  intros He Hi (L1 & L2 & H1 & H2) Ht Hti Et. cbn [fst snd] in *.
  unfold cg_upd. rewrite Ht. cbn [rbind]. rewrite Hti. cbn [rbind]. rewrite <- Et.
  set (body := fun j c0 => _).
  set (P := fun (j : nat) (c' : list N) => length c' = ((ov + 2) * (ov + 2))%nat
     /\ (forall a b, (a < i)%nat -> c_valid eo a b -> vget c' (c_size ov * a + b) = Ok (cS t' dt h a b))
     /\ (forall b, (b < j)%nat -> (b < eo + 2 - i)%nat -> vget c' (c_size ov * i + b) = Ok (cS t' dt h i b))).
  destruct (for_lt_inv P body 0 (eo + 1 - i + 1) c) as (c' & E & HP).
  - intros j c0 Hj (K1 & K2 & K3). unfold body.
    assert (V1 : c_valid eo (i - 1) j) by (unfold c_valid; destruct (Nat.ltb_spec (i - 1) 2); lia).
    assert (V2 : c_valid eo (i - 1) (j + 1)) by (unfold c_valid; destruct (Nat.ltb_spec (i - 1) 2); lia).
    rewrite (K2 (i - 1)%nat j ltac:(lia) V1). cbn [rbind].
    replace (c_size ov * (i - 1) + j + 1)%nat with (c_size ov * (i - 1) + (j + 1))%nat by lia.
    rewrite (K2 (i - 1)%nat (j + 1)%nat ltac:(lia) V2). cbn [rbind].
    destruct (vset_lt c0 (c_size ov * i + j) (cS t' dt h (i - 1) j - cS t' dt h (i - 1) (j + 1) * dt / (t' - tms h (i - 1)))) as (c1 & E1 & M1 & G1 & G2).
    { rewrite K1. apply idx_lt; lia. }
    exists c1. split; [exact E1|]. split; [lia|]. split.
    + intros a b Ha Hb. unfold vget. rewrite G2; [exact (K2 a b Ha Hb)|]. intro Q. apply idx_inj in Q; [lia| |lia].
      unfold c_valid in Hb. destruct (Nat.ltb_spec a 2); lia.
    + intros b Hb Hb'. destruct (Nat.eq_dec b j) as [Q|Q].
      * subst b. unfold vget. rewrite G1. destruct i as [|[|i]]; [lia|lia|]. rewrite cS_S. cbn [Nat.sub]. now rewrite ?Nat.sub_0_r.
      * unfold vget. rewrite G2; [exact (K3 b ltac:(lia) Hb')|]. intro Q'. apply idx_inj in Q'; lia.
  - split; [exact L1|]. split; [exact H1|]. intros b Hb. lia.
  - rewrite E. cbn [rbind]. destruct HP as (K1 & K2 & K3).
    replace (c_size ov * i)%nat with (c_size ov * i + 0)%nat by lia. rewrite (K3 0%nat) by lia. cbn [rbind].
    destruct (vset_lt g i (cS t' dt h i 0)) as (g' & E1 & M1 & G1 & G2); [lia|]. rewrite E1. cbn [rbind].
    exists (c', g'). split; [reflexivity|]. unfold cg_inv. cbn [fst snd]. split; [exact K1|]. split; [lia|]. split.
    + intros a j Ha Hv. destruct (Nat.eq_dec a i) as [Q|Q].
      * subst a. unfold c_valid in Hv. destruct (Nat.ltb_spec i 2); [lia|]. apply K3; lia.
      * apply K2; [lia|exact Hv].
    + intros a Ha. unfold vget. destruct (Nat.eq_dec a i) as [Q|Q]; [subst a; now rewrite G1|].
      rewrite G2 by lia. apply H2. lia.
Qed.

(** The object between predict and confirm. *)
Definition mid (s : aac N I) (dt : N) (h : hist) : Prop :=
  shape s /\ times s h /\ rb_get (ov + 1) (a_time s) 0 = Ok (tms h 0)
  /\ (forall j, (j <= ok_to s)%nat -> get2 2 (a_beta s) 0 j = Ok (bS (tms h 0 + dt) h j))
  /\ (forall j, (j <= S (ok_to s))%nat -> vget (a_g s) j = Ok (cS (tms h 0 + dt) dt h j 0)).

Lemma predict_ok s t dt h : shape s -> times s h -> tms h 0 = t ->
  exists s', aac_predict ov s t dt = Ok s' /\ a_eo s' = a_eo s /\ a_si s' = a_si s /\ a_phi s' = a_phi s /\ mid s' dt h.
Proof.
  intros Hs Ht E0. pose proof Hs as [X1 X2 X3 X4 X5 X6 X7 X8 X9 X10 X11].
  unfold aac_predict.
  destruct (set0_ok (ov + 1) ltac:(lia) (a_time s) t X7) as (tm & E & W & G0 & G).
  rewrite E. cbn [rbind]. rewrite G0. cbn [rbind].
  destruct (get_ok (ov + 1) ltac:(lia) tm 1 W) as (t1 & E1). rewrite E1. cbn [rbind].
  assert (Hns : (if (nofZ 1 / nofZ 10000000000000000 <? nabs (t - t1 - dt)) || (a_ns s <=? a_eo s)%nat then 0%nat
            else if (a_ns s <? ov + 2)%nat then S (a_ns s) else a_ns s) = 0%nat).
  { rewrite X3. cbn [Nat.leb]. now rewrite orb_true_r. }
  rewrite Hns. cbn [Nat.add].
  assert (Gt : forall i, (i < a_si s)%nat -> rb_get (ov + 1) tm i = Ok (tms h i)).
  { intros [|i] Hi; [now rewrite E0|]. rewrite G by lia. apply Ht. lia. }
  set (P := fun (i : nat) (b : rb (list N)) => sh2 2 (ov + 1) b /\ (forall o, (o < 2)%nat -> get2 2 b o 0 = Ok (nofZ 1))
     /\ forall j, (j < i)%nat -> get2 2 b 0 j = Ok (bS (t + dt) h j)).
  destruct (for_lt_inv P (beta_upd ov tm dt) 1 (Nat.min (a_eo s + 1) (a_si s)) (a_beta s)) as (b & Eb & Sb & B0 & B).
  { intros i b Hi (K1 & K2 & K3). unfold beta_upd. rewrite G0. cbn [rbind].
    rewrite (Gt i) by lia. cbn [rbind]. rewrite (K3 (i - 1)%nat) by lia. cbn [rbind]. rewrite (Gt (i - 1)%nat) by lia. cbn [rbind].
    destruct (set2_ok 2 (ov + 1) ltac:(lia) b 0 i (bS (t + dt) h (i - 1) * (t + dt - tms h (i - 1)) / (t - tms h i))) as (b' & F1 & F2 & F3 & F4);
      [exact K1|lia|lia|].
    exists b'. split; [exact F1|]. split; [exact F2|]. split.
    - intros o Ho. rewrite F4 by lia. now apply K2.
    - intros j Hj. destruct (Nat.eq_dec j i) as [Q|Q].
      + subst j. rewrite F3. destruct i as [|i]; [lia|]. cbn [bS]. rewrite E0. cbn [Nat.sub]. now rewrite ?Nat.sub_0_r.
      + rewrite F4 by lia. apply K3. lia. }
  { split; [exact X4|]. split; [exact X5|]. intros j Hj. replace j with 0%nat by lia. rewrite X5 by lia. reflexivity. }
  rewrite Eb. cbn [rbind].
  destruct (for_lt_inv (cg_inv (a_eo s) (t + dt) dt h) (cg_upd ov (a_eo s) tm dt) 2 (Nat.min (a_eo s + 2) (a_si s + 1)) (a_c s, a_g s))
    as ([c g] & Ec & Hc1 & Hc2 & Hc3 & Hc4).
  { intros i [c g] Hi Hcg. apply (c_row (a_eo s) tm t); [exact X1|lia|exact Hcg|exact G0|apply Gt; lia|reflexivity]. }
  { split; [exact X10|]. split; [exact X8|]. cbn [fst snd]. split.
    - intros a j Ha Hv. rewrite c01_const by exact Ha. apply X11; [exact Ha|]. unfold c_valid in Hv. destruct (Nat.ltb_spec a 2); lia.
    - intros a Ha. rewrite c01_const by exact Ha. now apply X9. }
  rewrite Ec. cbn [rbind fst snd] in *. eexists. split; [reflexivity|]. cbn [a_eo a_si a_phi]. split; [reflexivity|]. split; [reflexivity|].
  split; [reflexivity|]. unfold mid, ok_to, times. cbn [a_eo a_si a_beta a_time a_g]. rewrite E0. split.
  - split; cbn [a_eo a_si a_ns a_beta a_phi a_time a_g a_c]; try assumption; try reflexivity.
    + intros i Hi. rewrite Hc4 by lia. now rewrite c01_const.
    + intros i j Hi Hj. rewrite Hc3; [now rewrite c01_const|lia|]. unfold c_valid. destruct (Nat.ltb_spec i 2); [exact Hj|lia].
  - split; [intros i Hi; apply Gt; lia|]. split; [exact G0|]. split.
    + intros j Hj. apply B. lia.
    + intros j Hj. apply Hc4. lia.
Qed.

(** do_step( dxdt ) *)
Lemma do_step0_ok s dt d h : mid s dt h -> phis s 1 h (ok_to s) ->
  exists s', aac_do_step ov s d 0 = Ok s' /\ a_eo s' = a_eo s /\ a_si s' = a_si s /\ mid s' dt h
    /\ (forall i, get2 3 (a_phi s') 1 i = get2 3 (a_phi s) 1 i) /\ a_g s' = a_g s /\ a_beta s' = a_beta s /\ a_time s' = a_time s
    /\ phis s' 0 ((tms h 0 + dt, d) :: h) (S (ok_to s)).
Proof.
  intros (Hs & Ht & Ht0 & Hb & Hg) Hp. pose proof Hs as [X1 X2 X3 X4 X5 X6 X7 X8 X9 X10 X11].
  unfold aac_do_step. destruct (set2_ok 3 (ov + 2) ltac:(lia) (a_phi s) 0 0 d X6) as (p0 & E & S0 & G0 & G); [lia|lia|].
  rewrite E. cbn [rbind].
  set (h' := (tms h 0 + dt, d) :: h).
  set (P := fun (i : nat) (b : rb (list (vec N I))) => sh2 3 (ov + 2) b
     /\ (forall j, get2 3 b 1 j = get2 3 (a_phi s) 1 j)
     /\ forall j, (j < i)%nat -> (j <= S (ok_to s))%nat -> get2 3 b 0 j = Ok (pS h' j)).
  destruct (for_lt_inv P (phi_upd (a_beta s) 0) 1 (Nat.min (a_eo s + 3) (Nat.min (a_si s + 2) (ov + 2))) p0) as (p & Ep & Sp & P1 & P0).
  - intros i b Hi (K1 & K2 & K3). unfold phi_upd. cbn [Nat.eqb Nat.add].
    destruct (get2_ok 3 (ov + 2) ltac:(lia) b 0 (i - 1) K1 ltac:(lia)) as (u & Eu). rewrite Eu. cbn [rbind].
    destruct (get2_ok 3 (ov + 2) ltac:(lia) b 1 (i - 1) K1 ltac:(lia)) as (v & Ev). rewrite Ev. cbn [rbind].
    destruct (get2_ok 2 (ov + 1) ltac:(lia) (a_beta s) 0 (i - 1) X4 ltac:(lia)) as (w & Ew). rewrite Ew. cbn [rbind].
    destruct (set2_ok 3 (ov + 2) ltac:(lia) b 0 i (fun j => scale_sum [(nofZ 1, u j); (nopp w, v j)])) as (b' & F1 & F2 & F3 & F4);
      [exact K1|lia|lia|].
    exists b'. split; [exact F1|]. split; [exact F2|]. split.
    + intros j. rewrite F4 by lia. apply K2.
    + intros j Hj Hj2. destruct (Nat.eq_dec j i) as [Q|Q].
      * subst j. rewrite F3. destruct i as [|i]; [lia|].
        replace (S i - 1)%nat with i in * by lia.
        rewrite K3 in Eu by lia. injection Eu as <-. rewrite K2, (Hp i ltac:(lia)) in Ev. injection Ev as <-.
        rewrite (Hb i ltac:(lia)) in Ew. injection Ew as <-. unfold h'. now rewrite pS_S.
      * rewrite F4 by lia. apply K3; lia.
  - split; [exact S0|]. split; [intro j; apply G; lia|]. intros j Hj _. replace j with 0%nat by lia. exact G0.
  - rewrite Ep. cbn [rbind]. eexists. split; [reflexivity|]. cbn [a_eo a_si a_phi a_g a_beta a_time set_phi]. split; [reflexivity|].
    split; [reflexivity|]. split; [|split; [exact P1|]].
    + unfold mid, times, ok_to. cbn [a_eo a_si a_phi a_g a_beta a_time set_phi]. split; [|now auto].
      split; cbn [a_eo a_si a_ns a_beta a_phi a_time a_g a_c set_phi]; assumption.
    + split; [reflexivity|]. split; [reflexivity|]. split; [reflexivity|].
      intros j Hj. unfold set_phi. cbn [a_phi]. unfold ok_to in *. apply P0; lia.
Qed.

(** do_step( dxdt , 1 ) *)
Lemma do_step1_ok s dt d h : mid s dt h ->
  exists s', aac_do_step ov s d 1 = Ok s' /\ a_eo s' = a_eo s /\ a_si s' = a_si s /\ mid s' dt h /\ get2 3 (a_phi s') 1 0 = Ok d.
Proof.
  intros (Hs & Ht & Ht0 & Hb & Hg). pose proof Hs as [X1 X2 X3 X4 X5 X6 X7 X8 X9 X10 X11].
  unfold aac_do_step. destruct (set2_ok 3 (ov + 2) ltac:(lia) (a_phi s) 1 0 d X6) as (p0 & E & S0 & G0 & G); [lia|lia|].
  rewrite E. cbn [rbind].
  set (P := fun (i : nat) (b : rb (list (vec N I))) => sh2 3 (ov + 2) b /\ get2 3 b 1 0 = Ok d).
  destruct (for_lt_inv P (phi_upd (a_beta s) 1) 1 (Nat.min (a_eo s + 3) (Nat.min (a_si s + 2) (ov + 2))) p0) as (p & Ep & Sp & P1).
  - intros i b Hi (K1 & K2). unfold phi_upd. cbn [Nat.eqb].
    destruct (get2_ok 3 (ov + 2) ltac:(lia) b 1 (i - 1) K1 ltac:(lia)) as (u & Eu). rewrite Eu. cbn [rbind].
    destruct (set2_ok 3 (ov + 2) ltac:(lia) b 1 i (fun j => scale_sum [(nofZ 1, u j)])) as (b' & F1 & F2 & F3 & F4); [exact K1|lia|lia|].
    exists b'. split; [exact F1|]. split; [exact F2|]. rewrite F4 by lia. exact K2.
  - split; [exact S0|exact G0].
  - rewrite Ep. cbn [rbind]. eexists. split; [reflexivity|]. cbn [a_eo a_si a_phi set_phi]. split; [reflexivity|].
    split; [reflexivity|]. split; [|exact P1].
    unfold mid, times, ok_to. cbn [a_eo a_si a_phi a_g a_beta a_time set_phi]. split; [|now auto].
    split; cbn [a_eo a_si a_ns a_beta a_phi a_time a_g a_c set_phi]; assumption.
Qed.

(** confirm and the new order *)
Lemma confirm_ok s dt d h eo' : mid s dt h -> phis s 0 ((tms h 0 + dt, d) :: h) (S (ok_to s)) ->
  (1 <= eo' <= ov)%nat -> (eo' <= a_eo s + 1)%nat -> (eo' <= Nat.min (a_si s + 1) (ov + 1))%nat ->
  a_si (aac_confirm ov s) = Nat.min (a_si s + 1) (ov + 1)
  /\ phis (aac_confirm ov s) 1 ((tms h 0 + dt, d) :: h) (S (ok_to s))
  /\ inv (set_eo (aac_confirm ov s) eo') ((tms h 0 + dt, d) :: h).
Proof.
  intros (Hs & Ht & Ht0 & Hb & Hg) Hp H1 H2 H3. pose proof Hs as [X1 X2 X3 X4 X5 X6 X7 X8 X9 X10 X11].
  assert (Esi : a_si (aac_confirm ov s) = Nat.min (a_si s + 1) (ov + 1)).
  { cbn [aac_confirm a_si]. destruct (Nat.ltb_spec (a_si s) (ov + 1)); lia. }
  assert (Gp : phis (aac_confirm ov s) 1 ((tms h 0 + dt, d) :: h) (S (ok_to s))).
  { intros j Hj. cbn [aac_confirm a_phi]. rewrite (get2_rotate 3 (ov + 2)) by (exact X6 || lia). now apply Hp. }
  split; [exact Esi|]. split; [exact Gp|]. split; [|split].
  - assert (Q : (eo' <= a_si (aac_confirm ov s) <= ov + 1)%nat) by lia.
    split; unfold set_eo; cbn [a_eo a_si a_ns a_beta a_phi a_time a_g a_c]; try assumption.
    + apply (rotate_sh2 2 (ov + 1)); [lia|exact X4].
    + intros [|o] Ho; cbn [aac_confirm a_beta].
      * rewrite (get2_rotate0 2 (ov + 1)) by (exact X4 || lia). apply X5. lia.
      * rewrite (get2_rotate 2 (ov + 1)) by (exact X4 || lia). apply X5. lia.
    + apply (rotate_sh2 3 (ov + 2)); [lia|exact X6].
    + apply (rotate_wf (ov + 1)); [lia|exact X7].
  - intros i Hi. cbn [set_eo a_si] in Hi. rewrite Esi in Hi. cbn [set_eo aac_confirm a_time].
    destruct i as [|i]; [lia|]. rewrite rb_get_rotate by (exact X7 || lia).
    change (tms ((tms h 0 + dt, d) :: h) (S i)) with (tms h i).
    destruct i as [|i]; [exact Ht0|]. apply Ht. lia.
  - intros j Hj. change (a_phi (set_eo (aac_confirm ov s) eo')) with (a_phi (aac_confirm ov s)). apply Gp.
    unfold ok_to in *. change (a_si (set_eo (aac_confirm ov s) eo')) with (a_si (aac_confirm ov s)) in Hj.
    change (a_eo (set_eo (aac_confirm ov s) eo')) with eo' in Hj. rewrite Esi in Hj. lia.
Qed.
End Gen.

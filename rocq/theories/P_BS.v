(** bulirsch_stoer: table accesses, order bounds (any arithmetic). *)
From Coq Require Import ZArith List Bool Arith Lia.
From Verif Require Import M_Num M_Sign M_Run M_RK M_CtrlRK M_Midpoint M_BS.
Import ListNotations.
Local Open Scope num_scope.
Local Open Scope res_scope.

(** *** Vectors *)
Lemma vget_nth {A} (v : list A) k a : nth_error v k = Some a -> vget v k = Ok a.
Proof. unfold vget. now intros ->. Qed.
Lemma vget_Ok {A} (v : list A) k a : vget v k = Ok a -> nth_error v k = Some a.
Proof. unfold vget. destruct (nth_error v k); congruence. Qed.
Lemma vget_lt {A} (v : list A) k : (k < length v)%nat -> exists a, nth_error v k = Some a.
Proof. intro H. destruct (nth_error v k) eqn:E; [eauto|]. apply nth_error_None in E. lia. Qed.
Lemma vset_lt {A} : forall (v : list A) k a, (k < length v)%nat ->
  exists v', vset v k a = Ok v' /\ length v' = length v /\ nth_error v' k = Some a
   /\ forall j, j <> k -> nth_error v' j = nth_error v j.
Proof.
  induction v as [|b v IH]; intros k a H; simpl in H; [lia|].
  destruct k as [|k].
  - exists (a :: v). repeat split; auto. intros [|j]; [congruence|reflexivity].
  - destruct (IH k a ltac:(lia)) as (v' & E & L & G & O). simpl. rewrite E. simpl.
    exists (b :: v'). simpl. repeat split; auto. intros [|j] Hj; [reflexivity|]. simpl. apply O. congruence.
Qed.
Lemma rbind_Ok {A B} (m : res A) (f : A -> res B) b : rbind m f = Ok b -> exists a, m = Ok a /\ f a = Ok b.
Proof. destruct m; simpl; intro H; try discriminate. eauto. Qed.

Lemma nth_error_map_seq {A} (g : nat -> A) n k : (k < n)%nat -> nth_error (map g (seq 0 n)) k = Some (g k).
Proof.
  intro H. rewrite nth_error_map, (nth_error_nth' _ 0%nat) by now rewrite seq_length.
  rewrite seq_nth by lia. reflexivity.
Qed.
Lemma bs_seqs_nth q k : (k <= 8)%nat -> nth_error (bs_seqs q) k = Some (q k).
Proof. intro H. unfold bs_seqs, k_max. apply nth_error_map_seq. lia. Qed.
Lemma bs_costs_nth q k : (k <= 8)%nat -> nth_error (bs_costs q) k = Some (bs_cost q k).
Proof. intro H. unfold bs_costs, k_max. apply nth_error_map_seq. lia. Qed.

(** *** Extrapolation never leaves its tables *)
Section Ex.
Context {N : Num} {I : Type}.
Lemma cget_ok q n k j : (j < k < n)%nat -> cget (N := N) (ex_coeffs q n) k j = Ok (ex_coeff q k j).
Proof.
  intro H. unfold cget, ex_coeffs. rewrite (vget_nth _ _ (map (ex_coeff q k) (seq 0 k))) by (apply (nth_error_map_seq (fun i => map (ex_coeff q i) (seq 0 i)) n k); lia).
  simpl. apply vget_nth. apply (nth_error_map_seq (ex_coeff q k) k j). lia.
Qed.

Lemma ex_down_ok q n k : forall j (table : list (vec N I)), (j < k < n)%nat -> (j < length table)%nat ->
  exists table', ex_down (ex_coeffs q n) k j table = Ok table' /\ length table' = length table.
Proof.
  induction j as [|j IH]; intros table Hj Hl; cbn [ex_down].
  - eauto.
  - rewrite cget_ok by lia. cbn [rbind].
    destruct (vget_lt table (S j) Hl) as [a Ha]. rewrite (vget_nth _ _ _ Ha). cbn [rbind].
    destruct (vget_lt table j ltac:(lia)) as [b Hb]. rewrite (vget_nth _ _ _ Hb). cbn [rbind].
    destruct (vset_lt table j (ex_comb (ex_coeff q k (S j)) a b) ltac:(lia)) as (t' & E & L & _). rewrite E. cbn [rbind].
    destruct (IH t' ltac:(lia) ltac:(lia)) as (t2 & E2 & L2). exists t2. split; [exact E2|congruence].
Qed.

Lemma extrapolate_ok q n k (table : list (vec N I)) xest : (0 < k < n)%nat -> (k <= length table)%nat ->
  exists table' x', extrapolate (ex_coeffs q n) k table xest = Ok (table', x') /\ length table' = length table.
Proof.
  intros Hk Hl. unfold extrapolate. destruct (ex_down_ok q n k (k - 1) table ltac:(lia) ltac:(lia)) as (t' & E & L).
  rewrite E. cbn [rbind]. rewrite cget_ok by lia. cbn [rbind].
  destruct (vget_lt t' 0 ltac:(lia)) as [a Ha]. rewrite (vget_nth _ _ _ Ha). cbn [rbind]. eauto.
Qed.
End Ex.

(** *** The control *)
Section Ctl.
Context {N : Num}.
Variable pw : N -> N -> N.
Variable dense : bool.
Notation calc := (calc_h_opt pw dense).

Lemma calc_ok dt e k : (1 <= k <= 8)%nat -> exists h, calc dt e k = Ok h.
Proof.
  intro H. unfold calc_h_opt. destruct dense; cbn [seq_of].
  - rewrite (vget_nth _ _ _ (bs_seqs_nth bsd_seq (k - 1) ltac:(lia))). cbn [rbind].
    unfold facmins, k_max. rewrite (vget_nth _ _ (facmin pw k)) by (apply nth_error_map_seq; lia). cbn [rbind]. eauto.
  - unfold facmins, k_max. cbn [rbind].
    rewrite (vget_nth _ _ (facmin pw k)) by (apply nth_error_map_seq; lia). cbn [rbind]. eauto.
Qed.

Lemma should_reject_ok ko e k : (ko <= 7)%nat -> exists b, should_reject (N := N) dense ko e k = Ok b.
Proof.
  intro H. unfold should_reject.
  rewrite !(vget_nth _ _ _ (bs_seqs_nth (seq_of dense) _ (ltac:(lia) : (ko <= 8)%nat))).
  rewrite !(vget_nth _ _ _ (bs_seqs_nth (seq_of dense) _ (ltac:(lia) : (ko + 1 <= 8)%nat))).
  rewrite !(vget_nth _ _ _ (bs_seqs_nth (seq_of dense) _ (ltac:(lia) : (0 <= 8)%nat))).
  rewrite (vget_nth _ _ _ (bs_seqs_nth (seq_of dense) (if dense then (ko + 1)%nat else ko) ltac:(destruct dense; lia))).
  cbn [rbind]. destruct (Nat.eqb (S k) ko); [eauto|]. destruct (Nat.eqb k ko); eauto.
Qed.

(** [h] times a quotient of entries of the cost table. *)
Definition scaled (h h' : N) : Prop :=
  h' = h \/ exists a b, (1 <= b <= a)%nat /\ (a <= 8)%nat /\ cost_ratio dense h a b = Ok h'.

Lemma cost_ratio_ok h a b : (a <= 8)%nat -> (b <= 8)%nat -> exists h', cost_ratio (N := N) dense h a b = Ok h'.
Proof.
  intros Ha Hb. unfold cost_ratio.
  rewrite (vget_nth _ _ _ (bs_costs_nth (seq_of dense) a Ha)), (vget_nth _ _ _ (bs_costs_nth (seq_of dense) b Hb)).
  cbn [rbind]. eauto.
Qed.

(** What a pass through the loop body guarantees. *)
Definition verdict_ok (k ko : nat) (first : bool) (error : N) (h_opt : list N) (v : verdict N) : Prop :=
  match v with
  | VCont => (k <= ko)%nat /\ (k = ko \/ S k = ko \/ first = true -> (error <? nofZ 1) = false)
  | VBreak true k' h => k' = ko /\ (error <? nofZ 1) = false
      /\ exists j, nth_error h_opt j = Some h /\ (j = k \/ (j = ko /\ k = (ko + 1)%nat))
  | VBreak false k' h => (2 <= k' <= 7)%nat /\ (error <? nofZ 1) = true
      /\ exists j h0, (1 <= j <= k)%nat /\ nth_error h_opt j = Some h0 /\ scaled h0 h
  end.

Ltac getv l i Hn := let a := fresh "a" in
  destruct (vget_lt l i ltac:(lia)) as [a Hn]; rewrite (vget_nth _ _ _ Hn); cbn [rbind].

Lemma decide_before_ok k ko first error h_opt work :
  (1 <= k <= 8)%nat -> (2 <= ko <= 7)%nat -> (k <= 7 \/ (first = false /\ S k = ko))%nat ->
  length h_opt = 9%nat -> length work = 9%nat ->
  exists v, decide_before dense k ko first error h_opt work = Ok v
   /\ match v with VCont => (error <? nofZ 1) = false | _ => verdict_ok k ko first error h_opt v end.
Proof.
  intros Hk Hko Hk7 Lh Lw. unfold decide_before. destruct (error <? nofZ 1) eqn:Ee.
  - getv work k H1. getv work (k - 1)%nat H2.
    match goal with |- context [if ?b then _ else _] => destruct b end.
    + getv h_opt k H3. destruct (cost_ratio_ok a1 (k + 1) k ltac:(lia) ltac:(lia)) as [h' Eh]. rewrite Eh. cbn [rbind].
      eexists; split; [reflexivity|]. unfold verdict_ok, k_max. split; [lia|]. split; [exact Ee|].
      exists k, a1. split; [lia|]. split; [exact H3|]. right. exists (k + 1)%nat, k. split; [lia|]. split; [lia|exact Eh].
    + getv h_opt k H3. eexists; split; [reflexivity|]. unfold verdict_ok, k_max. split; [lia|]. split; [exact Ee|].
      exists k, a1. split; [lia|]. split; [exact H3|]. now left.
  - destruct (should_reject_ok ko error k ltac:(lia)) as [b Eb]. rewrite Eb. cbn [rbind].
    destruct (b && negb first).
    + getv h_opt k H3. eexists; split; [reflexivity|]. unfold verdict_ok. split; [reflexivity|]. split; [exact Ee|]. eauto.
    + eexists; split; [reflexivity|reflexivity].
Qed.

Lemma decide_at_ok k ko first lastrej error h_opt work :
  k = ko -> (2 <= ko <= 7)%nat -> length h_opt = 9%nat -> length work = 9%nat ->
  exists v, decide_at dense k ko lastrej error h_opt work = Ok v /\ verdict_ok k ko first error h_opt v.
Proof.
  intros -> Hko Lh Lw. unfold decide_at. destruct (error <? nofZ 1) eqn:Ee.
  - getv work ko H1. getv work (ko - 1)%nat H2. match goal with |- context [if ?b then _ else _] => destruct b end.
    + getv h_opt (Nat.max 2 (ko - 1)) H3. eexists; split; [reflexivity|]. unfold verdict_ok. split; [lia|].
      split; [exact Ee|]. exists (Nat.max 2 (ko - 1)), a1. split; [lia|]. split; [exact H3|now left].
    + match goal with |- context [if ?b then _ else _] => destruct b end.
      * getv h_opt ko H3. unfold k_max. destruct (cost_ratio_ok a1 (Nat.min (8 - 1) (ko + 1)) ko ltac:(lia) ltac:(lia)) as [h' Eh].
        rewrite Eh. cbn [rbind]. eexists; split; [reflexivity|]. unfold verdict_ok. split; [lia|]. split; [exact Ee|].
        exists ko, a1. split; [lia|]. split; [exact H3|]. right. eexists _, ko. split; [|split; [|exact Eh]]; lia.
      * getv h_opt ko H3. eexists; split; [reflexivity|]. unfold verdict_ok. split; [lia|]. split; [exact Ee|].
        exists ko, a1. split; [lia|]. split; [exact H3|now left].
  - destruct (should_reject_ok ko error ko ltac:(lia)) as [b Eb]. rewrite Eb. cbn [rbind]. destruct b.
    + getv h_opt ko H3. eexists; split; [reflexivity|]. unfold verdict_ok. split; [reflexivity|]. split; [exact Ee|]. eauto.
    + eexists; split; [reflexivity|]. unfold verdict_ok. split; [lia|]. intros _. exact Ee.
Qed.

Lemma decide_after_ok k ko first lastrej error h_opt work :
  k = (ko + 1)%nat -> (2 <= ko <= 7)%nat -> length h_opt = 9%nat -> length work = 9%nat ->
  exists v, decide_after k ko lastrej error h_opt work = Ok v /\ verdict_ok k ko first error h_opt v /\ v <> VCont.
Proof.
  intros -> Hko Lh Lw. unfold decide_after. destruct (error <? nofZ 1) eqn:Ee.
  - getv work (ko + 1 - 2)%nat H1. getv work (ko + 1 - 1)%nat H2. getv work (ko + 1)%nat H3.
    set (k1 := if _ <? _ then _ else ko). assert (K1 : (2 <= k1 <= ko)%nat) by (subst k1; match goal with |- context [if ?b then _ else _] => destruct b end; lia).
    clearbody k1. getv work k1 H4.
    set (k2 := if _ && _ then _ else k1).
    assert (K2 : (2 <= k2 <= 7 /\ k2 <= ko + 1)%nat) by (subst k2; unfold k_max; match goal with |- context [if ?b then _ else _] => destruct b end; lia).
    clearbody k2. getv h_opt k2 H5. eexists; split; [reflexivity|]. split; [|discriminate]. unfold verdict_ok.
    split; [lia|]. split; [exact Ee|]. exists k2, a3. split; [lia|]. split; [exact H5|now left].
  - getv h_opt ko H5. eexists; split; [reflexivity|]. split; [|discriminate]. unfold verdict_ok.
    split; [reflexivity|]. split; [exact Ee|]. eauto.
Qed.

Lemma stage_decide_ok k ko first lastrej error h_opt work :
  (1 <= k <= ko + 1)%nat -> (2 <= ko <= 7)%nat -> (first = true -> k <= 7)%nat ->
  length h_opt = 9%nat -> length work = 9%nat ->
  exists v, stage_decide dense k ko first lastrej error h_opt work = Ok v /\ verdict_ok k ko first error h_opt v.
Proof.
  intros Hk Hko Hf Lh Lw. unfold stage_decide.
  assert (B : exists v, (if Nat.eqb (S k) ko || first then decide_before dense k ko first error h_opt work else Ok VCont) = Ok v
     /\ match v with VCont => (S k = ko \/ first = true -> (error <? nofZ 1) = false) | _ => verdict_ok k ko first error h_opt v end).
  { destruct (Nat.eqb_spec (S k) ko) as [E|E]; cbn [orb].
    - destruct (decide_before_ok k ko first error h_opt work ltac:(lia) Hko ltac:(left; lia) Lh Lw) as (v & E1 & H1).
      exists v. split; [exact E1|]. destruct v; auto.
    - destruct first.
      + destruct (decide_before_ok k ko true error h_opt work ltac:(lia) Hko ltac:(left; auto) Lh Lw) as (v & E1 & H1).
        exists v. split; [exact E1|]. destruct v; auto.
      + eexists; split; [reflexivity|]. cbn. intros [Q|Q]; [contradiction|discriminate]. }
  destruct B as (v1 & -> & H1). cbn [rbind]. destruct v1 as [|r k' h]; [|eauto].
  assert (A : exists v, (if Nat.eqb k ko then decide_at dense k ko lastrej error h_opt work else Ok VCont) = Ok v
     /\ match v with VCont => (k = ko -> (error <? nofZ 1) = false) | _ => verdict_ok k ko first error h_opt v end).
  { destruct (Nat.eqb_spec k ko) as [E|E].
    - destruct (decide_at_ok k ko first lastrej error h_opt work E Hko Lh Lw) as (v & E1 & H2).
      exists v. split; [exact E1|]. destruct v; [|exact H2]. intros _. cbn in H2. apply H2. auto.
    - eexists; split; [reflexivity|]. intro; contradiction. }
  destruct A as (v2 & -> & H2). cbn [rbind]. destruct v2 as [|r k' h]; [|eauto].
  destruct (Nat.eqb_spec k (ko + 1)) as [E|E].
  - destruct (decide_after_ok k ko first lastrej error h_opt work E Hko Lh Lw) as (v & E1 & H3 & _). eauto.
  - eexists; split; [reflexivity|]. cbn. split; [lia|]. intros [Q|Q]; auto.
Qed.

(** The loop: in bounds, always left through a verdict, and what is known about new_h. *)
Section Loop.
Context {D : Type}.
Variable stage : nat -> D -> res (D * N).
Variable PD : D -> Prop.
Variable PE : nat -> N -> Prop.
Hypothesis Hstage : forall k d, (k <= 8)%nat -> PD d ->
  exists d' e, stage k d = Ok (d', e) /\ PD d' /\ ((1 <= k)%nat -> PE k e).

Definition loop_post (ko : nat) (dt : N) (r : D * nat * bool * nat * N) : Prop :=
  let '(d, kf, reject, k', new_h) := r in
  PD d /\ (1 <= kf <= ko + 1)%nat /\ (2 <= k' <= 7)%nat /\
  (if reject : bool
   then k' = ko /\ exists j e, (1 <= j <= 8)%nat /\ PE j e /\ (e <? nofZ 1) = false /\ calc dt e j = Ok new_h
   else (exists e, PE kf e /\ (e <? nofZ 1) = true) /\
        exists j e h0, (1 <= j <= 8)%nat /\ PE j e /\ calc dt e j = Ok h0 /\ scaled h0 new_h).

Lemma bs_loop_ok ko first lastrej dt : (2 <= ko <= 7)%nat -> (first = true -> ko <= 6)%nat ->
  forall n k d kf h_opt work, (n + k = ko + 2)%nat -> (k <= ko + 1)%nat -> PD d ->
  length h_opt = 9%nat -> length work = 9%nat ->
  (forall j h, (1 <= j < k)%nat -> nth_error h_opt j = Some h -> exists e, PE j e /\ calc dt e j = Ok h) ->
  ((ko < k)%nat -> forall h, nth_error h_opt ko = Some h -> exists e, PE ko e /\ calc dt e ko = Ok h /\ (e <? nofZ 1) = false) ->
  exists r, bs_loop pw dense stage n k ko first lastrej dt d kf h_opt work = Ok r /\ loop_post ko dt r.
Proof.
  intros Hko Hf. induction n as [|n IH]; intros k d kf h_opt work Hn Hk HD Lh Lw Hh Hho; [lia|].
  cbn [bs_loop]. destruct (Hstage k d ltac:(lia) HD) as (d1 & e & Es & HD1 & HE). rewrite Es. cbn [rbind].
  destruct (Nat.eqb_spec k 0) as [->|K0].
  - apply IH; auto; try lia.
  - specialize (HE ltac:(lia)).
    destruct (calc_ok dt e k ltac:(lia)) as [h Eh]. rewrite Eh. cbn [rbind].
    destruct (vset_lt h_opt k h ltac:(lia)) as (h1 & E1 & L1 & G1 & O1). rewrite E1. cbn [rbind].
    rewrite (vget_nth _ _ _ (bs_costs_nth (seq_of dense) k ltac:(lia))). cbn [rbind].
    destruct (vset_lt work k (nofnat (bs_cost (seq_of dense) k) / h) ltac:(lia)) as (w1 & E2 & L2 & G2 & O2). rewrite E2. cbn [rbind].
    destruct (stage_decide_ok k ko first lastrej e h1 w1 ltac:(lia) Hko ltac:(intro Q; specialize (Hf Q); lia) ltac:(lia) ltac:(lia))
      as (v & Ev & Hv). rewrite Ev. cbn [rbind].
    assert (Hh1 : forall j h, (1 <= j < S k)%nat -> nth_error h1 j = Some h -> exists e, PE j e /\ calc dt e j = Ok h).
    { intros j h' Hj Hn'. destruct (Nat.eq_dec j k) as [->|Q].
      - exists e. split; [exact HE|]. congruence.
      - apply Hh; [lia|]. now rewrite <- O1. }
    destruct v as [|[] k' nh]; cbn [verdict_ok] in Hv.
    + destruct Hv as [Hv1 Hv2]. apply IH; auto; try lia.
      intros Hkk h' Hn'. assert (E : k = ko) by lia. subst k. exists e. split; [exact HE|]. split; [congruence|]. apply Hv2. auto.
    + eexists; split; [reflexivity|]. destruct Hv as (-> & Hv2 & j & Hj & Hc). unfold loop_post.
      split; [exact HD1|]. split; [lia|]. split; [lia|]. split; [reflexivity|].
      destruct Hc as [->|[-> ->]].
      * exists k, e. split; [lia|]. split; [exact HE|]. split; [exact Hv2|]. congruence.
      * rewrite O1 in Hj by lia. destruct (Hho ltac:(lia) _ Hj) as (e' & A & B & C). exists ko, e'. split; [lia|]. auto.
    + eexists; split; [reflexivity|]. destruct Hv as (Hk' & Hv2 & j & h0 & Hj & Hn0 & Hs). unfold loop_post.
      split; [exact HD1|]. split; [lia|]. split; [lia|]. split; [eauto|].
      destruct (Hh1 j h0 ltac:(lia) Hn0) as (e' & A & B). exists j, e', h0. split; [lia|]. auto.
Qed.

Lemma bs_run_ok ko first lastrej dt d : (2 <= ko <= 7)%nat -> (first = true -> ko <= 6)%nat -> PD d ->
  exists r, bs_run pw dense stage ko first lastrej dt d = Ok r /\ loop_post ko dt r.
Proof.
  intros Hko Hf HD. unfold bs_run. apply bs_loop_ok; auto; try lia.
Qed.
End Loop.
End Ctl.

(** *** bulirsch_stoer *)
Section BS.
Context {N : Num} {I : Type}.
Variable idx : list I.
Variable pw : N -> N -> N.
Variable sys : vec N I -> N -> vec N I.
Variable cfg : err_cfg N.
Variable max_dt : N.
Notation core := (bs_core idx pw sys cfg max_dt).
Notation try := (bs_try idx pw sys cfg max_dt).
Notation try2 := (bs_try_v2 idx pw sys cfg max_dt).

Lemma bs_stage_ok inp dxdt t dt k (d : bs_data (N := N) (I := I)) : (k <= 8)%nat -> length (snd (fst d)) = 8%nat ->
  exists d' e, bs_stage idx sys cfg inp dxdt t dt k d = Ok (d', e) /\ length (snd (fst d')) = 8%nat.
Proof.
  intros Hk. destruct d as [[m table] out]. cbn [fst snd]. intro L. unfold bs_stage.
  rewrite (vget_nth _ _ _ (bs_seqs_nth bs_seq k Hk)). cbn [rbind].
  destruct (mm_step sys m (bs_seq k) inp dxdt t dt) as [m1 y].
  destruct (Nat.eqb_spec k 0) as [->|K0].
  - eexists _, _. split; [reflexivity|]. exact L.
  - destruct (vset_lt table (k - 1) y ltac:(lia)) as (t1 & E1 & L1 & _). rewrite E1. cbn [rbind].
    destruct (extrapolate_ok bs_seq (k_max + 1) k t1 out ltac:(unfold k_max; lia) ltac:(lia)) as (t2 & x2 & E2 & L2).
    unfold bs_coeff. rewrite E2. cbn [rbind].
    destruct (vget_lt t2 0 ltac:(lia)) as [a Ha]. rewrite (vget_nth _ _ _ Ha). cbn [rbind].
    eexists _, _. split; [reflexivity|]. cbn [fst snd]. congruence.
Qed.

(** The invariant of the object. *)
Definition bs_inv (s : bs N I) : Prop :=
  (2 <= bs_kopt s <= 7)%nat /\ (bs_first s = true -> bs_kopt s <= 6)%nat /\ length (bs_table s) = 8%nat.

Lemma bs_reset_inv s : bs_inv s -> bs_inv (bs_reset s).
Proof. intros (A & B & C). unfold bs_inv, bs_reset. cbn. repeat split; auto; lia. Qed.

End BS.

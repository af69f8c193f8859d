(** Proofs about the Runge-Kutta programs: the generic algorithm computes the
    stages of its tableau; aliasing. *)
From Coq Require Import ZArith List Bool Lia Arith FunctionalExtensionality.
From Verif Require Import M_Num M_RK S_RK.
Import ListNotations.

Lemma loc_eqb_refl : forall a, loc_eqb a a = true.
Proof. destruct a; simpl; auto using Nat.eqb_refl. Qed.
Lemma loc_eqb_eq : forall a b, loc_eqb a b = true -> a = b.
Proof.
  destruct a, b; simpl; intro H; try discriminate; auto.
  apply Nat.eqb_eq in H; now subst.
Qed.
Lemma loc_eqb_neq : forall a b, a <> b -> loc_eqb a b = false.
Proof. intros a b H. destruct (loc_eqb a b) eqn:E; auto. apply loc_eqb_eq in E; contradiction. Qed.

Section Gen.
Context {N : Num} {I : Type}.
Local Open Scope num_scope.
Variable f : vec N I -> N -> vec N I.

Lemma upd_same : forall (m : rkmem N I) l v, upd m l v l = v.
Proof. intros; unfold upd; now rewrite loc_eqb_refl. Qed.
Lemma upd_other : forall (m : rkmem N I) l l' v, l <> l' -> upd m l v l' = m l'.
Proof. intros; unfold upd; now rewrite loc_eqb_neq. Qed.

Lemma wr_K : forall al (m : rkmem N I) i v, wr al m (LK i) v = upd m (LK i) v.
Proof. reflexivity. Qed.

Lemma exec_app : forall al p q (m : rkmem N I),
  exec f al (p ++ q) m
  = let (m1, c1) := exec f al p m in
    let (m2, c2) := exec f al q m1 in (m2, c1 ++ c2).
Proof.
  induction p; intros; simpl.
  - now destruct (exec f al q m).
  - destruct (exec1 f al a m) as [m1 c1]. rewrite IHp.
    destruct (exec f al p m1) as [m2 c2]. destruct (exec f al q m2) as [m3 c3].
    now rewrite app_assoc.
Qed.

Lemma fold_left_map : forall A B C (g : A -> B -> A) (h : C -> B) l a,
  fold_left g (map h l) a = fold_left (fun s c => g s (h c)) l a.
Proof. induction l; intros; simpl; auto. Qed.

(** Reading the stage derivatives out of memory. *)
Definition holds (m : rkmem N I) (ks : list (vec N I)) : Prop :=
  forall j k, nth_error ks j = Some k -> m (ksrc j) = k.

Lemma terms_value : forall (m : rkmem N I) al dt row ks s0 j i0,
  holds m ks -> (i0 + length row <= length ks)%nat ->
  fold_left (fun s p => s + fst p * snd p)
    (map (fun p => (fst p, rd al m (snd p) j))
         (combine (map (fun a => a * dt) row) (map ksrc (seq i0 (length row))))) s0
  = fold_left (fun s p => s + (fst p * dt) * (snd p j)) (combine row (skipn i0 ks)) s0.
Proof.
  induction row as [|a row IH]; intros ks s0 j i0 Hm Hlen; simpl; auto.
  assert (exists k, nth_error ks i0 = Some k) as [k Hk].
  { destruct (nth_error ks i0) eqn:E; eauto. apply nth_error_None in E. simpl in Hlen; lia. }
  assert (Hskip : skipn i0 ks = k :: skipn (S i0) ks).
  { clear - Hk. revert ks Hk. induction i0; intros [|a ks] Hk; simpl in *; try discriminate.
    - now inversion Hk.
    - apply IHi0 in Hk. simpl in *. destruct ks; auto. }
  rewrite Hskip. simpl.
  replace (rd al m (ksrc i0) j) with (k j)
    by (unfold rd; destruct i0; simpl; rewrite <- (Hm _ _ Hk); reflexivity).
  apply (IH ks _ j (S i0)); auto. simpl in Hlen; lia.
Qed.

Lemma stage_value : forall (m : rkmem N I) al dt row ks x,
  holds m ks -> m LIn = x -> (length row <= length ks)%nat ->
  (fun j => scale_sum (map (fun p => (fst p, rd al m (snd p) j)) ((nofZ 1, LIn) :: gk_terms dt row)))
  = stage_arg x dt row ks.
Proof.
  intros m al dt row ks x Hm Hx Hlen. extensionality j.
  unfold gk_terms, stage_arg. simpl.
  rewrite (terms_value m al dt row ks) by (auto; simpl; lia).
  unfold rd; simpl. now rewrite Hx.
Qed.

Lemma err_value : forall (m : rkmem N I) al dt row ks,
  holds m ks -> (length row <= length ks)%nat ->
  (fun j => scale_sum (map (fun p => (fst p, rd al m (snd p) j)) (gk_terms dt row)))
  = err_arg dt row ks.
Proof.
  intros m al dt row ks Hm Hlen. extensionality j.
  unfold gk_terms, err_arg. destruct row as [|b row]; simpl; auto.
  destruct ks as [|k ks]; simpl in *; [lia|].
  rewrite (terms_value m al dt row (k :: ks)) by (auto; simpl; lia).
  simpl. unfold rd; simpl. rewrite <- (Hm 0%nat k eq_refl). reflexivity.
Qed.

(** Functional form of the stage recursion. *)
Fixpoint bks (x : vec N I) (t dt : N) (rows : list (list N)) (cs : list N) (ks : list (vec N I)) :=
  match rows, cs with
  | row :: rows', c :: cs' =>
      bks x t dt rows' cs' (ks ++ [f (stage_arg x dt row ks) (t + c * dt)])
  | _, _ => ks
  end.

Fixpoint bcalls (x : vec N I) (t dt : N) (rows : list (list N)) (cs : list N) (ks : list (vec N I)) :=
  match rows, cs with
  | row :: rows', c :: cs' =>
      (stage_arg x dt row ks, t + c * dt)
      :: bcalls x t dt rows' cs' (ks ++ [f (stage_arg x dt row ks) (t + c * dt)])
  | _, _ => []
  end.

Lemma nth_error_snoc : forall A (l : list A) a j k,
  nth_error (l ++ [a]) j = Some k ->
  (nth_error l j = Some k /\ (j < length l)%nat) \/ (j = length l /\ k = a).
Proof.
  intros A l a j k H. destruct (lt_dec j (length l)) as [h|h].
  - rewrite nth_error_app1 in H by auto. auto.
  - rewrite nth_error_app2 in H by lia.
    destruct (j - length l)%nat eqn:E; simpl in H.
    + inversion H; right; split; auto; lia.
    + destruct n; discriminate.
Qed.

(** Stages from the second on; [prow] is the row whose value is in [m_x_tmp]. *)
Lemma stages_correct : forall rows cs al x t dt ks prow b (m : rkmem N I),
  (1 <= length ks)%nat ->
  length cs = S (length rows) ->
  holds m ks -> m LIn = x -> m LTmp = stage_arg x dt prow ks ->
  (forall i row, nth_error rows i = Some row -> length row = S (length ks + i)) ->
  length b = S (length ks + length rows) ->
  exists m',
    exec f al (generic_stages t dt (S (length ks)) (rows ++ [b]) cs) m
    = (m', bcalls x t dt (prow :: rows) cs ks)
    /\ m' (resolve al LOut) = stage_arg x dt b (bks x t dt (prow :: rows) cs ks)
    /\ holds m' (bks x t dt (prow :: rows) cs ks)
    /\ (al_x al = false -> m' LIn = x).
Proof.
  induction rows as [|row rows IH]; intros cs al x t dt ks prow b m Hks Hcs Hm Hx Htmp Hrows Hb.
  - destruct cs as [|c cs]; simpl in Hcs; [lia|]. destruct cs; [|simpl in Hcs; lia].
    cbn [app generic_stages].
    assert ((1 <? S (length ks))%nat = true) as -> by (apply Nat.ltb_lt; lia).
    cbn [app exec exec1]. 
    set (k := f (rd al m LTmp) (t + c * dt)).
    assert (Hk : k = f (stage_arg x dt prow ks) (t + c * dt)) by (unfold k, rd; simpl; now rewrite Htmp).
    set (m1 := wr al m (LK (S (length ks) - 2)) k).
    assert (Hksrc : ksrc (length ks) = LK (S (length ks) - 2)).
    { destruct (length ks); simpl; [lia|]. f_equal; lia. }
    assert (H1 : holds m1 (ks ++ [k])).
    { intros j k' Hj. apply nth_error_snoc in Hj. destruct Hj as [[Hj Hlt]|[-> ->]].
      - unfold m1; rewrite wr_K. rewrite upd_other; [now apply Hm|].
        rewrite <- Hksrc. destruct j, (length ks); simpl; try discriminate; try lia.
        intro E; inversion E; lia.
      - unfold m1; rewrite wr_K. rewrite Hksrc. apply upd_same. }
    assert (Hx1 : m1 LIn = x) by (unfold m1, wr; simpl resolve; now rewrite upd_other by discriminate).
    rewrite (stage_value m1 al dt b (ks ++ [k]) x) by (auto; rewrite app_length; simpl in *; lia).
    eexists. split; [unfold rd; simpl; rewrite Htmp; reflexivity|].
    cbn [bks]. rewrite <- Hk.
    repeat split.
    + unfold wr. apply upd_same.
    + intros j k' Hj. unfold wr. rewrite upd_other; [now apply H1|].
      destruct al as [[] ?], j; simpl; discriminate.
    + intro Ha. unfold wr; simpl. rewrite Ha. rewrite upd_other by discriminate. exact Hx1.
  - destruct cs as [|c cs]; simpl in Hcs; [lia|].
    change ((row :: rows) ++ [b]) with (row :: (rows ++ [b])).
    cbn [generic_stages].
    assert ((1 <? S (length ks))%nat = true) as -> by (apply Nat.ltb_lt; lia).
    assert (Hne : (match rows ++ [b] with [] => LOut | _ :: _ => LTmp end) = LTmp)
      by (destruct rows; reflexivity).
    rewrite Hne.
    cbn [app exec exec1].
    set (k := f (rd al m LTmp) (t + c * dt)).
    assert (Hk : k = f (stage_arg x dt prow ks) (t + c * dt)) by (unfold k, rd; simpl; now rewrite Htmp).
    set (m1 := wr al m (LK (S (length ks) - 2)) k).
    assert (Hksrc : ksrc (length ks) = LK (S (length ks) - 2)).
    { destruct (length ks); simpl; [lia|]. f_equal; lia. }
    assert (H1 : holds m1 (ks ++ [k])).
    { intros j k' Hj. apply nth_error_snoc in Hj. destruct Hj as [[Hj Hlt]|[-> ->]].
      - unfold m1; rewrite wr_K. rewrite upd_other; [now apply Hm|].
        rewrite <- Hksrc. destruct j, (length ks); simpl; try discriminate; try lia.
        intro E; inversion E; lia.
      - unfold m1; rewrite wr_K. rewrite Hksrc. apply upd_same. }
    assert (Hx1 : m1 LIn = x) by (unfold m1, wr; simpl resolve; now rewrite upd_other by discriminate).
    assert (Hlr : length row = S (length ks)) by (rewrite (Hrows 0%nat row eq_refl); lia).
    rewrite (stage_value m1 al dt row (ks ++ [k]) x) by (auto; rewrite app_length; simpl in *; lia).
    set (m2 := wr al m1 LTmp _).
    assert (H2 : holds m2 (ks ++ [k])).
    { intros j k' Hj. unfold m2, wr; simpl resolve. rewrite upd_other; [now apply H1|].
      destruct j; simpl; discriminate. }
    destruct (IH cs al x t dt (ks ++ [k]) row b m2) as [m' (He & Ho & Hh & Hi)].
    + rewrite app_length; simpl; lia.
    + lia.
    + exact H2.
    + unfold m2, wr; simpl resolve. now rewrite upd_other by discriminate.
    + unfold m2, wr; simpl resolve. apply upd_same.
    + intros i r Hr. rewrite (Hrows (S i) r Hr). rewrite app_length; simpl. lia.
    + rewrite app_length; simpl in *. lia.
    + rewrite app_length in He; simpl in He. rewrite Nat.add_1_r in He.
      rewrite He.
      exists m'. split; [|split; [|split]].
      * unfold rd; simpl. rewrite Htmp, <- Hk. reflexivity.
      * change (bks x t dt (prow :: row :: rows) (c :: cs) ks)
          with (bks x t dt (row :: rows) cs (ks ++ [f (stage_arg x dt prow ks) (t + c * dt)])).
        rewrite <- Hk. exact Ho.
      * change (bks x t dt (prow :: row :: rows) (c :: cs) ks)
          with (bks x t dt (row :: rows) cs (ks ++ [f (stage_arg x dt prow ks) (t + c * dt)])).
        rewrite <- Hk. exact Hh.
      * exact Hi.
Qed.

(** The whole step: system at the start, then all stages. *)
Lemma generic_correct : forall tb al t dt (m : rkmem N I),
  wf_tableau tb ->
  exists m',
    run_step f al (generic_prog tb t dt) t m
    = (m', (m LIn, t) :: bcalls (m LIn) t dt (tab_a tb) (tl (tab_c tb)) [f (m LIn) t])
    /\ m' (resolve al LOut)
       = stage_arg (m LIn) dt (tab_b tb) (bks (m LIn) t dt (tab_a tb) (tl (tab_c tb)) [f (m LIn) t])
    /\ holds m' (bks (m LIn) t dt (tab_a tb) (tl (tab_c tb)) [f (m LIn) t])
    /\ (al_x al = false -> m' LIn = m LIn).
Proof.
  intros tb al t dt m [Hc Hb Hr].
  set (x := m LIn).
  unfold run_step, do_step_prog. cbn [exec exec1].
  set (m0 := wr al m LDx (f (rd al m LIn) t)).
  assert (Hh0 : holds m0 [f x t]).
  { intros [|j] k Hj; simpl in Hj; [|destruct j; discriminate]. inversion Hj.
    unfold m0, wr; simpl. rewrite upd_same. reflexivity. }
  assert (Hx0 : m0 LIn = x) by (unfold m0, wr; simpl; now rewrite upd_other by discriminate).
  unfold generic_prog.
  destruct (tab_c tb) as [|c0 cs] eqn:Ec; simpl in Hc; [lia|].
  destruct (tab_a tb) as [|row rows] eqn:Ea.
  - cbn [app generic_stages Nat.ltb Nat.leb]. cbn [app exec exec1].
    rewrite (stage_value m0 al dt (tab_b tb) [f x t] x) by (auto; rewrite Hb; simpl; lia).
    eexists. split; [reflexivity|]. cbn [tl bks]. repeat split.
    + unfold wr. apply upd_same.
    + intros j k' Hj. unfold wr. rewrite upd_other; [now apply Hh0|].
      destruct al as [[] ?], j; simpl; discriminate.
    + intro Ha. unfold wr; simpl. rewrite Ha. rewrite upd_other by discriminate. exact Hx0.
  - cbn [app generic_stages Nat.ltb Nat.leb].
    replace (match rows ++ [tab_b tb] with [] => LOut | _ :: _ => LTmp end) with LTmp
      by (destruct rows; reflexivity).
    cbn [app exec exec1].
    assert (Hlr : length row = 1%nat) by (exact (Hr 0%nat row eq_refl)).
    rewrite (stage_value m0 al dt row [f x t] x) by (auto; simpl; lia).
    set (m1 := wr al m0 LTmp _).
    assert (H1 : holds m1 [f x t]).
    { intros j k' Hj. unfold m1, wr; simpl resolve. rewrite upd_other; [now apply Hh0|].
      destruct j; simpl; discriminate. }
    destruct (stages_correct rows cs al x t dt [f x t] row (tab_b tb) m1)
      as [m' (He & Ho & Hh & Hi)].
    + simpl; lia.
    + simpl in Hc; lia.
    + exact H1.
    + unfold m1, wr; simpl resolve. now rewrite upd_other by discriminate.
    + unfold m1, wr; simpl resolve. apply upd_same.
    + intros i r Hi. rewrite (Hr (S i) r Hi). simpl; lia.
    + rewrite Hb; simpl; lia.
    + simpl length in He. rewrite He.
      exists m'. cbn [tl]. repeat split; auto.
Qed.

(** Relational reading of [bks]. *)
Lemma bks_length : forall x t dt rows cs ks,
  length cs = length rows -> length (bks x t dt rows cs ks) = (length ks + length rows)%nat.
Proof.
  induction rows; intros [|c cs] ks H; simpl in *; try lia.
  rewrite IHrows by lia. rewrite app_length; simpl; lia.
Qed.

Lemma bks_prefix : forall x t dt rows cs ks, exists r, bks x t dt rows cs ks = ks ++ r.
Proof.
  induction rows; intros [|c cs] ks; simpl; try (exists []; now rewrite app_nil_r).
  destruct (IHrows cs (ks ++ [f (stage_arg x dt a ks) (t + c * dt)])) as [r Hr].
  eexists. rewrite Hr, <- app_assoc. reflexivity.
Qed.

Lemma firstn_prefix : forall A (l r : list A), firstn (length l) (l ++ r) = l.
Proof. intros. rewrite firstn_app, Nat.sub_diag, firstn_all, firstn_O. apply app_nil_r. Qed.

Lemma bks_nth : forall x t dt rows cs ks s row c,
  nth_error rows s = Some row -> nth_error cs s = Some c ->
  nth_error (bks x t dt rows cs ks) (length ks + s)
  = Some (f (stage_arg x dt row (firstn (length ks + s) (bks x t dt rows cs ks))) (t + c * dt)).
Proof.
  induction rows as [|r0 rows IH]; intros cs ks s row c Hr Hc.
  - destruct s; discriminate.
  - destruct cs as [|c0 cs]; [destruct s; discriminate|]. cbn [bks].
    destruct s; simpl in Hr, Hc.
    + inversion Hr; inversion Hc; subst r0 c0.
      set (k := f (stage_arg x dt row ks) (t + c * dt)).
      destruct (bks_prefix x t dt rows cs (ks ++ [k])) as [r E]. rewrite E.
      rewrite Nat.add_0_r, <- app_assoc, firstn_prefix.
      rewrite nth_error_app2, Nat.sub_diag by lia. reflexivity.
    + set (k := f (stage_arg x dt r0 ks) (t + c0 * dt)).
      specialize (IH cs (ks ++ [k]) s row c Hr Hc).
      rewrite app_length in IH; simpl in IH.
      replace (length ks + 1 + s)%nat with (length ks + S s)%nat in IH by lia.
      exact IH.
Qed.

Lemma bks_stages : forall tb x dx t dt,
  wf_tableau tb ->
  rk_stages tb f x dx t dt (bks x t dt (tab_a tb) (tl (tab_c tb)) [dx]).
Proof.
  intros tb x dx t dt [Hc Hb Hr].
  assert (Hl : length (tl (tab_c tb)) = length (tab_a tb))
    by (destruct (tab_c tb); simpl in *; lia).
  constructor.
  - rewrite bks_length by auto. reflexivity.
  - destruct (bks_prefix x t dt (tab_a tb) (tl (tab_c tb)) [dx]) as [r E]. now rewrite E.
  - intros s row c Hs Hcs.
    apply (bks_nth x t dt (tab_a tb) (tl (tab_c tb)) [dx] s row c Hs).
    destruct (tab_c tb); simpl in *; [lia|exact Hcs].
Qed.

Lemma rk_stages_unique : forall tb x dx t dt ks ks',
  wf_tableau tb -> rk_stages tb f x dx t dt ks -> rk_stages tb f x dx t dt ks' -> ks = ks'.
Proof.
  intros tb x dx t dt ks ks' [Hc Hb Hr] [L1 Z1 S1] [L2 Z2 S2].
  assert (H : forall n, (n <= length ks)%nat -> firstn n ks = firstn n ks').
  { induction n; intros Hn; [reflexivity|].
    assert (Hnth : nth_error ks n = nth_error ks' n).
    { destruct n as [|s]; [congruence|].
      destruct (nth_error (tab_a tb) s) as [row|] eqn:Er.
      - destruct (nth_error (tab_c tb) (S s)) as [c|] eqn:Ec.
        + rewrite (S1 s row c Er Ec), (S2 s row c Er Ec). rewrite IHn by lia. reflexivity.
        + apply nth_error_None in Ec. lia.
      - apply nth_error_None in Er. lia. }
    specialize (IHn ltac:(lia)).
    assert (G : forall (l l' : list (vec N I)) n, firstn n l = firstn n l' ->
              nth_error l n = nth_error l' n -> firstn (S n) l = firstn (S n) l').
    { clear. induction l as [|a l IH]; intros [|a' l'] n H1 H2.
      - reflexivity.
      - destruct n; simpl in H1, H2; congruence.
      - destruct n; simpl in H1, H2; congruence.
      - destruct n; simpl in *.
        + congruence.
        + inversion H1; subst. f_equal. now apply (IH l' n). }
    now apply G. }
  specialize (H (length ks) (le_n _)).
  rewrite firstn_all in H. rewrite H, L1, <- L2, firstn_all. reflexivity.
Qed.

Lemma bcalls_points : forall x t dt rows cs ks,
  length cs = length rows ->
  bcalls x t dt rows cs ks
  = map (fun s => (stage_arg x dt (nth s rows []) (firstn (length ks + s) (bks x t dt rows cs ks)),
                   t + nth s cs (nofZ 0) * dt)) (seq 0 (length rows)).
Proof.
  induction rows as [|r0 rows IH]; intros [|c0 cs] ks H; simpl in H; try lia; auto.
  cbn [bcalls bks length seq map nth].
  set (k := f (stage_arg x dt r0 ks) (t + c0 * dt)).
  f_equal.
  - destruct (bks_prefix x t dt rows cs (ks ++ [k])) as [r E]. rewrite E.
    now rewrite Nat.add_0_r, <- app_assoc, firstn_prefix.
  - rewrite IH by lia. rewrite <- seq_shift, map_map. apply map_ext; intro s.
    rewrite app_length; simpl length. replace (length ks + 1 + s)%nat with (length ks + S s)%nat by lia.
    reflexivity.
Qed.

Lemma generic_calls : forall tb x dx t dt,
  wf_tableau tb ->
  (x, t) :: bcalls x t dt (tab_a tb) (tl (tab_c tb)) [dx]
  = stage_points tb x t dt (bks x t dt (tab_a tb) (tl (tab_c tb)) [dx]).
Proof.
  intros tb x dx t dt [Hc Hb Hr].
  assert (Hl : length (tl (tab_c tb)) = length (tab_a tb))
    by (destruct (tab_c tb); simpl in *; lia).
  unfold stage_points. f_equal. rewrite bcalls_points by auto.
  apply map_ext; intro s. destruct (tab_c tb); simpl in *; [lia|reflexivity].
Qed.

(** C34, law-free. *)
Theorem generic_is_butcher : forall tb al t dt (m : rkmem N I),
  wf_tableau tb ->
  exists m' ks,
    run_step f al (generic_prog tb t dt) t m = (m', stage_points tb (m LIn) t dt ks)
    /\ rk_stages tb f (m LIn) (f (m LIn) t) t dt ks
    /\ m' (resolve al LOut) = stage_arg (m LIn) dt (tab_b tb) ks
    /\ (al_x al = false -> m' LIn = m LIn).
Proof.
  intros tb al t dt m Hwf.
  destruct (generic_correct tb al t dt m Hwf) as [m' (He & Ho & Hh & Hi)].
  exists m', (bks (m LIn) t dt (tab_a tb) (tl (tab_c tb)) [f (m LIn) t]).
  rewrite He, generic_calls by auto. repeat split; auto.
  apply bks_stages; auto. apply bks_stages; auto.
  intros; now apply bks_stages.
Qed.

Theorem generic_err_is_butcher : forall tb al t dt (m : rkmem N I),
  wf_tableau tb -> length (tab_b2 tb) = length (tab_b tb) ->
  exists m' ks,
    run_step f al (generic_err_prog tb t dt) t m = (m', stage_points tb (m LIn) t dt ks)
    /\ rk_stages tb f (m LIn) (f (m LIn) t) t dt ks
    /\ m' (resolve al LOut) = stage_arg (m LIn) dt (tab_b tb) ks
    /\ m' LErr = err_arg dt (tab_b2 tb) ks
    /\ (al_x al = false -> m' LIn = m LIn).
Proof.
  intros tb al t dt m Hwf Hb2.
  destruct (generic_correct tb al t dt m Hwf) as [m' (He & Ho & Hh & Hi)].
  set (ks := bks (m LIn) t dt (tab_a tb) (tl (tab_c tb)) [f (m LIn) t]) in *.
  unfold run_step, do_step_prog, generic_err_prog in *.
  change (ISys LDx LIn t :: generic_prog tb t dt ++ [ISum LErr (gk_terms dt (tab_b2 tb))])
    with ((ISys LDx LIn t :: generic_prog tb t dt) ++ [ISum LErr (gk_terms dt (tab_b2 tb))]).
  rewrite exec_app, He. cbn [exec exec1].
  rewrite (err_value m' al dt (tab_b2 tb) ks Hh).
  2: { rewrite Hb2. unfold ks. destruct Hwf as [Hc Hb Hr].
       rewrite bks_length by (destruct (tab_c tb); simpl in *; lia). simpl; lia. }
  eexists _, ks. split; [|split; [|split; [|split]]].
  - cbn [app]. rewrite app_nil_r. rewrite generic_calls by auto. reflexivity.
  - now apply bks_stages.
  - unfold wr. rewrite upd_other; [exact Ho|]. destruct al as [[] ?]; discriminate.
  - unfold wr; simpl. apply upd_same.
  - intro Ha. unfold wr; simpl. rewrite upd_other by discriminate. auto.
Qed.

(** C39: in-place and out-of-place agree. *)
Definition separate : alias := mkAlias false false.

Theorem generic_alias : forall tb al t dt (m : rkmem N I),
  wf_tableau tb -> length (tab_b2 tb) = length (tab_b tb) ->
  let r := run_step f al (generic_err_prog tb t dt) t m in
  let r0 := run_step f separate (generic_err_prog tb t dt) t m in
  fst r (resolve al LOut) = fst r0 LOut /\ fst r LErr = fst r0 LErr /\ snd r = snd r0.
Proof.
  intros tb al t dt m Hwf Hb2. cbv zeta.
  destruct (generic_err_is_butcher tb al t dt m Hwf Hb2) as [m1 [k1 (E1 & S1 & O1 & R1 & _)]].
  destruct (generic_err_is_butcher tb separate t dt m Hwf Hb2) as [m2 [k2 (E2 & S2 & O2 & R2 & _)]].
  pose proof (rk_stages_unique _ _ _ _ _ _ _ Hwf S1 S2) as <-.
  rewrite E1, E2. cbn [fst snd]. simpl in O2. rewrite O1, O2, R1, R2. auto.
Qed.

Theorem generic_alias_noerr : forall tb al t dt (m : rkmem N I),
  wf_tableau tb ->
  let r := run_step f al (generic_prog tb t dt) t m in
  let r0 := run_step f separate (generic_prog tb t dt) t m in
  fst r (resolve al LOut) = fst r0 LOut /\ snd r = snd r0.
Proof.
  intros tb al t dt m Hwf. cbv zeta.
  destruct (generic_is_butcher tb al t dt m Hwf) as [m1 [k1 (E1 & S1 & O1 & _)]].
  destruct (generic_is_butcher tb separate t dt m Hwf) as [m2 [k2 (E2 & S2 & O2 & _)]].
  pose proof (rk_stages_unique _ _ _ _ _ _ _ Hwf S1 S2) as <-.
  rewrite E1, E2. cbn [fst snd]. simpl in O2. rewrite O1, O2. auto.
Qed.

(** *** Aliasing of the hand-written steppers by a read/write check.

    [alias_safe wo wd p]: [wo]/[wd] record whether [out]/[dxdt_out] have been
    written; after that the corresponding inputs must not be read any more. *)
Definition read_ok (wo wd : bool) (l : loc) : bool :=
  match l with
  | LIn => negb wo | LDx => negb wd | LOut => wo | LDxOut => wd | _ => true
  end.
Definition write_ok (wo wd : bool) (l : loc) : bool :=
  match l with LIn => false | LDx => negb wd | _ => true end.
Definition is_out (l : loc) : bool := match l with LOut => true | _ => false end.
Definition is_dxout (l : loc) : bool := match l with LDxOut => true | _ => false end.
Definition reads (i : instr N) : list loc :=
  match i with ISum _ ts => map snd ts | ISys _ s _ => [s] | ICopy _ s => [s] end.
Definition writes (i : instr N) : loc :=
  match i with ISum d _ => d | ISys d _ _ => d | ICopy d _ => d end.
Fixpoint alias_safe (wo wd : bool) (p : list (instr N)) : bool :=
  match p with
  | [] => true
  | i :: p' => forallb (read_ok wo wd) (reads i) && write_ok wo wd (writes i)
               && alias_safe (wo || is_out (writes i)) (wd || is_dxout (writes i)) p'
  end.

(** Agreement of an aliased and a separate memory on the readable buffers. *)
Definition agree (al : alias) (wo wd : bool) (m m0 : rkmem N I) : Prop :=
  forall l, read_ok wo wd l = true -> m (resolve al l) = m0 l.

Lemma resolve_separate : forall l, resolve separate l = l.
Proof. destruct l; reflexivity. Qed.

Lemma agree_step : forall al wo wd i (m m0 : rkmem N I),
  agree al wo wd m m0 ->
  forallb (read_ok wo wd) (reads i) = true -> write_ok wo wd (writes i) = true ->
  agree al (wo || is_out (writes i)) (wd || is_dxout (writes i))
    (fst (exec1 f al i m)) (fst (exec1 f separate i m0))
  /\ snd (exec1 f al i m) = snd (exec1 f separate i m0).
Proof.
  intros al wo wd i m m0 H Hr Hw.
  assert (Hv : exists v, fst (exec1 f al i m) = upd m (resolve al (writes i)) v
                      /\ fst (exec1 f separate i m0) = upd m0 (writes i) v
                      /\ snd (exec1 f al i m) = snd (exec1 f separate i m0)).
  { destruct i as [d ts|d s t|d s]; cbn [reads writes exec1 fst snd] in *; unfold wr.
    - rewrite resolve_separate. eexists; split; [reflexivity|]. split; [|reflexivity].
      f_equal. extensionality j. f_equal. apply map_ext_in. intros p Hp. f_equal.
      unfold rd. rewrite resolve_separate.
      rewrite (H (snd p)); auto.
      rewrite forallb_forall in Hr. apply Hr. now apply in_map.
    - simpl in Hr. rewrite andb_true_r in Hr. unfold rd. rewrite !resolve_separate.
      rewrite (H s Hr). eexists; repeat split; reflexivity.
    - simpl in Hr. rewrite andb_true_r in Hr. unfold rd. rewrite !resolve_separate.
      rewrite (H s Hr). eexists; repeat split; reflexivity. }
  destruct Hv as (v & E1 & E2 & E3). split; [|exact E3]. rewrite E1, E2. clear E1 E2 E3.
  intros l Hl.
  destruct (loc_eqb (writes i) l) eqn:El.
  - apply loc_eqb_eq in El. subst l. now rewrite !upd_same.
  - assert (Hne : writes i <> l) by (intro Q; subst; rewrite loc_eqb_refl in El; discriminate).
    rewrite (upd_other m0) by auto.
    assert (Hne' : resolve al (writes i) <> resolve al l).
    { destruct al as [ax ad]. destruct (writes i), l, ax, ad; simpl in *;
        try congruence; try (rewrite ?orb_true_r in Hl; simpl in Hl; discriminate);
        try (rewrite Hl in Hw; discriminate);
        destruct wo, wd; simpl in *; discriminate. }
    rewrite upd_other by auto. apply H.
    destruct (writes i), l; simpl in *; destruct wo, wd; simpl in *; congruence.
Qed.

Lemma alias_safe_correct : forall p al wo wd (m m0 : rkmem N I),
  agree al wo wd m m0 -> alias_safe wo wd p = true ->
  exists wo' wd',
    agree al wo' wd' (fst (exec f al p m)) (fst (exec f separate p m0))
    /\ snd (exec f al p m) = snd (exec f separate p m0)
    /\ wo' = wo || existsb is_out (map writes p)
    /\ wd' = wd || existsb is_dxout (map writes p).
Proof.
  induction p as [|i p IH]; intros al wo wd m m0 H Hs.
  - exists wo, wd. simpl. now rewrite !orb_false_r.
  - cbn [alias_safe] in Hs. apply andb_true_iff in Hs. destruct Hs as [Hs H3].
    apply andb_true_iff in Hs. destruct Hs as [H1 H2].
    destruct (agree_step al wo wd i m m0 H H1 H2) as [Ha Hc].
    cbn [exec].
    destruct (exec1 f al i m) as [m1 c1]. destruct (exec1 f separate i m0) as [m2 c2].
    simpl in Ha, Hc. subst c2.
    destruct (IH al _ _ m1 m2 Ha H3) as (wo' & wd' & Hag & Hcalls & Ew & Ed).
    destruct (exec f al p m1) as [m3 c3]. destruct (exec f separate p m2) as [m4 c4].
    simpl in Hag, Hcalls. subst c4.
    exists wo', wd'. simpl. repeat split; auto.
    + now rewrite Ew, orb_assoc.
    + now rewrite Ed, orb_assoc.
Qed.

Lemma agree_refl : forall al (m : rkmem N I), agree al false false m m.
Proof. intros al m l Hl. destruct l; simpl in *; try discriminate; reflexivity. Qed.

(** Result, error estimate and system calls of a safe program that writes [out]. *)
Lemma alias_safe_out : forall p al (m : rkmem N I),
  alias_safe false false p = true -> existsb is_out (map writes p) = true ->
  let r := exec f al p m in
  let r0 := exec f separate p m in
  fst r (resolve al LOut) = fst r0 LOut /\ fst r LErr = fst r0 LErr /\ snd r = snd r0
  /\ (existsb is_dxout (map writes p) = true -> fst r (resolve al LDxOut) = fst r0 LDxOut).
Proof.
  intros p al m Hs Ho. cbv zeta.
  destruct (alias_safe_correct p al false false m m (agree_refl al m) Hs)
    as (wo & wd & Hag & Hc & Ew & Ed).
  simpl in Ew, Ed. rewrite Ho in Ew. subst wo.
  repeat split.
  - now apply Hag.
  - apply (Hag LErr). reflexivity.
  - exact Hc.
  - intro Hd. rewrite Hd in Ed. subst wd. now apply Hag.
Qed.

Theorem euler_alias : forall al t dt (m : rkmem N I),
  let r := run_step f al (euler_prog t dt) t m in
  let r0 := run_step f separate (euler_prog t dt) t m in
  fst r (resolve al LOut) = fst r0 LOut /\ snd r = snd r0.
Proof.
  intros al t dt m. cbv zeta.
  destruct (alias_safe_out (do_step_prog (euler_prog t dt) t) al m) as (A & _ & B & _);
    [reflexivity|reflexivity|exact (conj A B)].
Qed.

Theorem rk4_classic_alias : forall al t dt (m : rkmem N I),
  let r := run_step f al (rk4_classic_prog t dt) t m in
  let r0 := run_step f separate (rk4_classic_prog t dt) t m in
  fst r (resolve al LOut) = fst r0 LOut /\ snd r = snd r0.
Proof.
  intros al t dt m. cbv zeta.
  destruct (alias_safe_out (do_step_prog (rk4_classic_prog t dt) t) al m) as (A & _ & B & _);
    [reflexivity|reflexivity|exact (conj A B)].
Qed.

Theorem ck54_classic_alias : forall al t dt (m : rkmem N I),
  let r := run_step f al (ck54_classic_err_prog t dt) t m in
  let r0 := run_step f separate (ck54_classic_err_prog t dt) t m in
  fst r (resolve al LOut) = fst r0 LOut /\ fst r LErr = fst r0 LErr /\ snd r = snd r0.
Proof.
  intros al t dt m. cbv zeta.
  destruct (alias_safe_out (do_step_prog (ck54_classic_err_prog t dt) t) al m) as (A & B & C & _);
    [reflexivity|reflexivity|exact (conj A (conj B C))].
Qed.

Theorem dopri5_alias_noerr : forall al t dt (m : rkmem N I),
  let r := exec f al (dopri5_prog t dt) m in
  let r0 := exec f separate (dopri5_prog t dt) m in
  fst r (resolve al LOut) = fst r0 LOut /\ fst r (resolve al LDxOut) = fst r0 LDxOut
  /\ snd r = snd r0.
Proof.
  intros al t dt m. cbv zeta.
  destruct (alias_safe_out (dopri5_prog t dt) al m) as (A & B & C & D);
    [reflexivity|reflexivity|exact (conj A (conj (D eq_refl) C))].
Qed.

(** Programs that do not touch [m_dxdt_tmp] and do not change [dxdt]. *)
Definition no_dxtmp (i : instr N) : bool :=
  forallb (fun l => negb (loc_eqb LDxTmp l)) (reads i) && negb (loc_eqb LDxTmp (writes i))
  && negb (loc_eqb LDx (writes i)).

Lemma no_dxtmp_frame : forall p (m m0 : rkmem N I),
  forallb no_dxtmp p = true ->
  (forall l, l <> LDxTmp -> m l = m0 l) -> m LDxTmp = m0 LDx ->
  (forall l, l <> LDxTmp -> fst (exec f separate p m) l = fst (exec f separate p m0) l)
  /\ fst (exec f separate p m) LDxTmp = fst (exec f separate p m0) LDx
  /\ snd (exec f separate p m) = snd (exec f separate p m0).
Proof.
  induction p as [|i p IH]; intros m m0 Hp He Hd.
  - simpl; auto.
  - cbn [forallb] in Hp. apply andb_true_iff in Hp. destruct Hp as [Hi Hp].
    unfold no_dxtmp in Hi. apply andb_true_iff in Hi. destruct Hi as [Hi H3].
    apply andb_true_iff in Hi. destruct Hi as [H1 H2].
    assert (Hv : exists v, fst (exec1 f separate i m) = upd m (writes i) v
                      /\ fst (exec1 f separate i m0) = upd m0 (writes i) v
                      /\ snd (exec1 f separate i m) = snd (exec1 f separate i m0)).
    { assert (Q : forall l, negb (loc_eqb LDxTmp l) = true -> m l = m0 l).
      { intros l Hl. apply He. intro; subst. now rewrite loc_eqb_refl in Hl. }
      destruct i as [d ts|d s t|d s]; cbn [reads writes exec1 fst snd] in *; unfold wr, rd;
        rewrite ?resolve_separate.
      - eexists; split; [reflexivity|]. split; [|reflexivity].
        f_equal. extensionality j. f_equal. apply map_ext_in. intros q Hq. f_equal.
        rewrite resolve_separate.
        rewrite (Q (snd q)); auto. rewrite forallb_forall in H1. apply H1. now apply in_map.
      - simpl in H1. rewrite andb_true_r in H1. rewrite (Q s H1). eexists; repeat split; reflexivity.
      - simpl in H1. rewrite andb_true_r in H1. rewrite (Q s H1). eexists; repeat split; reflexivity. }
    destruct Hv as (v & E1 & E2 & E3).
    cbn [exec]. destruct (exec1 f separate i m) as [m1 c1]. destruct (exec1 f separate i m0) as [m2 c2].
    simpl in E1, E2, E3. subst m1 m2 c2.
    destruct (IH (upd m (writes i) v) (upd m0 (writes i) v) Hp) as (A & B & C).
    + intros l Hl. unfold upd. destruct (loc_eqb (writes i) l); auto.
    + rewrite !upd_other; auto.
      * intro Q. rewrite Q, loc_eqb_refl in H3. discriminate.
      * intro Q. rewrite Q, loc_eqb_refl in H2. discriminate.
    + destruct (exec f separate p (upd m (writes i) v)) as [m3 c3].
      destruct (exec f separate p (upd m0 (writes i) v)) as [m4 c4].
      simpl in *. subst c4. auto.
Qed.

Lemma exec_frame : forall p al (m : rkmem N I) l,
  forallb (fun i => negb (loc_eqb (resolve al (writes i)) l)) p = true ->
  fst (exec f al p m) l = m l.
Proof.
  induction p as [|i p IH]; intros al m l H; [reflexivity|].
  cbn [forallb] in H. apply andb_true_iff in H. destruct H as [Hi H].
  cbn [exec].
  assert (E : fst (exec1 f al i m) l = m l).
  { assert (Hne : resolve al (writes i) <> l)
      by (intro Q; rewrite Q, loc_eqb_refl in Hi; discriminate).
    destruct i; cbn [exec1 fst writes] in *; unfold wr; now rewrite upd_other by auto. }
  destruct (exec1 f al i m) as [m1 c1]. simpl in E.
  specialize (IH al m1 l H). destruct (exec f al p m1) as [m2 c2]. simpl in *. congruence.
Qed.

Theorem dopri5_alias : forall al t dt (m : rkmem N I),
  let r := exec f al (dopri5_err_prog al t dt) m in
  let r0 := exec f separate (dopri5_err_prog separate t dt) m in
  fst r (resolve al LOut) = fst r0 LOut /\ fst r (resolve al LDxOut) = fst r0 LDxOut
  /\ fst r LErr = fst r0 LErr /\ snd r = snd r0.
Proof.
  intros al t dt m. cbv zeta.
  destruct al as [ax []].
  - set (al := mkAlias ax true).
    set (pc := dopri5_err_prog al t dt).
    destruct (alias_safe_out pc al m) as (A & B & C & D); [reflexivity|reflexivity|].
    specialize (D eq_refl).
    rewrite A, B, C, D. clear A B C D.
    unfold pc, dopri5_err_prog. cbn [al_dx al separate].
    change (ICopy LDxTmp LDx :: dopri5_prog t dt ++ [ISum LErr (dopri5_err_terms dt LDxTmp)])
      with ([ICopy LDxTmp LDx] ++ dopri5_prog t dt ++ [ISum LErr (dopri5_err_terms dt LDxTmp)]).
    rewrite exec_app. cbn [exec exec1]. rewrite exec_app, exec_app.
    destruct (no_dxtmp_frame (dopri5_prog t dt) (wr separate m LDxTmp (rd separate m LDx)) m)
      as (A & B & C).
    + reflexivity.
    + intros l Hl. unfold wr; simpl. now rewrite upd_other by auto.
    + unfold wr, rd; simpl. now rewrite upd_same.
    + destruct (exec f separate (dopri5_prog t dt) (wr separate m LDxTmp (rd separate m LDx)))
        as [m1 c1].
      destruct (exec f separate (dopri5_prog t dt) m) as [m2 c2].
      simpl in A, B, C. subst c2. cbn [exec exec1 fst snd app].
      unfold wr; simpl resolve. rewrite !(upd_other _ LErr LOut), !(upd_other _ LErr LDxOut) by discriminate.
      rewrite !upd_same. rewrite !A by discriminate. split; [exact eq_refl|]. split; [exact eq_refl|].
      split; [|exact eq_refl]. extensionality j. unfold dopri5_err_terms, rd. cbn [map fst snd resolve separate al_x al_dx].
      rewrite B, !A by discriminate. reflexivity.
  - set (al := mkAlias ax false).
    assert (Hs : dopri5_err_prog separate t dt = dopri5_err_prog al t dt) by reflexivity.
    rewrite Hs.
    (* with [dxdt_out] a separate buffer, [dxdt_in] may be read after it was written *)
    destruct ax.
    + unfold al, dopri5_err_prog. cbn [al_dx]. rewrite !exec_app.
      pose proof (alias_safe_correct (dopri5_prog t dt) (mkAlias true false) false false m m
                    (agree_refl _ m) eq_refl) as (wo & wd & Hag & Hc & Ew & Ed).
      vm_compute in Ew, Ed. subst wo wd.
      assert (Hdx : fst (exec f (mkAlias true false) (dopri5_prog t dt) m) LDx
                    = fst (exec f separate (dopri5_prog t dt) m) LDx)
        by (rewrite !exec_frame by reflexivity; reflexivity).
      destruct (exec f (mkAlias true false) (dopri5_prog t dt) m) as [m1 c1].
      destruct (exec f separate (dopri5_prog t dt) m) as [m2 c2].
      simpl in Hag, Hc, Hdx. subst c2. cbn [exec exec1 fst snd].
      unfold wr. simpl resolve.
      rewrite (upd_other _ LErr LIn), (upd_other _ LErr LOut), !(upd_other _ LErr LDxOut) by discriminate.
      rewrite !upd_same.
      pose proof (Hag LOut eq_refl) as A1. pose proof (Hag LDxOut eq_refl) as A2.
      simpl in A1, A2. split; [exact A1|]. split; [exact A2|]. split; [|exact eq_refl].
      extensionality j. unfold dopri5_err_terms, rd. cbn [map fst snd resolve separate al_x al_dx].
      rewrite Hdx, A2.
      rewrite (Hag (LK 1) eq_refl : m1 (LK 1) = m2 (LK 1)),
              (Hag (LK 2) eq_refl : m1 (LK 2) = m2 (LK 2)),
              (Hag (LK 3) eq_refl : m1 (LK 3) = m2 (LK 3)),
              (Hag (LK 4) eq_refl : m1 (LK 4) = m2 (LK 4)).
      reflexivity.
    + split; [exact eq_refl|]. split; [exact eq_refl|]. split; exact eq_refl.
Qed.
End Gen.

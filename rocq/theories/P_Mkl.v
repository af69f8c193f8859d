(** Proofs about M_Mkl. *)
From Coq Require Import ZArith List Bool Arith Lia FunctionalExtensionality Reals.
From Verif Require Import M_Num M_RK M_Mkl.
Import ListNotations.
Local Open Scope num_scope.

Lemma loc_eqb_refl l : loc_eqb l l = true.
Proof. destruct l; simpl; auto using Nat.eqb_refl. Qed.

Lemma loc_eqb_eq a b : loc_eqb a b = true -> a = b.
Proof. destruct a, b; simpl; intros E; try discriminate E; auto. f_equal. now apply Nat.eqb_eq. Qed.

Section P.
Context {N : Num} {I : Type}.
Variable sys : vec N I -> N -> vec N I.
Variable al : alias.

Lemma upd_same (m : rkmem N I) l v : upd m l v l = v.
Proof. unfold upd. now rewrite loc_eqb_refl. Qed.

Lemma upd_other (m : rkmem N I) l v l' : l <> l' -> upd m l v l' = m l'.
Proof. unfold upd. intros H. destruct (loc_eqb l l') eqn:E; auto. now apply loc_eqb_eq in E. Qed.

Lemma upd_upd (m : rkmem N I) l v w : upd (upd m l v) l w = upd m l w.
Proof. apply functional_extensionality. intros l'. unfold upd. now destruct (loc_eqb l l'). Qed.

Lemma upd_self (m : rkmem N I) l : upd m l (m l) = m.
Proof.
  apply functional_extensionality. intros l'. unfold upd.
  destruct (loc_eqb l l') eqn:E; auto. apply loc_eqb_eq in E. now subst.
Qed.

Lemma fold_daxpy d r : forall (m : rkmem N I) (w : vec N I),
  (forall p, In p r -> resolve al d <> resolve al (snd p)) ->
  fold_left (daxpy al d) r (upd m (resolve al d) w)
  = upd m (resolve al d) (fun i => fold_left (fun s p => s + fst p * snd p)
                                     (map (fun p => (fst p, rd al m (snd p) i)) r) (w i)).
Proof.
  induction r as [|[a l] r IH]; intros m w H; simpl.
  - reflexivity.
  - unfold daxpy at 2. unfold wr, rd. simpl fst; simpl snd.
    rewrite upd_upd. rewrite upd_same.
    rewrite (upd_other m (resolve al d) w (resolve al l)) by (exact (H (a, l) (or_introl eq_refl))).
    rewrite IH by (intros p Hp; apply H; right; exact Hp).
    reflexivity.
Qed.

Lemma mkl_sum_default d ts (m : rkmem N I) :
  (2 <= length ts <= 5)%nat ->
  (forall p, In p (tl ts) -> resolve al d <> resolve al (snd p)) ->
  mkl_sum al d ts m = Some (fst (exec1 sys al (ISum d ts) m)).
Proof.
  intros L H. unfold mkl_sum.
  replace ((2 <=? length ts) && (length ts <=? 5))%nat with true
    by (symmetry; apply andb_true_intro; split; apply Nat.leb_le; lia).
  destruct ts as [|[a1 l1] r]; [simpl in L; lia|].
  f_equal. simpl exec1. unfold fst at 1. simpl in H.
  assert (E : (if loc_eqb (resolve al l1) (resolve al d) then m else wr al m d (rd al m l1))
              = upd m (resolve al d) (rd al m l1)).
  { destruct (loc_eqb (resolve al l1) (resolve al d)) eqn:E; [|reflexivity].
    apply loc_eqb_eq in E. unfold rd. rewrite E. symmetry. apply upd_self. }
  rewrite E. unfold wr at 1. rewrite upd_upd. rewrite fold_daxpy by exact H.
  unfold wr. f_equal. apply functional_extensionality. intros i.
  simpl. unfold rd at 2. now rewrite upd_same.
Qed.

(** Programs that mkl_operations can run: two to five operands, output aliased to the first at most. *)
Definition mkl_ok (i : instr N) : bool :=
  match i with
  | ISum d ts => (2 <=? length ts)%nat && (length ts <=? 5)%nat
                 && forallb (fun p => negb (loc_eqb (resolve al d) (resolve al (snd p)))) (tl ts)
  | _ => true
  end.

Lemma mkl_exec_default p : forall (m : rkmem N I),
  forallb mkl_ok p = true -> mkl_exec sys al p m = Some (exec sys al p m).
Proof.
  induction p as [|i p IH]; intros m H; [reflexivity|].
  simpl in H. apply andb_prop in H. destruct H as [Hi Hp].
  simpl mkl_exec. simpl exec.
  assert (E : (match i with
             | ISum d ts => match mkl_sum al d ts m with Some m1 => Some (m1, []) | None => None end
             | _ => Some (exec1 sys al i m)
             end) = Some (exec1 sys al i m)).
  { destruct i as [d ts| |]; try reflexivity.
    unfold mkl_ok in Hi. apply andb_prop in Hi. destruct Hi as [Hi H3]. apply andb_prop in Hi. destruct Hi as [H1 H2].
    apply Nat.leb_le in H1. apply Nat.leb_le in H2.
    rewrite mkl_sum_default; [reflexivity|lia|].
    intros q Hq. rewrite forallb_forall in H3. specialize (H3 q Hq). intros Eq. rewrite Eq in H3.
    now rewrite loc_eqb_refl in H3. }
  rewrite E. destruct (exec1 sys al i m) as [m1 c1]. rewrite IH by exact Hp.
  destruct (exec sys al p m1) as [m2 c2]. reflexivity.
Qed.
End P.

Lemma mkl_steppers (N : Num) I (sys : vec N I -> N -> vec N I) al name (t dt : N) (m : rkmem N I) :
  In name [rk_euler; rk_rk4; rk_rk4_classic] ->
  mkl_exec sys al (do_step_prog (rk_impl name t dt) t) m
  = Some (exec sys al (do_step_prog (rk_impl name t dt) t) m).
Proof.
  intros H. apply mkl_exec_default.
  destruct al as [[|] [|]]; simpl in H; decompose [or] H; subst; try reflexivity; contradiction.
Qed.

Lemma mkl_sum_spec (eps : R) I al d (ts : list (RNum eps * loc)) (m : rkmem (RNum eps) I) :
  (2 <= length ts <= 5)%nat ->
  (forall p, In p (tl ts) -> resolve al d <> resolve al (snd p)) ->
  exists m', mkl_sum al d ts m = Some m'
    /\ (forall i, m' (resolve al d) i
                 = fold_right Rplus 0%R (map (fun p => (fst p * m (resolve al (snd p)) i)%R) ts))
    /\ (forall l, l <> resolve al d -> m' l = m l).
Proof.
  intros L H. eexists. split; [exact (mkl_sum_default (fun x _ => x) al d ts m L H)|].
  simpl. unfold wr. split.
  - intros i. rewrite upd_same. destruct ts as [|[a l] r]; [simpl in L; lia|].
    simpl. unfold rd. clear L H.
    set (w := (a * m (resolve al l) i)%R).
    change (fold_left (fun (s : R) (p : R * R) => (s + fst p * snd p)%R)
              (map (fun p : R * loc => (fst p, m (resolve al (snd p)) i)) r) w
            = (w + fold_right Rplus 0%R (map (fun p : R * loc => (fst p * m (resolve al (snd p)) i)%R) r))%R).
    generalize w. clear w. induction r as [|q r IH]; intros w; simpl.
    + symmetry. apply Rplus_0_r.
    + rewrite IH. apply Rplus_assoc.
  - intros l Hl. apply upd_other. congruence.
Qed.

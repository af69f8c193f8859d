(** Proofs about the maximum norms. *)
From Coq Require Import List ZArith Bool Lia Permutation Reals Lra Floats.SpecFloat.
From Verif Require Import M_Num M_Par S_Par P_R.
Import ListNotations.

Section G.
Variable N : Num.
Variable ok : N -> Prop.
Hypothesis O : norm_order N ok.

(** [r] is a largest [ok] element of [l]. *)
Definition top (l : list N) (r : N) : Prop :=
  ok r /\ In r l /\ forall y, In y l -> nlt r y = false.

Lemma nlt_negtrans (x y z : N) : ok x -> ok y -> ok z ->
  nlt x y = false -> nlt y z = false -> nlt x z = false.
Proof.
  intros X Y Z A B. destruct (nlt x z) eqn:C; [|reflexivity]. exfalso.
  destruct (nlt y x) eqn:D.
  - rewrite (o_trans _ _ O y x z) in B by auto. discriminate B.
  - assert (x = y) by (apply (o_tri _ _ O); auto). subst. rewrite C in B. discriminate B.
Qed.

(** All the lists considered contain only elements that are [ok] or above
    nothing. *)
Definition cand (l : list N) : Prop :=
  forall x, In x l -> ok x \/ (forall y, nlt y x = false).

Lemma top_cons l r x : cand (x :: l) -> top l r -> top (x :: l) (nmax r x).
Proof.
  intros H (A & B & C). unfold nmax.
  pose proof (H x (or_introl eq_refl)) as Hx.
  destruct (nlt r x) eqn:E.
  - destruct Hx as [Hx|Hx]; [|rewrite Hx in E; discriminate E].
    split; [exact Hx|]. split; [now left|]. intros y [<-|Hy]; [now apply (o_irr _ _ O)|].
    destruct (H y (or_intror Hy)) as [Y|Y]; [|apply Y].
    destruct (nlt x y) eqn:F; [|reflexivity].
    pose proof (o_trans _ _ O r x y A Hx Y E F) as G. rewrite C in G by exact Hy. discriminate G.
  - split; [exact A|]. split; [now right|]. intros y [<-|Hy]; auto.
Qed.

Lemma top_perm l l' r : Permutation l l' -> top l r -> top l' r.
Proof.
  intros P (A & B & C). split; [exact A|]. split; [eapply Permutation_in; eauto|].
  intros y Hy. apply C. eapply Permutation_in; [apply Permutation_sym|]; eauto.
Qed.

Lemma cand_incl l l' : incl l l' -> cand l' -> cand l.
Proof. intros I H x Hx. apply H, I, Hx. Qed.

Lemma cand_abs (l : list N) : cand (map nabs l).
Proof. intros x Hx. apply in_map_iff in Hx. destruct Hx as (y & <- & _). apply (o_abs _ _ O). Qed.

Lemma cand_app l l' : cand l -> cand l' -> cand (l ++ l').
Proof. intros A B x Hx. apply in_app_iff in Hx. destruct Hx; auto. Qed.

Lemma top_fold (xs l : list N) r :
  cand (xs ++ l) -> top l r -> top (xs ++ l) (fold_left nmax xs r).
Proof.
  revert l r. induction xs as [|x xs IH]; intros l r H T; [exact T|].
  cbn [fold_left]. apply top_perm with (l := xs ++ x :: l).
  { apply Permutation_sym, Permutation_middle. }
  apply IH.
  - eapply cand_incl; [|exact H]. intros y Hy. apply in_app_iff in Hy. cbn.
    rewrite in_app_iff. cbn in Hy. tauto.
  - apply top_cons; [|exact T]. eapply cand_incl; [|exact H].
    intros y [<-|Hy]; [now left|]. right. apply in_app_iff. now right.
Qed.

Lemma seq_norm_fold init (l : list N) : seq_norm init l = fold_left nmax (map nabs l) init.
Proof. unfold seq_norm. revert init. induction l; intros; cbn; [reflexivity|apply IHl]. Qed.

Lemma seq_norm_top init (l : list N) : ok init -> top (map nabs l ++ [init]) (seq_norm init l).
Proof.
  intros H. rewrite seq_norm_fold. apply top_fold.
  - apply cand_app; [apply cand_abs|]. intros x [<-|[]]. now left.
  - split; [exact H|]. split; [now left|]. intros y [<-|[]]. now apply (o_irr _ _ O).
Qed.

(** Union of two lists. *)
Lemma top_app l l' r r' : cand (l ++ l') -> top l r -> top l' r' -> top (l ++ l') (nmax r r').
Proof.
  intros H (A & B & C) (A' & B' & C'). unfold nmax. destruct (nlt r r') eqn:E.
  - split; [exact A'|]. split; [apply in_app_iff; now right|].
    intros y Hy. pose proof (H y Hy) as [Y|Y]; [|apply Y]. apply in_app_iff in Hy.
    destruct Hy as [Hy|Hy]; [|now apply C'].
    destruct (nlt r' y) eqn:F; [|reflexivity].
    pose proof (o_trans _ _ O r r' y A A' Y E F) as G. rewrite C in G by exact Hy. discriminate G.
  - split; [exact A|]. split; [apply in_app_iff; now left|].
    intros y Hy. pose proof (H y Hy) as [Y|Y]; [|apply Y]. apply in_app_iff in Hy.
    destruct Hy as [Hy|Hy]; [now apply C|].
    apply (nlt_negtrans r r' y); auto.
Qed.

Lemma rcombine_top (t : rtree) : (forall v, In v (rleaves t) -> ok v) ->
  top (rleaves t) (rcombine t).
Proof.
  induction t as [v|a IHa b IHb]; cbn; intros H.
  - split; [apply H; now left|]. split; [now left|]. intros y [<-|[]].
    apply (o_irr _ _ O), H. now left.
  - apply top_app.
    + intros x Hx. left. apply H, Hx.
    + apply IHa. intros; apply H, in_app_iff; now left.
    + apply IHb. intros; apply H, in_app_iff; now right.
Qed.

(** Two lists that contain the same elements above a common floor. *)
Lemma top_unique l l' r r' : cand l -> cand l' -> top l r -> top l' r' ->
  In r l' -> In r' l -> r = r'.
Proof.
  intros _ _ (A & B & C) (A' & B' & C') I I'. apply (o_tri _ _ O); auto.
Qed.

(** Replacing leaves by the lists they are tops of. *)
Lemma top_refine (ls : list N) (ll : list (list N)) r :
  cand (concat ll) -> Forall2 (fun v l => top l v) ls ll -> top ls r -> top (concat ll) r.
Proof.
  intros H F (A & B & C). split; [exact A|]. split.
  - clear C. induction F as [|v l ls ll T F IH]; [contradiction|].
    cbn. apply in_app_iff. destruct B as [<-|B]; [left; apply T|right; apply IH; auto].
    intros x Hx. apply H. cbn. apply in_app_iff. now right.
  - intros y Hy. pose proof (H y Hy) as [Y|Y]; [|apply Y].
    apply in_concat in Hy. destruct Hy as (l & Hl & Hy).
    assert (exists v, In v ls /\ top l v) as (v & Hv & T).
    { clear - F Hl. induction F as [|v l' ls ll T F IH]; [contradiction|].
      destruct Hl as [<-|Hl]; [exists v; split; [now left|exact T]|].
      destruct (IH Hl) as (w & Hw & T'). exists w. split; [now right|exact T']. }
    apply (nlt_negtrans r v y); auto; [apply T|]. now apply T.
Qed.

Variable low : N.
Hypothesis Hlow : ok low.
Hypothesis Hl0 : low = nofZ 0 \/ nlt low (nofZ 0) = true.

(** Whatever multiset of floors is added, the largest element is the same. *)
Lemma top_floor (l : list N) k r :
  top (nofZ 0 :: repeat low k ++ map nabs l) r -> r = range_norm l.
Proof.
  intros T. pose proof (seq_norm_top (nofZ 0) l (o_zero _ _ O)) as S0.
  fold (range_norm l) in S0.
  assert (Z : nlt r (nofZ 0) = false) by (apply T; now left).
  destruct T as (A & B & C).
  destruct S0 as (A' & B' & C').
  apply (o_tri _ _ O); auto.
  - apply C. apply in_app_iff in B'. destruct B' as [B'|[B'|[]]].
    + right. apply in_app_iff. now right.
    + left. exact B'.
  - apply C'. apply in_app_iff. destruct B as [B|B]; [right; now left|].
    apply in_app_iff in B. destruct B as [B|B]; [|now left].
    apply repeat_spec in B. subst r. destruct Hl0 as [E|E]; [right; left; now symmetry|].
    rewrite E in Z. discriminate Z.
Qed.

Lemma omp_norm_gen (ll : list (list N)) (vals : list N) (l : list N) (t : rtree (N:=N)) :
  Permutation (concat ll) l ->
  Forall2 (fun v b => top (map nabs b ++ [low]) v) vals ll ->
  Permutation (rleaves t) (nofZ 0 :: vals) ->
  rcombine t = range_norm l.
Proof.
  intros P F PT.
  assert (okv : forall v, In v (rleaves t) -> ok v).
  { intros v Hv. eapply Permutation_in in Hv; [|exact PT]. destruct Hv as [<-|Hv].
    - apply (o_zero _ _ O).
    - clear - F Hv. induction F as [|w b vs bs T F IH]; [contradiction|].
      destruct Hv as [<-|Hv]; [apply T|auto]. }
  pose proof (rcombine_top t okv) as T. apply (top_perm _ _ _ PT) in T.
  assert (F' : Forall2 (fun v b => top b v) (nofZ 0 :: vals)
                 ([nofZ 0] :: map (fun b => map nabs b ++ [low]) ll)).
  { constructor.
    - split; [apply (o_zero _ _ O)|]. split; [now left|]. intros y [<-|[]].
      apply (o_irr _ _ O), (o_zero _ _ O).
    - clear - F. induction F; cbn; constructor; auto. }
  apply top_refine with (ll := [nofZ 0] :: map (fun b => map nabs b ++ [low]) ll) in T; auto.
  2:{ cbn. intros x [<-|Hx]; [left; apply (o_zero _ _ O)|].
      apply in_concat in Hx. destruct Hx as (y & Hy & Hx). apply in_map_iff in Hy.
      destruct Hy as (b & <- & _). apply in_app_iff in Hx. destruct Hx as [Hx|[<-|[]]].
      - now apply (cand_abs b).
      - now left. }
  apply (top_floor l (length ll)). eapply top_perm; [|exact T].
  cbn. constructor.
  transitivity (repeat low (length ll) ++ map nabs (concat ll)).
  - clear. induction ll as [|b ll IH]; cbn; [constructor|].
    rewrite map_app, <- app_assoc. cbn.
    transitivity (low :: map nabs b ++ concat (map (fun b0 => map nabs b0 ++ [low]) ll)).
    { apply Permutation_sym, Permutation_middle. }
    constructor.
    transitivity (map nabs b ++ repeat low (length ll) ++ map nabs (concat ll)).
    { apply Permutation_app_head, IH. }
    rewrite !app_assoc. apply Permutation_app_tail, Permutation_app_comm.
  - apply Permutation_app_head, Permutation_map, P.
Qed.

Lemma nested_private_top (bs : list (list N)) (a : N) (l0 : list N) :
  cand l0 -> top l0 a ->
  top (map nabs (concat bs) ++ repeat (nofZ 0) (length bs) ++ l0)
      (fold_left (fun a b => nmax a (range_norm b)) bs a).
Proof.
  revert a l0. induction bs as [|b bs IH]; intros a l0 Hc Ha; [exact Ha|].
  cbn [fold_left].
  pose proof (seq_norm_top (nofZ 0) b (o_zero _ _ O)) as Tb.
  assert (Cb : cand (map nabs b ++ [nofZ 0])).
  { apply cand_app; [apply cand_abs|]. intros x [<-|[]]. left. apply (o_zero _ _ O). }
  assert (C1 : cand (l0 ++ map nabs b ++ [nofZ 0])) by (apply cand_app; auto).
  pose proof (top_app _ _ _ _ C1 Ha Tb) as T1.
  specialize (IH _ _ C1 T1). eapply top_perm; [|exact IH].
  cbn [concat length repeat]. rewrite map_app.
  (* (B ++ Z ++ l0 ++ b ++ [0])  ~  (b ++ B) ++ (0 :: Z) ++ l0 *)
  set (B := map nabs (concat bs)). set (Z := repeat (nofZ 0) (length bs)). set (X := map nabs b).
  transitivity (X ++ nofZ 0 :: (B ++ Z ++ l0)).
  - transitivity ((B ++ Z ++ l0) ++ (X ++ [nofZ 0])); [now rewrite <- !app_assoc|].
    transitivity ((X ++ [nofZ 0]) ++ (B ++ Z ++ l0)); [apply Permutation_app_comm|].
    now rewrite <- app_assoc.
  - rewrite <- app_assoc. apply Permutation_app_head. cbn.
    apply Permutation_middle.
Qed.

(** Nested: a thread's private value is the top of its elements, floors and zeros. *)
Lemma omp_nested_norm_gen (parts : list (list (list N))) (l : list N) (t : rtree (N:=N)) :
  Permutation (concat (concat parts)) l ->
  Permutation (rleaves t) (nofZ 0 :: omp_nested_private low parts) ->
  rcombine t = range_norm l.
Proof.
  intros P PT.
  set (LL := map (fun bs => map nabs (concat bs) ++ repeat (nofZ 0) (length bs) ++ [low]) parts).
  assert (F : Forall2 (fun v b => top b v) (omp_nested_private low parts) LL).
  { unfold omp_nested_private, LL. clear P PT l t. induction parts as [|bs ps IH]; cbn; constructor; auto.
    apply nested_private_top.
    - intros x [<-|[]]. now left.
    - split; [exact Hlow|]. split; [now left|]. intros y [<-|[]]. now apply (o_irr _ _ O). }
  assert (okv : forall v, In v (rleaves t) -> ok v).
  { intros v Hv. eapply Permutation_in in Hv; [|exact PT]. destruct Hv as [<-|Hv].
    - apply (o_zero _ _ O).
    - revert F Hv. generalize (omp_nested_private low parts), LL. clear. intros vs LL F Hv.
      induction F as [|w b vs bs T F IH]; [contradiction|].
      destruct Hv as [<-|Hv]; [apply T|auto]. }
  pose proof (rcombine_top t okv) as T. apply (top_perm _ _ _ PT) in T.
  assert (F' : Forall2 (fun v b => top b v) (nofZ 0 :: omp_nested_private low parts)
                 ([nofZ 0] :: LL)).
  { constructor; [|exact F].
    split; [apply (o_zero _ _ O)|]. split; [now left|]. intros y [<-|[]].
    apply (o_irr _ _ O), (o_zero _ _ O). }
  apply top_refine with (ll := [nofZ 0] :: LL) in T; auto.
  2:{ cbn. intros x [<-|Hx]; [left; apply (o_zero _ _ O)|].
      apply in_concat in Hx. destruct Hx as (y & Hy & Hx). apply in_map_iff in Hy.
      destruct Hy as (b & <- & _). apply in_app_iff in Hx. destruct Hx as [Hx|Hx].
      - now apply (cand_abs (concat b)).
      - left. apply in_app_iff in Hx. destruct Hx as [Hx|[<-|[]]]; [|exact Hlow].
        apply repeat_spec in Hx. subst. apply (o_zero _ _ O). }
  (* membership suffices for uniqueness *)
  pose proof (seq_norm_top (nofZ 0) l (o_zero _ _ O)) as S0. fold (range_norm l) in S0.
  assert (Z : nlt (rcombine t) (nofZ 0) = false) by (apply T; now left).
  destruct T as (A & B & C). destruct S0 as (A' & B' & C').
  apply (o_tri _ _ O); auto.
  - apply C. apply in_app_iff in B'. destruct B' as [B'|[B'|[]]]; [|now left].
    right. apply in_map_iff in B'. destruct B' as (x & <- & Hx).
    eapply Permutation_in in Hx; [|apply Permutation_sym, P].
    apply in_concat in Hx. destruct Hx as (b & Hb & Hx). apply in_concat in Hb.
    destruct Hb as (bs & Hbs & Hb). cbn. apply in_concat.
    exists (map nabs (concat bs) ++ repeat (nofZ 0) (length bs) ++ [low]). split.
    + apply in_map_iff. exists bs. auto.
    + apply in_app_iff. left. apply in_map. apply in_concat. exists b. auto.
  - apply C'. apply in_app_iff. cbn in B. destruct B as [B|B]; [right; now left|].
    apply in_concat in B. destruct B as (y & Hy & B). apply in_map_iff in Hy.
    destruct Hy as (bs & <- & Hbs). apply in_app_iff in B. destruct B as [B|B].
    + left. apply in_map_iff in B. destruct B as (x & <- & Hx). apply in_map.
      eapply Permutation_in; [exact P|]. apply in_concat in Hx. destruct Hx as (b & Hb & Hx).
      apply in_concat. exists b. split; [|exact Hx]. apply in_concat. exists bs. auto.
    + right. left. apply in_app_iff in B. destruct B as [B|[B|[]]].
      * apply repeat_spec in B. now symmetry.
      * rewrite <- B in Z. destruct Hl0 as [E|E]; [rewrite <- E; exact B|].
        rewrite E in Z. discriminate Z.
Qed.
End G.

Section G2.
Variable N : Num.
Variable ok : N -> Prop.
Hypothesis O : norm_order N ok.

Lemma omp_range_norm (low : N) (parts : list (list N)) (l : list N) (t : rtree (N:=N)) :
  ok low -> (low = nofZ 0 \/ nlt low (nofZ 0) = true) ->
  Permutation (concat parts) l ->
  Permutation (rleaves t) (nofZ 0 :: omp_private low parts) ->
  rcombine t = range_norm l.
Proof.
  intros Hl H0 P PT. eapply (omp_norm_gen N ok O low Hl H0 parts); eauto.
  unfold omp_private. clear P PT. induction parts as [|b ps IH]; cbn; constructor; auto.
  apply (seq_norm_top N ok O); exact Hl.
Qed.

Lemma mpi_norm (ranks : list (list N)) (l : list N) (t : rtree (N:=N)) :
  Permutation (concat ranks) l ->
  Permutation (rleaves t) (mpi_local ranks) ->
  rcombine t = range_norm l.
Proof.
  intros P PT.
  assert (E : rcombine (RNode t (RLeaf (nofZ 0))) = range_norm l).
  { eapply (omp_range_norm (nofZ 0) ranks); auto.
    - apply (o_zero _ _ O).
    - cbn. unfold omp_private. fold (range_norm (N:=N)).
      transitivity (mpi_local ranks ++ [nofZ 0]); [apply Permutation_app_tail, PT|].
      apply Permutation_sym, Permutation_cons_append. }
  rewrite <- E. cbn. unfold nmax.
  assert (Z : nlt (rcombine t) (nofZ 0) = false); [|now rewrite Z].
  assert (okv : forall v, In v (rleaves t) -> ok v /\ nlt v (nofZ 0) = false).
  { intros v Hv. eapply Permutation_in in Hv; [|exact PT]. unfold mpi_local in Hv.
    apply in_map_iff in Hv. destruct Hv as (b & <- & _).
    pose proof (seq_norm_top N ok O (nofZ 0) b (o_zero _ _ O)) as T.
    split; [apply T|]. apply T. apply in_app_iff. right. now left. }
  pose proof (rcombine_top N ok O t (fun v Hv => proj1 (okv v Hv))) as T.
  apply okv. apply T.
Qed.

Lemma range_norm_max (l : list N) : is_max_abs l (range_norm l).
Proof.
  destruct (seq_norm_top N ok O (nofZ 0) l (o_zero _ _ O)) as (A & B & C). split.
  - intros x Hx. apply C. apply in_app_iff. left. now apply in_map.
  - apply in_app_iff in B. destruct B as [B|[B|[]]]; [|left; now symmetry].
    right. apply in_map_iff in B. destruct B as (x & E & Hx). exists x. split; [exact Hx|].
    symmetry. exact E.
Qed.

Lemma fusion_range_norm (l : list N) :
  (forall x : N, nabs (nabs x) = nabs x) -> nabs (nofZ 0 : N) = nofZ 0 ->
  fusion_norm l = range_norm l.
Proof.
  intros HA H0. unfold fusion_norm, range_norm, seq_norm.
  assert (G : forall l a, nabs a = a ->
     fold_left (fun t1 t2 : N => if nlt (nabs t1) (nabs t2) then nabs t2 else nabs t1) l a =
     fold_left (fun a x => nmax a (nabs x)) l a).
  { clear l. induction l as [|x l IH]; intros a Ha; cbn; [reflexivity|].
    rewrite Ha. unfold nmax at 2. rewrite IH; [reflexivity|].
    destruct (nlt a (nabs x)); auto. }
  apply G, H0.
Qed.
End G2.

(** ** Instances *)
Lemma norm_order_R eps : norm_order (RNum eps) (fun _ => True).
Proof.
  split; cbn.
  - intros x _. destruct (Rltb x x) eqn:E; [|reflexivity]. apply Rltb_true in E. lra.
  - intros x y z _ _ _ A B. apply Rltb_true in A. apply Rltb_true in B. apply Rltb_true. lra.
  - intros x y _ _ A B. apply Rltb_false in A. apply Rltb_false in B. lra.
  - intros x. now left.
  - exact Logic.I.
Qed.

Lemma is_max_abs_R_of eps (l : list R) r :
  (0 <= r)%R -> @is_max_abs (RNum eps) l r -> is_max_abs_R l r.
Proof.
  intros Hr [A B]. cbn in A, B.
  assert (U : forall x, In x l -> (Rabs x <= r)%R)
    by (intros x Hx; specialize (A x Hx); apply Rltb_false in A; lra).
  split; [exact U|]. split.
  - intros ->. destruct B as [B|(x & [] & _)]. exact B.
  - intros Hl. destruct B as [B|B]; [|exact B].
    destruct l as [|x l]; [congruence|]. exists x. split; [now left|].
    assert (Rabs x <= r)%R by (apply U; now left).
    pose proof (Rabs_pos x). lra.
Qed.

Lemma range_norm_nonneg eps (l : list R) : (0 <= range_norm (N:=RNum eps) l)%R.
Proof.
  pose proof (seq_norm_top _ _ (norm_order_R eps) 0%R l Logic.I) as (_ & _ & C).
  specialize (C 0%R ltac:(apply in_app_iff; right; now left)). cbn in C.
  apply Rltb_false in C. unfold range_norm. cbn in *. lra.
Qed.

Lemma norm_order_F64 : norm_order F64 f64_ok.
Proof.
  split.
  - intros x [A B]. destruct x as [[|]|[|]| |[|] m e]; cbn; try reflexivity; try congruence.
    + unfold SFltb, SFcompare. rewrite Z.compare_refl, Pos.compare_cont_refl. reflexivity.
    + unfold SFltb, SFcompare. rewrite Z.compare_refl, Pos.compare_cont_refl. reflexivity.
  - intros x y z [A1 B1] [A2 B2] [A3 B3]. cbn.
    destruct x as [[|]|[|]| |[|] m e]; try congruence;
    destruct y as [[|]|[|]| |[|] m' e']; try congruence;
    destruct z as [[|]|[|]| |[|] m'' e'']; try congruence;
    unfold SFltb, SFcompare; try (intros; (discriminate || reflexivity)).
    all: fold (Pos.compare m m') (Pos.compare m' m'') (Pos.compare m m'').
    all: destruct (Z.compare_spec e e'); destruct (Z.compare_spec e' e'');
         destruct (Z.compare_spec e e''); try lia; try (intros; (discriminate || reflexivity)).
    all: destruct (Pos.compare_spec m m'); destruct (Pos.compare_spec m' m'');
         destruct (Pos.compare_spec m m''); try lia; cbn; intros; (discriminate || reflexivity).
  - intros x y [A1 B1] [A2 B2]. cbn.
    destruct x as [[|]|[|]| |[|] m e]; try congruence;
    destruct y as [[|]|[|]| |[|] m' e']; try congruence;
    unfold SFltb, SFcompare; try (intros; (discriminate || reflexivity)).
    all: change (Pos.compare_cont Eq m m') with (Pos.compare m m');
         change (Pos.compare_cont Eq m' m) with (Pos.compare m' m);
         rewrite (Z.compare_antisym e e'), (Pos.compare_antisym m m').
    all: destruct (Z.compare_spec e e'); cbn; try (intros; discriminate).
    all: destruct (Pos.compare_spec m m'); cbn; intros; try discriminate; subst; reflexivity.
  - intros x. destruct x as [s|s| |s m e]; cbn.
    + left. split; discriminate.
    + left. split; discriminate.
    + right. intros y. destruct y as [?|[|]| |[|] ? ?]; reflexivity.
    + left. split; discriminate.
  - split; discriminate.
Qed.

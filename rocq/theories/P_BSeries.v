(** Butcher's theorem: series in elementary differentials, for families of points and step widths. *)
From Coq Require Import List Arith Reals Lia Lra FunctionalExtensionality.
From Verif Require Import S_RK S_BSeries P_RKOrder.
Import ListNotations.
Local Open Scope R_scope.

(** ** Sums over lists. *)
Definition lsum {A} (l : list A) (g : A -> R) : R := rsum (map g l).
Definition lprod {A} (l : list A) (g : A -> R) : R := fold_right (fun a z => g a * z) 1 l.

Lemma lsum_cons {A} a (l : list A) g : lsum (a :: l) g = g a + lsum l g.
Proof. reflexivity. Qed.
Lemma lsum_app {A} (l l' : list A) g : lsum (l ++ l') g = lsum l g + lsum l' g.
Proof. induction l; cbn [app]; [unfold lsum; cbn; ring|]. rewrite !lsum_cons, IHl. ring. Qed.
Lemma lsum_ext {A} (l : list A) g k : (forall a, In a l -> g a = k a) -> lsum l g = lsum l k.
Proof. intro H. unfold lsum. f_equal. apply map_ext_in. exact H. Qed.
Lemma lsum_plus {A} (l : list A) g k : lsum l (fun a => g a + k a) = lsum l g + lsum l k.
Proof. induction l; [unfold lsum; cbn; ring|]. rewrite !lsum_cons, IHl. ring. Qed.
Lemma lsum_scale {A} (l : list A) c g : lsum l (fun a => c * g a) = c * lsum l g.
Proof. induction l; [unfold lsum; cbn; ring|]. rewrite !lsum_cons, IHl. ring. Qed.
Lemma lsum_map {A B} (f : A -> B) l g : lsum (map f l) g = lsum l (fun a => g (f a)).
Proof. unfold lsum. now rewrite map_map. Qed.
Lemma lsum_flat {A B} (f : A -> list B) l g : lsum (flat_map f l) g = lsum l (fun a => lsum (f a) g).
Proof. induction l; [reflexivity|]. cbn [flat_map]. rewrite lsum_app, lsum_cons, IHl. reflexivity. Qed.
Lemma lsum_filter {A} (b : A -> bool) l g : lsum l g = lsum (filter b l) g + lsum (filter (fun a => negb (b a)) l) g.
Proof.
  induction l as [|a l IH]; [unfold lsum; cbn; ring|]. rewrite lsum_cons, IH. cbn [filter].
  destruct (b a); cbn [negb]; rewrite lsum_cons; ring.
Qed.
Lemma lsum_swap {A B} (l : list A) (r : list B) g : lsum l (fun a => lsum r (fun b => g a b)) = lsum r (fun b => lsum l (fun a => g a b)).
Proof.
  induction l as [|a l IH].
  - transitivity 0; [reflexivity|]. induction r as [|b r IHr]; [reflexivity|]. rewrite lsum_cons, <- IHr. unfold lsum. cbn. ring.
  - rewrite lsum_cons, IH, <- lsum_plus. apply lsum_ext. intros b _. reflexivity.
Qed.
Lemma lsum_sumn n g : lsum (seq 0 n) g = sumn n g.
Proof. reflexivity. Qed.
Lemma lprod_cons {A} a (l : list A) g : lprod (a :: l) g = g a * lprod l g.
Proof. reflexivity. Qed.
Lemma lprod_mult {A} (l : list A) g k : lprod l (fun a => g a * k a) = lprod l g * lprod l k.
Proof. induction l; [cbn; ring|]. rewrite !lprod_cons, IHl. ring. Qed.

(** ** Trees. *)
Definition tsum (l : list tree) : nat := fold_right (fun c n => tsize c + n)%nat 0%nat l.
Lemma tsize_node l : tsize (Node l) = S (tsum l).
Proof. reflexivity. Qed.
Fixpoint tuples {A} (k : nat) (l : list A) : list (list A) :=
  match k with O => [[]] | S k' => flat_map (fun a => map (cons a) (tuples k' l)) l end.
(** The trees with at most n vertices. *)
Fixpoint trees (n : nat) : list tree :=
  match n with
  | O => []
  | S m => map Node (flat_map (fun k => filter (fun l => tsum l <=? m)%nat (tuples k (trees m))) (seq 0 (S m)))
  end.
Lemma in_trees n : forall t, In t (trees n) -> (tsize t <= n)%nat.
Proof.
  destruct n as [|m]; intros t H; [destruct H|]. cbn [trees] in H. apply in_map_iff in H. destruct H as (l & <- & H).
  apply in_flat_map in H. destruct H as (k & _ & H). apply filter_In in H. destruct H as [_ H].
  apply Nat.leb_le in H. rewrite tsize_node. lia.
Qed.
Lemma in_tuples {A} (L : list A) : forall k l, In l (tuples k L) -> length l = k /\ forall a, In a l -> In a L.
Proof.
  induction k as [|k IH]; intros l H; cbn [tuples] in H.
  - destruct H as [<-|[]]. split; [reflexivity|intros a []].
  - apply in_flat_map in H. destruct H as (a & Ha & H). apply in_map_iff in H. destruct H as (l' & <- & H).
    destruct (IH l' H) as [E1 E2]. split; [cbn; lia|]. intros b [<-|Hb]; auto.
Qed.
Lemma tsum_ge_length l : (length l <= tsum l)%nat.
Proof. induction l as [|t l IH]; [apply le_n|]. cbn [length tsum fold_right]. fold (tsum l). destruct t. rewrite tsize_node. lia. Qed.
Lemma tsum_child l t : In t l -> (tsize t <= tsum l)%nat.
Proof. induction l as [|u l IH]; intros []; cbn [tsum fold_right]; fold (tsum l); [subst; lia|]. specialize (IH H). lia. Qed.

(** The product of 1/(number of children)! over the vertices, and the product over the children. *)
Fixpoint beta (t : tree) : R :=
  match t with Node cs => fold_right (fun c z => beta c * z) 1 cs / INR (fact (length cs)) end.
Definition over (psi : tree -> R) (t : tree) : R := match t with Node cs => lprod cs psi end.
Lemma beta_node cs : beta (Node cs) = lprod cs beta / INR (fact (length cs)).
Proof. reflexivity. Qed.

(** ** Families. *)
Section Family.
Context {J Q : Type}.
Notation V := (J -> R).
Variable h : Q -> R.
Variable H : R.
Hypothesis Hh : forall q, Rabs (h q) <= H.
Hypothesis HH : 0 <= H.

(** u = O(h^n), uniformly. *)
Definition big (n : nat) (u : Q -> V) : Prop := exists C, 0 <= C /\ forall q j, Rabs (u q j) <= C * Rabs (h q) ^ n.

Lemma pw_pos q n : 0 <= Rabs (h q) ^ n.
Proof. apply pow_le, Rabs_pos. Qed.
Lemma big_ext n u v : (forall q j, u q j = v q j) -> big n u -> big n v.
Proof. intros E (C & P & B). exists C. split; [exact P|]. intros q j. rewrite <- E. apply B. Qed.
Lemma big_zero n : big n (fun _ _ => 0).
Proof. exists 0. split; [lra|]. intros. rewrite Rabs_R0. lra. Qed.
Lemma big_add n u v : big n u -> big n v -> big n (fun q j => u q j + v q j).
Proof.
  intros (C1 & P1 & B1) (C2 & P2 & B2). exists (C1 + C2). split; [lra|]. intros q j.
  eapply Rle_trans; [apply Rabs_triang|]. specialize (B1 q j). specialize (B2 q j). lra.
Qed.
Lemma big_scal n c u : big n u -> big n (fun q j => c * u q j).
Proof.
  intros (C & P & B). exists (Rabs c * C). split; [apply Rmult_le_pos; [apply Rabs_pos|exact P]|]. intros q j.
  rewrite Rabs_mult, Rmult_assoc. apply Rmult_le_compat_l; [apply Rabs_pos|apply B].
Qed.
Lemma big_sub n u v : big n u -> big n v -> big n (fun q j => u q j - v q j).
Proof.
  intros A B. apply (big_ext n (fun q j => u q j + -1 * v q j)); [intros; ring|]. apply big_add; [exact A|now apply big_scal].
Qed.
Lemma big_h n k u : big n u -> big (k + n) (fun q j => h q ^ k * u q j).
Proof.
  intros (C & P & B). exists C. split; [exact P|]. intros q j. rewrite Rabs_mult, <- RPow_abs, pow_add.
  specialize (B q j). pose proof (pw_pos q k). replace (C * (Rabs (h q) ^ k * Rabs (h q) ^ n)) with (Rabs (h q) ^ k * (C * Rabs (h q) ^ n)) by ring.
  now apply Rmult_le_compat_l.
Qed.
Lemma big_weak m n u : (m <= n)%nat -> big n u -> big m u.
Proof.
  intros L (C & P & B). exists (C * H ^ (n - m)). split; [apply Rmult_le_pos; [exact P|now apply pow_le]|]. intros q j.
  eapply Rle_trans; [apply B|]. replace n with ((n - m) + m)%nat at 1 by lia. rewrite pow_add.
  rewrite Rmult_assoc. apply Rmult_le_compat_l; [exact P|]. apply Rmult_le_compat_r; [apply pw_pos|].
  apply pow_incr. split; [apply Rabs_pos|apply Hh].
Qed.
Lemma big_lsum {A} n (l : list A) (u : A -> Q -> V) : (forall a, In a l -> big n (u a)) -> big n (fun q j => lsum l (fun a => u a q j)).
Proof.
  induction l as [|a l IH]; intro B; [exact (big_zero n)|].
  apply (big_ext n (fun q j => u a q j + lsum l (fun a => u a q j))); [reflexivity|].
  apply big_add; [apply B; now left|]. apply IH. intros b Hb. apply B. now right.
Qed.

(** The function and its derivatives at the points of the family. *)
Variable p : nat.
Variable M : R.
Hypothesis HM : 0 <= M.
Variable G : Q -> V -> V.
Variable D : Q -> list V -> V.
Hypothesis Dlin : forall q l l' a b u v j, D q (l ++ (fun i => a * u i + b * v i) :: l') j = a * D q (l ++ u :: l') j + b * D q (l ++ v :: l') j.
Hypothesis Dbnd : forall q l rs j, (length l < p)%nat -> Forall2 bnd rs l -> Rabs (D q l j) <= M * fold_right Rmult 1 rs.
Hypothesis Drem : forall q w r m j, (1 <= m <= p)%nat -> bnd r w ->
  Rabs (G q w j - sumn m (fun k => D q (repeat w k) j / INR (fact k))) <= M * r ^ m.

Lemma big_D (us : list (nat * (Q -> V))) : (length us < p)%nat -> (forall nu, In nu us -> big (fst nu) (snd nu)) ->
  big (fold_right (fun nu z => fst nu + z)%nat 0%nat us) (fun q => D q (map (fun nu => snd nu q) us)).
Proof.
  intros L B.
  assert (E : exists Cs, Forall (fun C => 0 <= C) Cs /\ Forall2 (fun C (nu : nat * (Q -> V)) => forall q j, Rabs (snd nu q j) <= C * Rabs (h q) ^ fst nu) Cs us).
  { clear L. induction us as [|nu us IH]; [exists []; now constructor|].
    destruct (B nu (or_introl eq_refl)) as (C & P & Bq). destruct IH as (Cs & PC & F); [intros a Ha; apply B; now right|].
    exists (C :: Cs). split; constructor; assumption. }
  destruct E as (Cs & PC & F). exists (M * fold_right Rmult 1 Cs).
  assert (P1 : 0 <= fold_right Rmult 1 Cs) by (clear F; induction PC; cbn; [lra|now apply Rmult_le_pos]).
  split; [now apply Rmult_le_pos|]. intros q j.
  assert (Z : exists rs, Forall2 bnd rs (map (fun nu => snd nu q) us)
     /\ fold_right Rmult 1 rs = fold_right Rmult 1 Cs * Rabs (h q) ^ fold_right (fun nu z => fst nu + z)%nat 0%nat us).
  { clear - F. induction F as [|C nu Cs us Hn F IH].
    - exists []. split; [constructor|]. cbn. ring.
    - destruct IH as (rs & F2 & E2). exists (C * Rabs (h q) ^ fst nu :: rs). split.
      + cbn [map]. constructor; [intro j; apply Hn|exact F2].
      + cbn [fold_right]. rewrite E2, pow_add. ring. }
  destruct Z as (rs & F2 & E2). eapply Rle_trans; [apply (Dbnd q _ rs j); [now rewrite map_length|exact F2]|].
  rewrite E2. right. ring.
Qed.

(** Replacing all arguments. *)
Lemma tele n (W P : Q -> V) : big n (fun q j => W q j - P q j) -> big 0 W -> big 0 P ->
  forall k (pre : list (Q -> V)), (forall u, In u pre -> big 0 u) -> (length pre + k < p)%nat ->
  big n (fun q j => D q (map (fun u => u q) pre ++ repeat (W q) k) j - D q (map (fun u => u q) pre ++ repeat (P q) k) j).
Proof.
  intros Bd BW BP. induction k as [|k IH]; intros pre Hp L.
  - apply (big_ext n (fun _ _ => 0)); [intros; cbn [repeat]; ring|apply big_zero].
  - apply (big_ext n (fun q j => D q (map (fun u => u q) pre ++ (fun i => W q i - P q i) :: repeat (W q) k) j
        + (D q (map (fun u => u q) (pre ++ [P]) ++ repeat (W q) k) j - D q (map (fun u => u q) (pre ++ [P]) ++ repeat (P q) k) j))).
    + intros q j. rewrite !map_app. cbn [map repeat]. rewrite <- !app_assoc. cbn [app].
      replace (fun i => W q i - P q i) with (fun i => 1 * W q i + -1 * P q i) by (extensionality i; ring). rewrite Dlin. ring.
    + apply big_add.
      * set (us := map (fun u => (0%nat, u)) pre ++ (n, fun q i => W q i - P q i) :: repeat (0%nat, W) k).
        assert (B := big_D us). 
        assert (E : fold_right (fun nu z => fst nu + z)%nat 0%nat us = n).
        { unfold us. clear. induction pre; cbn [map app fold_right fst].
          - assert (Z : fold_right (fun (nu : nat * (Q -> V)) z => fst nu + z)%nat 0%nat (repeat (0%nat, W) k) = 0%nat) by (induction k; cbn; auto). rewrite Z. lia.
          - exact IHpre. }
        rewrite E in B. apply (big_ext n (fun q => D q (map (fun nu => snd nu q) us))).
        -- intros q j. unfold us. rewrite map_app, map_map. cbn [map snd]. f_equal. f_equal. f_equal. f_equal.
           clear. induction k; [reflexivity|]. cbn [repeat map snd]. now rewrite IHk.
        -- apply B.
           ++ unfold us. rewrite app_length, map_length. cbn [length]. rewrite repeat_length. lia.
           ++ unfold us. intros nu Hn. apply in_app_or in Hn. destruct Hn as [Hn|[<-|Hn]].
              ** apply in_map_iff in Hn. destruct Hn as (u & <- & Hu). now apply Hp.
              ** exact Bd.
              ** apply repeat_spec in Hn. subst nu. exact BW.
      * apply IH.
        -- intros u Hu. apply in_app_or in Hu. destruct Hu as [Hu|[<-|[]]]; [now apply Hp|exact BP].
        -- rewrite app_length. cbn [length]. lia.
Qed.

(** Expanding all arguments. *)
Lemma D_zero q l l' j : D q (l ++ (fun _ => 0) :: l') j = 0.
Proof.
  transitivity (D q (l ++ (fun i => 0 * (fun _ : J => 0) i + 0 * (fun _ : J => 0) i) :: l') j).
  - f_equal. f_equal. f_equal. extensionality i. ring.
  - rewrite Dlin. ring.
Qed.
Lemma D_lsum {A} q l l' j (L : list A) (c : A -> R) (F : A -> V) :
  D q (l ++ (fun i => lsum L (fun a => c a * F a i)) :: l') j = lsum L (fun a => c a * D q (l ++ F a :: l') j).
Proof.
  induction L as [|a L IH]; [exact (D_zero q l l' j)|]. rewrite lsum_cons, <- IH.
  transitivity (D q (l ++ (fun i => c a * F a i + 1 * (fun i => lsum L (fun a => c a * F a i)) i) :: l') j).
  - f_equal. f_equal. f_equal. extensionality i. rewrite lsum_cons. ring.
  - rewrite Dlin. ring.
Qed.
Lemma D_expand {A} q (L : list A) (c : A -> R) (F : A -> V) j : forall k pre,
  D q (pre ++ repeat (fun i => lsum L (fun a => c a * F a i)) k) j = lsum (tuples k L) (fun l => lprod l c * D q (pre ++ map F l) j).
Proof.
  induction k as [|k IH]; intro pre.
  - cbn [tuples repeat]. unfold lsum. cbn. ring.
  - cbn [repeat tuples]. rewrite D_lsum, lsum_flat. apply lsum_ext. intros a _.
    replace (pre ++ F a :: repeat (fun i => lsum L (fun a => c a * F a i)) k)
      with ((pre ++ [F a]) ++ repeat (fun i => lsum L (fun a => c a * F a i)) k) by now rewrite <- app_assoc.
    rewrite IH, lsum_map, <- lsum_scale. apply lsum_ext. intros l _. rewrite lprod_cons. cbn [map]. rewrite <- app_assoc. cbn [app]. ring.
Qed.

(** Elementary differentials and series. *)
Fixpoint elemD (Dq : list V -> V) (t : tree) : V := match t with Node cs => Dq (map (elemD Dq) cs) end.
Definition elem (q : Q) (t : tree) : V := elemD (D q) t.
Lemma elem_node q cs : elem q (Node cs) = D q (map (elem q) cs).
Proof. reflexivity. Qed.
Lemma elem_big : forall n t, (tsize t <= n)%nat -> (n <= p)%nat -> big 0 (fun q => elem q t).
Proof.
  induction n as [|n IH]; intros [cs] L Lp; rewrite tsize_node in L; [lia|].
  pose proof (tsum_ge_length cs) as L2.
  assert (B := big_D (map (fun c => (0%nat, fun q => elem q c)) cs)). rewrite map_length in B.
  assert (E : fold_right (fun nu z => fst nu + z)%nat 0%nat (map (fun c => (0%nat, fun q => elem q c)) cs) = 0%nat)
    by (clear; induction cs; cbn; auto).
  rewrite E in B. apply (big_ext 0 (fun q => D q (map (fun nu => snd nu q) (map (fun c => (0%nat, fun q => elem q c)) cs)))).
  - intros q j. rewrite map_map. reflexivity.
  - apply B; [lia|]. intros nu Hn. apply in_map_iff in Hn. destruct Hn as (c & <- & Hc). cbn [fst snd].
    apply (IH c); [|lia]. pose proof (tsum_child cs c Hc). lia.
Qed.

Definition series (n : nat) (psi : tree -> R) (q : Q) : V :=
  fun j => lsum (trees n) (fun t => h q ^ tsize t * (beta t * psi t) * elem q t j).
Definition slope (n : nat) (psi : tree -> R) (q : Q) : V :=
  fun j => lsum (trees n) (fun t => h q ^ pred (tsize t) * (beta t * over psi t) * elem q t j).

Lemma series_big n psi : (n <= p)%nat -> big 1 (series n psi).
Proof.
  intro Lp. unfold series. apply (big_lsum 1 (trees n) (fun t q j => h q ^ tsize t * (beta t * psi t) * elem q t j)). intros t Ht.
  pose proof (in_trees n t Ht) as Hs.
  apply (big_weak 1 (tsize t + 0)); [destruct t; rewrite tsize_node; lia|].
  apply (big_ext _ (fun q j => h q ^ tsize t * ((beta t * psi t) * elem q t j))); [intros; ring|].
  apply big_h, big_scal. apply (elem_big n t Hs Lp).
Qed.
Lemma lprod_pow q l : lprod l (fun t => h q ^ tsize t) = h q ^ tsum l.
Proof. induction l as [|t l IH]; [reflexivity|]. rewrite lprod_cons, IH. cbn [tsum fold_right]. fold (tsum l). now rewrite pow_add. Qed.

(** The slope at the end of a series is a series. *)
Lemma compose n psi (W : Q -> V) : (S n <= p)%nat -> big (S n) (fun q j => W q j - series n psi q j) ->
  big (S n) (fun q j => G q (W q) j - slope (S n) psi q j).
Proof.
  intros Lp B.
  assert (BS : big 1 (series n psi)) by (apply series_big; lia).
  assert (BW : big 1 W).
  { apply (big_ext 1 (fun q j => (W q j - series n psi q j) + series n psi q j)); [intros; ring|].
    apply big_add; [|exact BS]. apply (big_weak 1 (S n)); [lia|exact B]. }
  set (F := elem). set (L := trees n).
  set (c := fun q t => h q ^ tsize t * (beta t * psi t)).
  (* Taylor *)
  assert (B1 : big (S n) (fun q j => G q (W q) j - sumn (S n) (fun k => D q (repeat (W q) k) j / INR (fact k)))).
  { destruct BW as (C & P & BW). exists (M * C ^ S n). split; [apply Rmult_le_pos; [exact HM|now apply pow_le]|]. intros q j.
    eapply Rle_trans; [apply (Drem q (W q) (C * Rabs (h q)) (S n) j); [lia|]|].
    - intro i. specialize (BW q i). rewrite pow_1 in BW. exact BW.
    - rewrite Rpow_mult_distr. right. ring. }
  (* replace W by its series *)
  assert (B2 : big (S n) (fun q j => sumn (S n) (fun k => D q (repeat (W q) k) j / INR (fact k)) - sumn (S n) (fun k => D q (repeat (series n psi q) k) j / INR (fact k)))).
  { apply (big_ext _ (fun q j => lsum (seq 0 (S n)) (fun k => / INR (fact k) * (D q (repeat (W q) k) j - D q (repeat (series n psi q) k) j)))).
    - intros q j. rewrite <- !lsum_sumn.
      replace (lsum (seq 0 (S n)) (fun k => D q (repeat (W q) k) j / INR (fact k)) - lsum (seq 0 (S n)) (fun k => D q (repeat (series n psi q) k) j / INR (fact k)))
        with (lsum (seq 0 (S n)) (fun k => D q (repeat (W q) k) j / INR (fact k)) + -1 * lsum (seq 0 (S n)) (fun k => D q (repeat (series n psi q) k) j / INR (fact k))) by ring.
      rewrite <- lsum_scale, <- lsum_plus. apply lsum_ext. intros k _. unfold Rdiv. ring.
    - apply (big_lsum (S n) (seq 0 (S n)) (fun k q j => / INR (fact k) * (D q (repeat (W q) k) j - D q (repeat (series n psi q) k) j))). intros k Hk.
      apply in_seq in Hk. apply big_scal.
      apply (tele (S n) W (series n psi) B (big_weak 0 1 _ ltac:(lia) BW) (big_weak 0 1 _ ltac:(lia) BS) k []); [intros u []|cbn; lia]. }
  (* expand *)
  assert (B3 : big (S n) (fun q j => sumn (S n) (fun k => D q (repeat (series n psi q) k) j / INR (fact k)) - slope (S n) psi q j)).
  { apply (big_ext _ (fun q j => lsum (seq 0 (S n)) (fun k => / INR (fact k) *
        lsum (filter (fun l => negb (tsum l <=? n)%nat) (tuples k L)) (fun l => lprod l (c q) * D q (map (F q) l) j)))).
    - intros q j. unfold slope. cbn [trees]. fold L. rewrite lsum_map, lsum_flat, <- lsum_sumn.
      match goal with |- _ = ?a - ?b => replace (a - b) with (a + -1 * b) by ring end.
      rewrite <- lsum_scale, <- lsum_plus. apply lsum_ext. intros k _.
      unfold series. fold L. fold (c q).
      pose proof (D_expand q L (c q) (F q) j k []) as E. cbn [app] in E. unfold Rdiv. 
      match goal with |- _ = ?a * _ + _ => replace a with (lsum (tuples k L) (fun l => lprod l (c q) * D q (map (F q) l) j)) by (symmetry; exact E) end.
      rewrite (lsum_filter (fun l => tsum l <=? n)%nat (tuples k L)).
      rewrite (lsum_ext (filter (fun l => tsum l <=? n)%nat (tuples k L)) (fun a => h q ^ pred (tsize (Node a)) * (beta (Node a) * over psi (Node a)) * elem q (Node a) j)
        (fun l => / INR (fact k) * (lprod l (c q) * D q (map (F q) l) j))).
      + rewrite lsum_scale. ring.
      + intros l Hl. apply filter_In in Hl. destruct (in_tuples L k l (proj1 Hl)) as [El _].
        rewrite tsize_node, beta_node, El. rewrite elem_node. cbn [pred over]. unfold c. rewrite !lprod_mult, lprod_pow. unfold Rdiv, F. ring.
    - apply (big_lsum (S n) (seq 0 (S n)) (fun k q j => / INR (fact k) * lsum (filter (fun l => negb (tsum l <=? n)%nat) (tuples k L)) (fun l => lprod l (c q) * D q (map (F q) l) j))).
      intros k Hk. apply in_seq in Hk. apply big_scal.
      apply (big_lsum (S n) _ (fun l q j => lprod l (c q) * D q (map (F q) l) j)). intros l Hl.
      apply filter_In in Hl. destruct Hl as [Hl Hs]. destruct (in_tuples L k l Hl) as [El Hin].
      apply Bool.negb_true_iff, Nat.leb_gt in Hs.
      apply (big_weak (S n) (tsum l + 0)); [lia|].
      apply (big_ext _ (fun q j => h q ^ tsum l * ((lprod l beta * lprod l psi) * elem q (Node l) j))).
      + intros q j. unfold c. rewrite !lprod_mult, lprod_pow, elem_node. unfold F. ring.
      + apply big_h, big_scal.
        assert (B0 := big_D (map (fun c => (0%nat, fun q => elem q c)) l)). rewrite map_length in B0.
        assert (E : fold_right (fun nu z => fst nu + z)%nat 0%nat (map (fun c => (0%nat, fun q => elem q c)) l) = 0%nat)
          by (clear; induction l; cbn; auto).
        rewrite E in B0. apply (big_ext 0 (fun q => D q (map (fun nu => snd nu q) (map (fun c => (0%nat, fun q => elem q c)) l)))).
        * intros q j. rewrite map_map. reflexivity.
        * apply B0; [lia|]. intros nu Hn. apply in_map_iff in Hn. destruct Hn as (t & <- & Ht). cbn [fst snd].
          apply (elem_big n t); [|lia]. apply in_trees. now apply Hin. }
  apply (big_ext _ (fun q j => (G q (W q) j - sumn (S n) (fun k => D q (repeat (W q) k) j / INR (fact k)))
    + ((sumn (S n) (fun k => D q (repeat (W q) k) j / INR (fact k)) - sumn (S n) (fun k => D q (repeat (series n psi q) k) j / INR (fact k)))
       + (sumn (S n) (fun k => D q (repeat (series n psi q) k) j / INR (fact k)) - slope (S n) psi q j)))); [intros; ring|].
  apply big_add; [exact B1|]. now apply big_add.
Qed.

Lemma slope_big n psi : (n <= p)%nat -> big 0 (slope n psi).
Proof.
  intro Lp. unfold slope. apply (big_lsum 0 (trees n) (fun t q j => h q ^ pred (tsize t) * (beta t * over psi t) * elem q t j)). intros t Ht.
  apply (big_weak 0 (pred (tsize t) + 0)); [lia|].
  apply (big_ext _ (fun q j => h q ^ pred (tsize t) * ((beta t * over psi t) * elem q t j))); [intros; ring|].
  apply big_h, big_scal. apply (elem_big n t (in_trees n t Ht) Lp).
Qed.

(** ** The stages of an explicit Runge-Kutta method. *)
Variable s : nat.
Variable a : nat -> nat -> R.
Variable k : nat -> Q -> V.
Hypothesis Hp : (1 <= p)%nat.
Hypothesis Hk : forall i q j, (i < s)%nat -> k i q j = G q (fun j' => h q * sumn i (fun m => a i m * k m q j')) j.

Fixpoint ph (t : tree) (i : nat) : R :=
  match t with Node cs => fold_right (fun c z => sumn i (fun m => a i m * ph c m) * z) 1 cs end.
Lemma ph_over t i : ph t i = over (fun c => sumn i (fun m => a i m * ph c m)) t.
Proof. destruct t. reflexivity. Qed.

Lemma big_sumn n c (w : nat -> R) (u : nat -> Q -> V) : (forall m, (m < c)%nat -> big n (u m)) ->
  big n (fun q j => sumn c (fun m => w m * u m q j)).
Proof.
  intro B. apply (big_lsum n (seq 0 c) (fun m q j => w m * u m q j)). intros m Hm. apply in_seq in Hm. apply big_scal, B. lia.
Qed.
Lemma big_h1 n u : big n u -> big (S n) (fun q j => h q * u q j).
Proof. intro B. apply (big_ext (1 + n) (fun q j => h q ^ 1 * u q j)); [intros; ring|]. now apply big_h. Qed.

Lemma stage_bounded i : (i < s)%nat -> big 0 (k i).
Proof.
  induction i as [i IH] using (well_founded_induction lt_wf). intro Hi.
  set (W := fun q j' => h q * sumn i (fun m => a i m * k m q j')).
  assert (BW : big 1 W).
  { apply big_h1. apply big_sumn. intros m Hm. apply IH; lia. }
  apply (big_ext 0 (fun q j => (G q (W q) j - slope 1 (fun _ => 0) q j) + slope 1 (fun _ => 0) q j)).
  - intros q j. rewrite (Hk i q j Hi). unfold W. ring.
  - apply big_add; [|apply slope_big; exact Hp]. apply (big_weak 0 1); [lia|].
    apply (compose 0 (fun _ => 0) W Hp). apply (big_ext 1 W); [|exact BW]. intros q j. unfold series, lsum. cbn. ring.
Qed.

Theorem weigh : forall n, (n <= p)%nat -> forall c (w : nat -> R), (c <= s)%nat ->
  big (S n) (fun q j => h q * sumn c (fun m => w m * k m q j) - series n (fun t => sumn c (fun m => w m * ph t m)) q j).
Proof.
  induction n as [|n IH]; intros Lp c w Hc.
  - apply (big_ext 1 (fun q j => h q * sumn c (fun m => w m * k m q j))); [intros; unfold series, lsum; cbn; ring|].
    apply big_h1. apply big_sumn. intros m Hm. apply stage_bounded. lia.
  - set (psi := fun i t => sumn i (fun m => a i m * ph t m)).
    assert (B : forall i, (i < s)%nat -> big (S n) (fun q j => k i q j - slope (S n) (psi i) q j)).
    { intros i Hi. specialize (IH ltac:(lia) i (a i) ltac:(lia)).
      apply (compose n (psi i) (fun q j' => h q * sumn i (fun m => a i m * k m q j')) Lp) in IH.
      apply (big_ext _ _ _ (fun q j => eq_sym (f_equal (fun z => z - slope (S n) (psi i) q j) (Hk i q j Hi))) IH). }
    apply (big_ext _ (fun q j => h q * sumn c (fun m => w m * (k m q j - slope (S n) (psi m) q j)))).
    + intros q j.
      replace (sumn c (fun m => w m * (k m q j - slope (S n) (psi m) q j)))
        with (sumn c (fun m => w m * k m q j) + -1 * sumn c (fun m => w m * slope (S n) (psi m) q j)).
      2:{ rewrite <- sumn_scale, <- sumn_plus. apply sumn_ext. intros m _. ring. }
      replace (series (S n) (fun t => sumn c (fun m => w m * ph t m)) q j) with (h q * sumn c (fun m => w m * slope (S n) (psi m) q j)); [ring|].
      rewrite <- lsum_sumn. unfold slope, series.
      rewrite (lsum_ext (seq 0 c) _ (fun m => lsum (trees (S n)) (fun t => w m * (h q ^ pred (tsize t) * (beta t * over (psi m) t) * elem q t j))))
        by (intros m _; now rewrite lsum_scale).
      rewrite lsum_swap, <- lsum_scale. apply lsum_ext. intros t _.
      rewrite <- (lsum_sumn c). rewrite <- lsum_scale.
      replace (h q ^ tsize t * (beta t * lsum (seq 0 c) (fun m => w m * ph t m)) * elem q t j)
        with ((h q ^ tsize t * beta t * elem q t j) * lsum (seq 0 c) (fun m => w m * ph t m)) by ring.
      rewrite <- lsum_scale. apply lsum_ext. intros m _. rewrite (ph_over t m). fold (psi m).
      destruct t as [cs]. rewrite tsize_node. cbn [pred pow]. ring.
    + apply big_h1. apply (big_sumn (S n) c w (fun m q j => k m q j - slope (S n) (psi m) q j)). intros m Hm. apply B. lia.
Qed.

(** Weights that differ from point to point. *)
Theorem weigh_var n : (S n <= p)%nat -> forall c (w : Q -> nat -> R) B, (c <= s)%nat -> (forall q m, (m < c)%nat -> Rabs (w q m) <= B) ->
  big (S (S n)) (fun q j => h q * sumn c (fun m => w q m * k m q j)
    - lsum (trees (S n)) (fun t => h q ^ tsize t * (beta t * sumn c (fun m => w q m * ph t m)) * elem q t j)).
Proof.
  intros Lp c w B Hc HB.
  set (psi := fun i t => sumn i (fun m => a i m * ph t m)).
  assert (Bk : forall i, (i < s)%nat -> big (S n) (fun q j => k i q j - slope (S n) (psi i) q j)).
  { intros i Hi. pose proof (weigh n ltac:(lia) i (a i) ltac:(lia)) as IH.
    apply (compose n (psi i) (fun q j' => h q * sumn i (fun m => a i m * k m q j')) Lp) in IH.
    apply (big_ext _ _ _ (fun q j => eq_sym (f_equal (fun z => z - slope (S n) (psi i) q j) (Hk i q j Hi))) IH). }
  apply (big_ext _ (fun q j => h q * lsum (seq 0 c) (fun m => w q m * (k m q j - slope (S n) (psi m) q j)))).
  - intros q j.
    replace (lsum (seq 0 c) (fun m => w q m * (k m q j - slope (S n) (psi m) q j)))
      with (sumn c (fun m => w q m * k m q j) + -1 * lsum (seq 0 c) (fun m => w q m * slope (S n) (psi m) q j)).
    2:{ rewrite <- lsum_sumn, <- lsum_scale, <- lsum_plus. apply lsum_ext. intros m _. ring. }
    replace (lsum (trees (S n)) (fun t => h q ^ tsize t * (beta t * sumn c (fun m => w q m * ph t m)) * elem q t j))
      with (h q * lsum (seq 0 c) (fun m => w q m * slope (S n) (psi m) q j)); [ring|].
    unfold slope.
    rewrite (lsum_ext (seq 0 c) _ (fun m => lsum (trees (S n)) (fun t => w q m * (h q ^ pred (tsize t) * (beta t * over (psi m) t) * elem q t j))))
      by (intros m _; now rewrite lsum_scale).
    rewrite lsum_swap, <- lsum_scale. apply lsum_ext. intros t _.
    rewrite <- (lsum_sumn c). rewrite <- lsum_scale.
    replace (h q ^ tsize t * (beta t * lsum (seq 0 c) (fun m => w q m * ph t m)) * elem q t j)
      with ((h q ^ tsize t * beta t * elem q t j) * lsum (seq 0 c) (fun m => w q m * ph t m)) by ring.
    rewrite <- lsum_scale. apply lsum_ext. intros m _. rewrite (ph_over t m). fold (psi m).
    destruct t as [cs]. rewrite tsize_node. cbn [pred pow]. ring.
  - apply big_h1. apply (big_lsum (S n) (seq 0 c) (fun m q j => w q m * (k m q j - slope (S n) (psi m) q j))). intros m Hm.
    apply in_seq in Hm. destruct (Bk m ltac:(lia)) as (C & PC & BC). 
    assert (PB : forall q : Q, 0 <= B) by (intro q; pose proof (Rabs_pos (w q m)); specialize (HB q m ltac:(lia)); lra).
    exists (Rabs B * C). split; [apply Rmult_le_pos; [apply Rabs_pos|exact PC]|]. intros q j. rewrite Rabs_mult, Rmult_assoc.
    apply Rmult_le_compat; try apply Rabs_pos; [|apply BC]. rewrite (Rabs_pos_eq B) by apply (PB q). apply HB. lia.
Qed.
End Family.

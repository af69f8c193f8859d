(** Deciding the order conditions: all weights of forests up to a given size are
    enumerated once, with every tree covered by the enumeration. *)
From Coq Require Import ZArith List Bool QArith Lia Arith Qreduction Setoid Morphisms.
From Verif Require Import M_Num M_RK S_RK.
Import ListNotations.

(** Induction over trees. *)
Section TreeInd.
Variable P : list tree -> Prop.
Hypothesis P0 : P [].
Hypothesis PS : forall cs r, P cs -> P r -> P (Node cs :: r).
Lemma PS' : forall c r, P match c with Node cs => cs end -> P r -> P (c :: r).
Proof. intros [cs] r; apply PS. Qed.
Fixpoint forest_ind_t (t : tree) : P match t with Node cs => cs end :=
  match t with
  | Node cs => (fix go (l : list tree) : P l :=
      match l with
      | [] => P0
      | c :: r => PS' c r (forest_ind_t c) (go r)
      end) cs
  end.
Lemma forest_ind : forall fs, P fs.
Proof. intro fs. exact (forest_ind_t (Node fs)). Qed.
End TreeInd.

Definition fsize (fs : list tree) : nat := fold_right (fun c n => tsize c + n)%nat 0%nat fs.
Definition fgam (fs : list tree) : Z := fold_right (fun c z => gamma c * z)%Z 1%Z fs.

Lemma tsize_node : forall cs, tsize (Node cs) = S (fsize cs).
Proof. reflexivity. Qed.
Lemma gamma_node : forall cs, gamma (Node cs) = (Z.of_nat (S (fsize cs)) * fgam cs)%Z.
Proof. reflexivity. Qed.

Section Weights.
Variable rows : list (list Q).
Local Open Scope Q_scope.

Definition qdotr (row w : list Q) : Q := fold_right (fun p s => Qred (fst p * snd p + s)) 0 (combine row w).

(** Weights with reduced fractions. *)
Definition mulw (v w : list Q) : list Q :=
  map (fun p => Qred (fst p * snd p)) (combine (map (fun row => qdotr row v) rows) w).

Fixpoint fw_t (t : tree) : list Q :=
  match t with
  | Node cs => (fix go (l : list tree) : list Q :=
      match l with
      | [] => map (fun _ => 1) rows
      | c :: r => mulw (fw_t c) (go r)
      end) cs
  end.
Definition fw (fs : list tree) : list Q := fw_t (Node fs).

Lemma fw_nil : fw [] = map (fun _ => 1) rows.
Proof. reflexivity. Qed.
Lemma fw_cons : forall cs r, fw (Node cs :: r) = mulw (fw cs) (fw r).
Proof. reflexivity. Qed.

Lemma qdotr_eq : forall row w w', Forall2 Qeq w w' -> qdotr row w == qdot row w'.
Proof.
  unfold qdotr, qdot. induction row as [|a row IH]; intros w w' H; [reflexivity|].
  destruct H as [|x y w w' Hxy H]; [reflexivity|].
  cbn [combine map fold_right fst snd].
  rewrite Qred_correct, Hxy, (IH w w' H). reflexivity.
Qed.

Lemma fw_phi : forall fs, Forall2 Qeq (fw fs) (phi rows (Node fs)).
Proof.
  apply forest_ind.
  - rewrite fw_nil. simpl. induction rows; simpl; constructor; auto; reflexivity.
  - intros cs r Hc Hr. rewrite fw_cons. unfold mulw.
    set (g := fun row => fold_right (fun c q => qdot row (phi rows c) * q) 1 r).
    change (phi rows (Node (Node cs :: r)))
      with (map (fun row => qdot row (phi rows (Node cs)) * g row) rows).
    change (phi rows (Node r)) with (map g rows) in Hr.
    revert Hr. generalize (fw r) as w. clearbody g. intros w Hr.
    set (v := fw cs) in *. set (p := phi rows (Node cs)) in *. clearbody v p.
    revert w Hr. generalize rows as l. induction l as [|row l IH]; intros w Hr; cbn [map] in *.
    + inversion Hr; constructor.
    + inversion Hr as [|q y w' l' Hq Hw]; subst; cbn [combine map fst snd]. constructor.
      * rewrite Qred_correct, (qdotr_eq _ _ _ Hc), Hq. reflexivity.
      * now apply IH.
Qed.

(** All weights of forests of size 0..n. *)
Definition next_level (n : nat) (L : list (list (list Q * Z))) : list (list Q * Z) :=
  flat_map (fun j =>
    flat_map (fun vg =>
      map (fun wh => (mulw (fst vg) (fst wh), (Z.of_nat (S j) * snd vg * snd wh)%Z))
          (nth (n - j) L []))
      (nth j L [])) (seq 0 (S n)).

Fixpoint levels (n : nat) : list (list (list Q * Z)) :=
  match n with
  | O => [[(map (fun _ => 1) rows, 1%Z)]]
  | S n' => let L := levels n' in L ++ [next_level n' L]
  end.

Lemma levels_length : forall n, length (levels n) = S n.
Proof. induction n; simpl; auto. rewrite app_length, IHn; simpl; lia. Qed.

Lemma nth_app_l : forall A (l r : list A) d i, (i < length l)%nat -> nth i (l ++ r) d = nth i l d.
Proof. intros. now apply app_nth1. Qed.

Lemma levels_complete : forall n fs, (fsize fs <= n)%nat ->
  In (fw fs, fgam fs) (nth (fsize fs) (levels n) []).
Proof.
  induction n as [|n IH]; intros fs Hs.
  - destruct fs as [|[cs] r]; simpl in *; [left; reflexivity|lia].
  - simpl levels. destruct (le_lt_dec (fsize fs) n) as [h|h].
    + rewrite nth_app_l by (rewrite levels_length; lia). auto.
    + assert (E : fsize fs = S n) by lia. rewrite E.
      rewrite app_nth2 by (rewrite levels_length; lia).
      rewrite levels_length, Nat.sub_diag. simpl nth.
      destruct fs as [|[cs] r]; [simpl in E; lia|].
      change (fsize (Node cs :: r)) with (S (fsize cs) + fsize r)%nat in E.
      unfold next_level. apply in_flat_map. exists (fsize cs). split.
      { apply in_seq. lia. }
      apply in_flat_map. exists (fw cs, fgam cs). split.
      { apply IH. lia. }
      apply in_map_iff. exists (fw r, fgam r). split.
      { simpl fst; simpl snd. rewrite fw_cons. reflexivity. }
      replace (n - fsize cs)%nat with (fsize r) by lia. apply IH. lia.
Qed.

(** The decision procedure. *)
Definition check_level (b : list Q) (n : nat) (l : list (list Q * Z)) : bool :=
  forallb (fun vg => Qeq_bool (qdotr b (fst vg)) (1 / inject_Z (Z.of_nat (S n) * snd vg))) l.
Definition check_order (b : list Q) (p : nat) : bool :=
  match p with
  | O => true
  | S n => forallb (fun k => check_level b k (nth k (levels n) [])) (seq 0 p)
  end.

Lemma check_order_sound : forall b p,
  check_order b p = true -> forall t, (tsize t <= p)%nat -> order_condition rows b t.
Proof.
  intros b p H [cs] Hs. rewrite tsize_node in Hs.
  destruct p as [|n]; [lia|]. simpl in H.
  change (forallb (fun k => check_level b k (nth k (levels n) [])) (seq 0 (S n)) = true) in H.
  rewrite forallb_forall in H.
  assert (Hk : check_level b (fsize cs) (nth (fsize cs) (levels n) []) = true)
    by (apply H; apply in_seq; lia).
  unfold check_level in Hk. rewrite forallb_forall in Hk.
  specialize (Hk _ (levels_complete n cs ltac:(lia))). simpl fst in Hk; simpl snd in Hk.
  apply Qeq_bool_eq in Hk. unfold order_condition. rewrite gamma_node.
  rewrite <- Hk. symmetry. apply qdotr_eq. apply fw_phi.
Qed.
End Weights.

(** A whole method. *)
Definition check_rowsums (rows : list (list Q)) (c : list Q) : bool :=
  forallb (fun p => Qeq_bool (fold_right Qplus 0 (fst p)) (snd p)) (combine rows c).
Definition check_method (rows : list (list Q)) (b c : list Q) (p : nat) : bool :=
  check_order rows b p && (length rows =? length b)%nat && (length rows =? length c)%nat
  && check_rowsums rows c.

Lemma check_method_sound : forall rows b c p, check_method rows b c p = true -> has_order rows b c p.
Proof.
  intros rows b c p H. unfold check_method in H.
  apply andb_true_iff in H; destruct H as [H H4].
  apply andb_true_iff in H; destruct H as [H H3].
  apply andb_true_iff in H; destruct H as [H1 H2].
  apply Nat.eqb_eq in H2, H3.
  split; [|split; [|split]]; auto.
  - now apply check_order_sound.
  - unfold check_rowsums in H4. clear H1 H2. revert c H3 H4.
    induction rows as [|r rows IH]; intros [|c0 c] H3 H4; simpl in *; try lia; constructor.
    + apply andb_true_iff in H4. now apply Qeq_bool_eq.
    + apply IH; [lia|]. now apply andb_true_iff in H4.
Qed.

(** The tableau of a stepper in rational arithmetic. *)
Notation QQ := (QNum 0).
Definition method_check (tb : tableau QQ) (b : list Q) (p : nat) : bool :=
  check_method ([] :: tab_a tb) b (tab_c tb) p.

Lemma euler_check : check_method [[]] [1%Q] [0%Q] 1 = true.
Proof. vm_compute. reflexivity. Qed.
Lemma rk4_check : method_check rk4_tab (tab_b (rk4_tab : tableau QQ)) 4 = true.
Proof. vm_compute. reflexivity. Qed.
Lemma ck54_check : method_check ck54_tab (tab_b (ck54_tab : tableau QQ)) 5 = true.
Proof. vm_compute. reflexivity. Qed.
Lemma f78_check : method_check f78_tab (tab_b (f78_tab : tableau QQ)) 8 = true.
Proof. vm_compute. reflexivity. Qed.

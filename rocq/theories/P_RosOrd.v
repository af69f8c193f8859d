(** The order conditions of rosenbrock4 for autonomous systems: order four up to 10^-15. *)
From Coq Require Import List Arith ZArith Reals Lia Lra QArith Qreals.
From Verif Require Import M_Num M_RK M_Implicit S_RK S_BSeries S_Implicit P_RKOrder P_RKNamed P_BSeries P_Butcher P_RosSeries P_Ros.
Import ListNotations.
Local Open Scope R_scope.

(** ** The numbers of the method, as quotients. *)
Definition cq : roscoef (QNum 0) := default_rosenbrock (N := QNum 0).
Definition arowsQ : list (list Q) := [[]; ro_a2 cq; ro_a3 cq; ro_a4 cq; ro_a5 cq; ro_a5 cq ++ [1%Q]].
Definition crowsQ : list (list Q) := [[]; ro_k2 cq; ro_k3 cq; ro_k4 cq; ro_k5 cq; ro_k6 cq].
Definition wQ : list Q := ro_a5 cq ++ [1%Q; 1%Q].
Definition aR (i m : nat) : R := nth m (map Q2R (nth i arowsQ [])) 0.
Definition cR (i m : nat) : R := nth m (map Q2R (nth i crowsQ [])) 0.
Definition wR (m : nat) : R := nth m (map Q2R wQ) 0.

(** ** The weights of the trees in the stages. *)
Fixpoint solve (cr : list (list Q)) (rhs acc : list Q) : list Q :=
  match cr, rhs with
  | c :: cr', r :: rh => solve cr' rh (acc ++ [Qred ((1 # 4) * (r + qdot c acc))%Q])
  | _, _ => acc
  end.
Definition rhs (subs : list (list Q)) : list Q :=
  map (fun i => Qred ((match subs with [l] => nth i l 0%Q | _ => 0%Q end) + fold_right (fun l z => (qdot (nth i arowsQ []) l * z)%Q) 1%Q subs)%Q) (seq 0 6).
Fixpoint rhoQ (t : tree) : list Q := match t with Node cs => solve crowsQ (rhs (map rhoQ cs)) [] end.
Definition rho (t : tree) (i : nat) : R := Q2R (nth i (rhoQ t) 0%Q).

Lemma solve_spec : forall cr r acc, length r = length cr ->
  (exists tl, solve cr r acc = acc ++ tl /\ length tl = length cr) /\
  forall i, (i < length cr)%nat -> length (nth i cr []) = (length acc + i)%nat ->
   Qeq (nth (length acc + i) (solve cr r acc) 0%Q) ((1 # 4) * (nth i r 0 + qdot (nth i cr []) (solve cr r acc)))%Q.
Proof.
  induction cr as [|c cr IH]; intros [|r0 r] acc E; cbn in E; try lia.
  - split; [exists []; split; [symmetry; apply app_nil_r|reflexivity]|]. intros i Hi. cbn in Hi. lia.
  - cbn [solve]. set (v := Qred ((1 # 4) * (r0 + qdot c acc))%Q). destruct (IH r (acc ++ [v]) ltac:(lia)) as [(tl & E1 & L1) H2].
    split.
    + exists (v :: tl). rewrite E1, <- app_assoc. split; [reflexivity|cbn; lia].
    + intros [|i] Hi Hl; cbn [nth] in *.
      * rewrite E1, <- app_assoc. rewrite Nat.add_0_r, app_nth2, Nat.sub_diag by lia. cbn [nth app].
        assert (Z : qdot c (acc ++ v :: tl) = qdot c acc).
        { unfold qdot. f_equal. f_equal. clearbody v. clear - Hl. rewrite Nat.add_0_r in Hl. revert acc Hl.
          induction c as [|x c IHc]; intros [|y acc] Hl; cbn in Hl; try lia; [reflexivity|]. cbn [combine app]. f_equal. apply IHc. lia. }
        rewrite Z. unfold v. apply Qred_correct.
      * specialize (H2 i ltac:(cbn in Hi; lia)). rewrite app_length in H2. cbn [length] in H2.
        replace (length acc + Datatypes.S i)%nat with (length acc + 1 + i)%nat by lia. apply H2. lia.
Qed.

Lemma rhs_len subs : length (rhs subs) = 6%nat.
Proof. unfold rhs. now rewrite map_length, seq_length. Qed.
Lemma rho_len t : length (rhoQ t) = 6%nat.
Proof.
  destruct t as [cs]. cbn [rhoQ]. destruct (solve_spec crowsQ (rhs (map rhoQ cs)) []) as [(tl & -> & L) _]; [now rewrite rhs_len|]. exact L.
Qed.
Lemma crow_len i : (i < 6)%nat -> length (nth i crowsQ []) = i.
Proof. intro Hi. do 6 (destruct i as [|i]; [reflexivity|]). lia. Qed.
Lemma arow_len i : (i < 6)%nat -> length (nth i arowsQ []) = i.
Proof. intro Hi. do 6 (destruct i as [|i]; [reflexivity|]). lia. Qed.

Lemma rho_eq : forall cs i, (i < 6)%nat -> rho (Node cs) i = 1 / 4 * (single (fun t => rho t i) (Node cs)
  + lprod cs (fun t => sumn i (fun m => aR i m * rho t m)) + sumn i (fun m => cR i m * rho (Node cs) m)).
Proof.
  intros cs i Hi. unfold rho at 1. cbn [rhoQ].
  destruct (solve_spec crowsQ (rhs (map rhoQ cs)) []) as [_ H2]; [now rewrite rhs_len|].
  specialize (H2 i Hi ltac:(now rewrite crow_len)). cbn [length Nat.add] in H2. apply Qeq_eqR in H2. rewrite H2.
  change (solve crowsQ (rhs (map rhoQ cs)) []) with (rhoQ (Node cs)).
  rewrite Q2R_mult, Q2R_plus.
  rewrite (qdot_sumn (nth i crowsQ [])) by (rewrite crow_len, rho_len; lia). rewrite crow_len by exact Hi.
  assert (E4 : Q2R (1 # 4) = 1 / 4) by (unfold Q2R; cbn; lra). rewrite E4. f_equal. f_equal.
  unfold rhs. rewrite (nth_indep _ 0%Q (Qred ((match map rhoQ cs with [l] => nth 0 l 0%Q | _ => 0%Q end) + fold_right (fun l z => (qdot (nth 0 arowsQ []) l * z)%Q) 1%Q (map rhoQ cs))%Q))
    by (rewrite map_length, seq_length; lia).
  rewrite (map_nth (fun i => Qred ((match map rhoQ cs with [l] => nth i l 0%Q | _ => 0%Q end) + fold_right (fun l z => (qdot (nth i arowsQ []) l * z)%Q) 1%Q (map rhoQ cs))%Q)).
  rewrite seq_nth by exact Hi. cbn [Nat.add]. rewrite (Qeq_eqR _ _ (Qred_correct _)), Q2R_plus. f_equal.
  - destruct cs as [|c [|c2 cs]]; cbn [map single]; [apply Q2R_0'|reflexivity|apply Q2R_0'].
  - clear H2. induction cs as [|c cs IHc]; [apply Q2R_1'|]. cbn [map fold_right]. rewrite lprod_cons, Q2R_mult, IHc. f_equal.
    rewrite qdot_sumn by (rewrite arow_len, rho_len; lia). rewrite arow_len by exact Hi. reflexivity.
Qed.

(** ** Order four, up to 10^-15. *)
Definition dlt : Q := 1 # 1000000000000000.
Definition near_one (t : tree) : bool :=
  let z := (qdot wQ (rhoQ t) - (1 # Z.to_pos (gamma t)))%Q in Qle_bool z dlt && Qle_bool (- z)%Q dlt.
Lemma all_near : forallb near_one (trees 4) = true.
Proof. vm_compute. reflexivity. Qed.
Lemma order_near t : In t (trees 4) -> Rabs (sumn 6 (fun m => wR m * rho t m) - / IZR (gamma t)) <= / 10 ^ 15.
Proof.
  intro Ht. pose proof (proj1 (forallb_forall _ _) all_near t Ht) as B. unfold near_one in B. cbv zeta in B. apply andb_prop in B. destruct B as [B1 B2].
  apply Qle_bool_iff, Qle_Rle in B1. apply Qle_bool_iff, Qle_Rle in B2. rewrite Q2R_opp in B2. rewrite Q2R_minus in B1, B2.
  rewrite (qdot_sumn wQ) in B1, B2 by (rewrite rho_len; cbn; lia). change (length wQ) with 6%nat in B1, B2.
  assert (Pg : (0 < gamma t)%Z) by exact (gamma_pos _ t (le_n _)).
  assert (Eg : Q2R (1 # Z.to_pos (gamma t)) = / IZR (gamma t)).
  { unfold Q2R. cbn [Qnum Qden]. rewrite Z2Pos.id by exact Pg. ring. }
  assert (Ed : Q2R dlt = / 10 ^ 15) by (unfold Q2R, dlt; cbn; field).
  rewrite Eg, Ed in B1, B2. apply Rabs_le. unfold rho, wR. lra.
Qed.

(** ** They are the numbers of the model. *)
Definition rowsR eps := rows eps (default_rosenbrock (N := RNum eps)).
Lemma Q2R_f p q : q <> 0%Z -> Q2R (nfrac (N := QNum 0) p q) = (IZR p / IZR q)%R.
Proof. exact (Q2R_frac p q). Qed.
Lemma aR_rows eps : map (fun s => rs_a s) (rowsR eps) = map (map Q2R) arowsQ.
Proof.
  unfold rowsR, rows, arowsQ, cq, default_rosenbrock. cbn [map rs_a ro_a2 ro_a3 ro_a4 ro_a5 app].
  rewrite !Q2R_f by discriminate. rewrite Q2R_1'. reflexivity.
Qed.
Lemma cR_rows eps : map (fun s => rs_c s) (rowsR eps) = map (map Q2R) crowsQ.
Proof.
  unfold rowsR, rows, crowsQ, cq, default_rosenbrock. cbn [map rs_c ro_k2 ro_k3 ro_k4 ro_k5 ro_k6 app].
  rewrite !Q2R_f by discriminate. reflexivity.
Qed.
Lemma wR_weights eps : weights eps (default_rosenbrock (N := RNum eps)) = map Q2R wQ.
Proof.
  unfold weights, wQ, cq, default_rosenbrock. cbn [map ro_a5 app].
  rewrite !Q2R_f by discriminate. rewrite Q2R_1'. reflexivity.
Qed.

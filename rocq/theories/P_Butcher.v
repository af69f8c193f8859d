(** The order conditions give consistency along smooth solutions. *)
From Coq Require Import List Arith ZArith Reals Lia Lra QArith Qreals FunctionalExtensionality.
From Verif Require Import M_Num M_RK S_RK S_Conv S_BSeries P_RKOrder P_ConvOrd P_BSeries.
Import ListNotations.
Local Open Scope R_scope.
Local Notation S := Datatypes.S.

(** ** The solution. *)
Lemma deriv_lsum {A} (l : list A) (g : A -> R -> R) (g' : A -> R) x : (forall a, In a l -> derivable_pt_lim (g a) x (g' a)) ->
  derivable_pt_lim (fun u => lsum l (fun a => g a u)) x (lsum l g').
Proof.
  induction l as [|a l IH]; intro B; [apply derivable_pt_lim_const|].
  apply (derivable_pt_lim_plus (g a) (fun u => lsum l (fun a => g a u))); [apply B; now left|].
  apply IH. intros b Hb. apply B. now right.
Qed.

Lemma gamma_pos : forall n t, (tsize t <= n)%nat -> (0 < gamma t)%Z.
Proof.
  induction n as [|n IH]; intros [cs] L; rewrite tsize_node in L; [lia|]. cbn [gamma].
  apply Z.mul_pos_pos; [rewrite tsize_node; lia|].
  assert (L2 : forall c, In c cs -> (tsize c <= n)%nat) by (intros c Hc; pose proof (tsum_child cs c Hc); lia).
  clear L. induction cs as [|c cs IHc]; [reflexivity|]. cbn [fold_right].
  apply Z.mul_pos_pos; [apply IH; apply L2; now left|]. apply IHc. intros d Hd. apply L2. now right.
Qed.
Lemma gamma_over t : INR (tsize t) * / IZR (gamma t) = over (fun c => / IZR (gamma c)) t.
Proof.
  destruct t as [cs]. change (gamma (Node cs)) with (Z.of_nat (tsize (Node cs)) * fold_right (fun c z => gamma c * z) 1 cs)%Z.
  rewrite mult_IZR, <- INR_IZR_INZ. cbn [over].
  assert (E : forall l, IZR (fold_right (fun c z => (gamma c * z)%Z) 1%Z l) <> 0 /\ / IZR (fold_right (fun c z => (gamma c * z)%Z) 1%Z l) = lprod l (fun c => / IZR (gamma c))).
  { induction l as [|c l [IH1 IH2]]; [split; [cbn; lra|cbn; apply Rinv_1]|]. cbn [fold_right]. rewrite mult_IZR, lprod_cons, <- IH2.
    assert (IZR (gamma c) <> 0) by (apply not_0_IZR; pose proof (gamma_pos _ c (le_n _)); lia).
    split; [now apply Rmult_integral_contrapositive_currified|]. apply Rinv_mult. }
  destruct (E cs) as [E1 E2]. rewrite <- E2. field. split; [exact E1|]. apply not_0_INR. rewrite tsize_node. lia.
Qed.

Section Sol.
Context {J : Type}.
Notation V := (J -> R).
Variable p : nat.
Variables M H : R.
Hypothesis HM : 0 <= M.
Hypothesis HH : 0 <= H.
Hypothesis Hp : (1 <= p)%nat.

(** A smooth problem with a solution. *)
Record prob := mkProb {
  pT : R -> Prop;
  pG : V -> V;
  pD : V -> list V -> V;
  py : R -> V;
  pconv : forall s u c, pT s -> pT u -> 0 <= c <= 1 -> pT (s + c * (u - s));
  ptay : taylor p M (fun v => exists t, pT t /\ v = py t) pG pD;
  psol : forall t j, pT t -> derivable_pt_lim (fun s => py s j) t (pG (py t) j)
}.
Record inst := mkInst { ip : prob; it : R; ih : R; i1 : pT ip it; i2 : pT ip (it + ih); i3 : Rabs ih <= H }.

Definition G (q : inst) (w : V) : V := pG (ip q) (fun i => py (ip q) (it q) i + w i).
Definition D (q : inst) : list V -> V := pD (ip q) (py (ip q) (it q)).

Lemma base q : exists t, pT (ip q) t /\ py (ip q) (it q) = py (ip q) t.
Proof. exists (it q). split; [apply i1|reflexivity]. Qed.
Lemma Dlin : forall q l l' a b u v j, D q (l ++ (fun i => a * u i + b * v i) :: l') j = a * D q (l ++ u :: l') j + b * D q (l ++ v :: l') j.
Proof. intros q. intros. exact (ty_lin _ _ _ _ _ (ptay (ip q)) _ l l' a b u v j (base q)). Qed.
Lemma Dbnd : forall q l rs j, (length l < p)%nat -> Forall2 bnd rs l -> Rabs (D q l j) <= M * fold_right Rmult 1 rs.
Proof. intros q l rs j. exact (ty_bnd _ _ _ _ _ (ptay (ip q)) _ l rs j (base q)). Qed.
Lemma Drem : forall q w r m j, (1 <= m <= p)%nat -> bnd r w ->
  Rabs (G q w j - sumn m (fun k => D q (repeat w k) j / INR (fact k))) <= M * r ^ m.
Proof. intros q w r m j. exact (ty_rem _ _ _ _ _ (ptay (ip q)) _ w r m j (base q)). Qed.

Lemma speed P t j : pT P t -> Rabs (pG P (py P t) j) <= M.
Proof.
  intro Ht. assert (B : exists t', pT P t' /\ py P t = py P t') by (exists t; split; [exact Ht|reflexivity]).
  pose proof (ty_rem _ _ _ _ _ (ptay P) _ (fun _ => 0) 0 1%nat j B ltac:(lia) ltac:(intro i; rewrite Rabs_R0; lra)) as R1.
  pose proof (ty_bnd _ _ _ _ _ (ptay P) _ [] [] j B ltac:(cbn; lia) ltac:(constructor)) as R2.
  cbn [fold_right] in R2. cbv beta in R1. replace (fun i => py P t i + 0) with (py P t) in R1 by (extensionality i; ring).
  unfold sumn in R1. cbn in R1. rewrite Rmult_0_l, Rmult_0_r in R1.
  set (g := pG P (py P t) j) in *. set (d := pD P (py P t) [] j) in *.
  assert (Z : g - d = 0).
  { destruct (Req_dec (g - d) 0) as [Z|Z]; [exact Z|]. exfalso. apply Rabs_pos_lt in Z.
    replace (g - (d / 1 + 0)) with (g - d) in R1 by field. lra. }
  replace g with d by lra. lra.
Qed.

Notation wgt := (fun t => / IZR (gamma t)).
Theorem exact_series : forall n, (n <= p)%nat ->
  big ih (S n) (fun q j => (py (ip q) (it q + ih q) j - py (ip q) (it q) j) - series ih D n wgt q j).
Proof.
  induction n as [|n IH]; intro Lp.
  - exists M. split; [exact HM|]. intros q j. destruct q as [P t s Ht Hts Hs]. cbn [ip it ih].
    unfold series, lsum. cbn [trees map rsum fold_right]. rewrite Rminus_0_r.
    pose proof (power_bound (fun u => py P u j - py P t j) (fun u => pG P (py P u) j) t s M 0 HM ltac:(cbv beta; ring)) as B. cbv beta in B.
    assert (T2 : forall q, 0 <= q <= 1 -> pT P (t + q * s)).
    { intros q Hq. replace (t + q * s) with (t + q * ((t + s) - t)) by ring. now apply pconv. }
    eapply Rle_trans; [apply B|].
    + intros q Hq. replace (pG P (py P (t + q * s)) j) with (pG P (py P (t + q * s)) j - 0) by ring.
      apply derivable_pt_lim_minus; [apply psol; now apply T2|apply derivable_pt_lim_const].
    + intros q Hq. cbn [pow]. rewrite Rmult_1_r. apply speed. now apply T2.
    + right. cbn. field.
  - specialize (IH ltac:(lia)).
    apply (compose ih H i3 HH p M HM G D Dlin Dbnd Drem n wgt (fun q j => py (ip q) (it q + ih q) j - py (ip q) (it q) j) Lp) in IH.
    destruct IH as (C & PC & B). exists (C / INR (S (S n))).
    assert (Pn : 0 < INR (S (S n))) by (apply lt_0_INR; lia).
    split; [apply Rmult_le_pos; [exact PC|left; now apply Rinv_0_lt_compat]|].
    intros q j. destruct q as [P t s Ht Hts Hs]. cbn [ip it ih].
    set (el := fun tr => elemD (pD P (py P t)) tr j).
    set (g := fun u => (py P u j - py P t j) - lsum (trees (S n)) (fun tr => (u - t) ^ tsize tr * (beta tr * wgt tr) * el tr)).
    set (g' := fun u => pG P (py P u) j - lsum (trees (S n)) (fun tr => (u - t) ^ pred (tsize tr) * (beta tr * over wgt tr) * el tr)).
    assert (T2 : forall q, 0 <= q <= 1 -> pT P (t + q * s)).
    { intros q Hq. replace (t + q * s) with (t + q * ((t + s) - t)) by ring. now apply pconv. }
    assert (E : series ih D (S n) wgt (mkInst P t s Ht Hts Hs) j = lsum (trees (S n)) (fun tr => (t + s - t) ^ tsize tr * (beta tr * wgt tr) * el tr)).
    { unfold series. cbn [ih]. replace (t + s - t) with s by ring. reflexivity. }
    rewrite E. change (Rabs (g (t + s)) <= C / INR (S (S n)) * Rabs s ^ S (S n)).
    eapply Rle_trans; [apply (power_bound g g' t s C (S n) PC)|].
    + unfold g. rewrite (lsum_ext _ _ (fun _ => 0 * 0)).
      * rewrite lsum_scale. ring.
      * intros [cs] _. rewrite tsize_node. cbn [pow]. ring.
    + intros q Hq. unfold g, g'. apply derivable_pt_lim_minus.
      * replace (pG P (py P (t + q * s)) j) with (pG P (py P (t + q * s)) j - 0) by ring.
        apply derivable_pt_lim_minus; [apply psol; now apply T2|apply derivable_pt_lim_const].
      * apply (deriv_lsum (trees (S n)) (fun tr u => (u - t) ^ tsize tr * (beta tr * wgt tr) * el tr)). intros tr _.
        rewrite <- gamma_over.
        replace ((t + q * s - t) ^ pred (tsize tr) * (beta tr * (INR (tsize tr) * / IZR (gamma tr))) * el tr)
          with ((beta tr * / IZR (gamma tr) * el tr) * ((INR (tsize tr) * (t + q * s - t) ^ pred (tsize tr)) * (1 - 0))) by ring.
        apply derivable_pt_lim_ext with (fun u => (beta tr * / IZR (gamma tr) * el tr) * (u - t) ^ tsize tr); [intro; ring|].
        apply (derivable_pt_lim_scal (fun u => (u - t) ^ tsize tr)).
        apply (derivable_pt_lim_comp (fun u => u - t) (fun v => v ^ tsize tr)).
        -- apply derivable_pt_lim_minus; [apply derivable_pt_lim_id|apply derivable_pt_lim_const].
        -- apply derivable_pt_lim_pow.
    + intros q Hq.
      assert (Hqs : Rabs (q * s) <= H).
      { rewrite Rabs_mult, (Rabs_pos_eq q) by lra. pose proof (Rabs_pos s). nra. }
      specialize (B (mkInst P t (q * s) Ht (T2 q Hq) Hqs) j). cbn [ih it ip] in B. unfold g'. 
      replace (t + q * s - t) with (q * s) by ring.
      unfold G, slope in B. cbn [ih it ip] in B.
      replace (fun i => py P t i + (py P (t + q * s) i - py P t i)) with (py P (t + q * s)) in B by (extensionality i; ring).
      exact B.
    + right. field. lra.
Qed.
End Sol.

(** ** The method. *)
Section Num.
Variable eps : R.
Notation NN := (RNum eps).
Variable tb : tableau NN.
Variable tq : tableau (QNum 0).
Variable p : nat.
Hypothesis Htw : twin eps tb tq.
Hypothesis Hwf : wf_tableau tb.
Notation rows := ([] :: tab_a tq : list (list Q)).
Variable bq : list Q.
Hypothesis Hord : has_order rows bq (tab_c tq) p.
Hypothesis Hp : (1 <= p)%nat.
Notation ss := (length rows).
Definition aa (i m : nat) : R := nth m (map Q2R (nth i rows [])) 0.
Definition bb (m : nat) : R := nth m (map Q2R bq) 0.

Lemma nth_row i : (i < ss)%nat -> nth_error rows i = Some (nth i rows []) /\ length (nth i rows []) = i.
Proof.
  intro Hi. assert (E : nth_error rows i = Some (nth i rows [])) by (apply nth_error_nth'; exact Hi).
  split; [exact E|]. exact (row_len eps tb tq Htw Hwf i _ E).
Qed.

Lemma ph_phi : forall n t, (tsize t <= n)%nat -> forall i, (i < ss)%nat -> ph aa t i = Q2R (nth i (phi rows t) 0%Q).
Proof.
  induction n as [|n IH]; intros [cs] L i Hi; rewrite tsize_node in L; [lia|].
  destruct (nth_row i Hi) as [E El]. cbn [ph phi].
  erewrite (nth_error_nth (map _ rows)) by (apply map_nth_error; exact E).
  assert (L2 : forall c, In c cs -> (tsize c <= n)%nat) by (intros c Hc; pose proof (tsum_child cs c Hc); lia).
  clear L. induction cs as [|c cs IHc]; [symmetry; apply Q2R_1'|].
  change (sumn i (fun m => aa i m * ph aa c m) * fold_right (fun c0 z => sumn i (fun m => aa i m * ph aa c0 m) * z) 1 cs
    = Q2R (qdot (nth i rows []) (phi rows c) * fold_right (fun c0 q => (qdot (nth i rows []) (phi rows c0) * q)%Q) 1%Q cs)).
  rewrite Q2R_mult, IHc by (intros d Hd; apply L2; now right). f_equal.
  rewrite qdot_sumn by (rewrite (phi_length tq); lia). rewrite El. apply sumn_ext. intros m Hm.
  unfold aa at 1. f_equal. apply IH; [apply L2; now left|lia].
Qed.

Lemma b_len : length bq = ss.
Proof. destruct Hord as (_ & E & _). symmetry. exact E. Qed.
Lemma b_weights t : (tsize t <= p)%nat -> sumn ss (fun m => bb m * ph aa t m) = / IZR (gamma t).
Proof.
  intro L. destruct Hord as (Hoc & _). specialize (Hoc t L). unfold order_condition in Hoc. apply Qeq_eqR in Hoc.
  rewrite Q2R_inv_Z in Hoc by exact (gamma_pos _ t (le_n _)). rewrite <- Hoc.
  rewrite qdot_sumn by (rewrite (phi_length tq), b_len; lia). rewrite b_len. apply sumn_ext. intros m Hm.
  unfold bb. f_equal. exact (ph_phi (tsize t) t (le_n _) m Hm).
Qed.

(** c_i = sum_m a_im. *)
Lemma fold_sum (row : list Q) : Q2R (fold_right Qplus 0%Q row) = sumn (length row) (fun m => nth m (map Q2R row) 0).
Proof.
  induction row as [|x row IH]; [apply Q2R_0'|]. cbn [fold_right length map]. rewrite Q2R_plus, IH, sumn_shift. reflexivity.
Qed.
Lemma c_sum i (c : R) : nth_error (tab_c tb) i = Some c -> (i < ss)%nat /\ sumn i (fun m => aa i m * 1) = c.
Proof.
  intro E. destruct Htw as (_ & _ & Hc & _). destruct Hord as (_ & _ & Lc & F).
  rewrite Hc in E. destruct (nth_error (tab_c tq) i) as [ci|] eqn:Ei.
  2:{ apply nth_error_None in Ei. assert (Z : nth_error (map Q2R (tab_c tq)) i = None) by (apply nth_error_None; now rewrite map_length).
      change (@nth_error R (map Q2R (tab_c tq)) i = Some c) in E. rewrite Z in E. discriminate. }
  pose proof (map_nth_error Q2R i _ Ei) as Z. change (@nth_error R (map Q2R (tab_c tq)) i = Some c) in E.
  change (@nth_error R (map Q2R (tab_c tq)) i = Some (Q2R ci)) in Z. rewrite Z in E. injection E as <-.
  assert (Hi : (i < ss)%nat).
  { eapply Nat.lt_le_trans; [apply nth_error_Some; intro Z2; rewrite Z2 in Ei; discriminate|]. apply Nat.eq_le_incl. symmetry. exact Lc. }
  split; [exact Hi|]. destruct (nth_row i Hi) as [Er El].
  assert (Q1 : (fold_right Qplus 0 (nth i rows []) == ci)%Q).
  { clear - F Er Ei. revert Er Ei. generalize (nth i rows []) as row. revert i. induction F as [|r c0 rs cs F0 F IH]; intros [|i] row Er Ei; cbn [nth_error] in *; try discriminate.
    - injection Er as <-. injection Ei as <-. exact F0.
    - exact (IH i row Er Ei). }
  apply Qeq_eqR in Q1. rewrite <- Q1, fold_sum, El. apply sumn_ext. intros m _. unfold aa. ring.
Qed.

Context {I : Type}.
Variables M H : R.
Hypothesis HM : 0 <= M.
Hypothesis HH : 0 <= H.

Record ninst := mkN {
  nq : @inst (option I) p M H;
  nf : (I -> R) -> R -> (I -> R);
  ny : R -> I -> R;
  nG : pG _ _ (ip _ _ _ nq) = autonomous nf;
  nY : py _ _ (ip _ _ _ nq) = (fun t => point (ny t) t);
  nks : list (I -> R);
  nst : rk_stages_R eps tb nf (ny (it _ _ _ nq)) (it _ _ _ nq) (ih _ _ _ nq) nks
}.
Notation hh := (fun q => ih _ _ _ (nq q)).
Definition kk (m : nat) (q : ninst) : option I -> R :=
  fun j => match j with None => 1 | Some i => nth m (nks q) (fun _ => 0) i end.

Lemma ks_len q : length (nks q) = ss.
Proof. destruct (nst q) as [L _ _]. rewrite L. destruct Htw as [Ha _]. rewrite Ha, map_length. reflexivity. Qed.

Lemma stage_eq : forall i q j, (i < ss)%nat ->
  kk i q j = G p M H (nq q) (fun j' => hh q * sumn i (fun m => aa i m * kk m q j')) j.
Proof.
  intros i q j Hi. unfold G. rewrite nG, nY. destruct j as [j|]; [|reflexivity]. cbn [autonomous point].
  pose proof (ks_len q) as Lk. destruct (nst q) as [L Z HS]. unfold kk at 1.
  set (t := it p M H (nq q)) in *. set (h := ih p M H (nq q)) in *.
  assert (E : nth_error (nks q) i = Some (nf q (fun i0 => ny q t i0 + h * sumn i (fun m => aa i m * kk m q (Some i0))) (t + h * sumn i (fun m => aa i m * kk m q None)))).
  { destruct i as [|s].
    - rewrite Z. f_equal. replace (t + h * sumn 0 (fun m => aa 0 m * kk m q None)) with t by (unfold sumn; cbn; ring).
      f_equal. extensionality i0. unfold sumn. cbn. ring.
    - destruct (nth_error (tab_a tb) s) as [row|] eqn:Er.
      2:{ apply nth_error_None in Er. exfalso. rewrite L in Lk. cbn [length] in *. apply (Nat.lt_irrefl (S s)). eapply Nat.lt_le_trans; [exact Hi|]. rewrite <- Lk. apply le_n_S. exact Er. }
      destruct (nth_error (tab_c tb) (S s)) as [c|] eqn:Ec.
      2:{ apply nth_error_None in Ec. destruct Hwf as [Wc _ _]. lia. }
      rewrite (HS s row c Er Ec). f_equal.
      destruct (c_sum (S s) c Ec) as [_ Ec2].
      assert (Hrow : row = map Q2R (nth (S s) rows []) /\ length row = S s).
      { destruct Htw as [Ha _]. destruct Hwf as [_ _ Wr]. split; [|exact (Wr s row Er)].
        apply (nth_error_nth _ _ []) in Er. rewrite <- Er, Ha. cbn [nth].
        exact (map_nth (map Q2R) (tab_a tq) [] s). }
      destruct Hrow as [Hrow Hlen]. change (@eq (list R) row (map Q2R (nth (S s) rows []))) in Hrow.
      change (length (A := R) row = S s) in Hlen.
      replace (t + h * sumn (S s) (fun m => aa (S s) m * kk m q None)) with (t + c * h).
      2:{ unfold kk. rewrite Ec2. ring. }
      f_equal. extensionality i0. f_equal. f_equal.
      assert (Hf : length (firstn (S s) (nks q)) = S s) by (rewrite firstn_length; lia).
      etransitivity; [apply (wsum_sumn I row (firstn (S s) (nks q)) (fun _ => 0)); etransitivity; [exact Hlen|symmetry; exact Hf]|].
      transitivity (sumn (S s) (fun l => nth l row 0 * nth l (firstn (S s) (nks q)) (fun _ => 0) i0)); [f_equal; exact Hlen|].
      apply sumn_ext. intros m Hm. unfold aa, kk. rewrite Hrow. f_equal.
      pose proof (firstn_skipn (S s) (nks q)) as Fs. 
      transitivity (nth m (firstn (S s) (nks q) ++ skipn (S s) (nks q)) (fun _ => 0) i0); [|now rewrite Fs].
      rewrite app_nth1 by lia. reflexivity. }
  rewrite (nth_error_nth _ _ _ E). reflexivity.
Qed.

Theorem numerical_series : big hh (S p) (fun q j => hh q * sumn ss (fun m => bb m * kk m q j)
  - series hh (fun q => D p M H (nq q)) p (fun t => / IZR (gamma t)) q j).
Proof.
  pose proof (weigh hh H (fun q => i3 _ _ _ (nq q)) HH p M HM (fun q => G p M H (nq q)) (fun q => D p M H (nq q))
    (fun q => Dlin p M H (nq q)) (fun q => Dbnd p M H (nq q)) (fun q => Drem p M H (nq q)) ss aa kk Hp stage_eq p (le_n _) ss bb (le_n _)) as B.
  eapply big_ext; [|exact B]. intros q j. cbv beta. f_equal. unfold series. apply lsum_ext. intros t Ht. f_equal. f_equal. f_equal.
  apply b_weights. now apply in_trees.
Qed.

Theorem butcher : exists E, 0 <= E /\ forall (f : (I -> R) -> R -> (I -> R)) y DD (T : R -> Prop),
  (forall s u c, T s -> T u -> 0 <= c <= 1 -> T (s + c * (u - s))) ->
  taylor p M (fun v => exists t, T t /\ v = point (y t) t) (autonomous f) DD -> solution T f y ->
  forall t h ks, T t -> T (t + h) -> Rabs h <= H -> rk_stages_R eps tb f (y t) t h ks ->
  forall i, Rabs (y t i + h * wsum (map Q2R bq) ks i - y (t + h) i) <= E * Rabs h ^ S p.
Proof.
  destruct numerical_series as (C1 & P1 & B1).
  destruct (exact_series (J := option I) p M H HM HH Hp p (le_n _)) as (C2 & P2 & B2).
  exists (C1 + C2). split; [lra|]. intros f y DD T Tc Tay Sol t h ks Ht Hth Hh Hst i.
  assert (PS : forall t j, T t -> derivable_pt_lim (fun s => point (y s) s j) t (autonomous f (point (y t) t) j)).
  { intros u [j|] Hu; [exact (Sol u j Hu)|exact (derivable_pt_lim_id u)]. }
  set (P := mkProb p M T (autonomous f) DD (fun t => point (y t) t) Tc Tay PS).
  set (q := mkInst p M H P t h Ht Hth Hh).
  set (nn := mkN q f y eq_refl eq_refl ks Hst). specialize (B1 nn (Some i)). specialize (B2 q (Some i)).
  set (Z := series (ih p M H) (D p M H) p (fun t0 => / IZR (gamma t0)) q (Some i)) in *.
  assert (E1 : wsum (map Q2R bq) ks i = sumn ss (fun m => bb m * kk m nn (Some i))).
  { rewrite (wsum_sumn I (map Q2R bq) ks (fun _ => 0)).
    - rewrite map_length, b_len. reflexivity.
    - rewrite map_length, b_len. symmetry. exact (ks_len nn). }
  assert (B1' : Rabs (h * wsum (map Q2R bq) ks i - Z) <= C1 * Rabs h ^ S p) by (rewrite E1; exact B1).
  assert (B2' : Rabs (y (t + h) i - y t i - Z) <= C2 * Rabs h ^ S p) by exact B2.
  replace (y t i + h * wsum (map Q2R bq) ks i - y (t + h) i)
    with ((h * wsum (map Q2R bq) ks i - Z) + - (y (t + h) i - y t i - Z)) by ring.
  eapply Rle_trans; [apply Rabs_triang|]. rewrite Rabs_Ropp. lra.
Qed.

(** Interpolants: weights that depend on theta. *)
Variable wd : R -> nat -> R.
Variable BW : R.
Hypothesis Hwb : forall th m, 0 <= th <= 1 -> (m < ss)%nat -> Rabs (wd th m) <= BW.
Hypothesis Hwo : forall th t, 0 <= th <= 1 -> (tsize t <= p)%nat ->
  sumn ss (fun m => wd th m * Q2R (nth m (phi rows t) 0%Q)) = th ^ tsize t / IZR (gamma t).

Record dinst := mkD { dn : ninst; dth : R; dth1 : 0 <= dth <= 1 }.

Theorem dense_series : big (fun q => hh (dn q)) (S p) (fun q j => hh (dn q) * sumn ss (fun m => wd (dth q) m * kk m (dn q) j)
  - lsum (trees p) (fun t => hh (dn q) ^ tsize t * (beta t * (dth q ^ tsize t / IZR (gamma t))) * elem (fun q => D p M H (nq (dn q))) q t j)).
Proof.
  assert (Ep : exists p', S p' = p) by (exists (pred p); lia). destruct Ep as [p' Ep].
  pose proof (weigh_var (fun q => hh (dn q)) H (fun q => i3 _ _ _ (nq (dn q))) HH p M HM (fun q => G p M H (nq (dn q))) (fun q => D p M H (nq (dn q)))
    (fun q => Dlin p M H (nq (dn q))) (fun q => Dbnd p M H (nq (dn q))) (fun q => Drem p M H (nq (dn q))) ss aa (fun m q => kk m (dn q)) Hp
    (fun i q j => stage_eq i (dn q) j) p' ltac:(lia) ss (fun q m => wd (dth q) m) BW (le_n _) (fun q m Hm => Hwb (dth q) m (dth1 q) Hm)) as B.
  rewrite Ep in B. eapply big_ext; [|exact B]. intros q j. cbv beta. f_equal. apply lsum_ext. intros t Ht. f_equal. f_equal. f_equal.
  rewrite <- (Hwo (dth q) t (dth1 q) (in_trees p t Ht)). apply sumn_ext. intros m Hm. f_equal. exact (ph_phi (tsize t) t (le_n _) m Hm).
Qed.

Theorem butcher_dense : exists E, 0 <= E /\ forall (f : (I -> R) -> R -> (I -> R)) y DD (T : R -> Prop),
  (forall s u c, T s -> T u -> 0 <= c <= 1 -> T (s + c * (u - s))) ->
  taylor p M (fun v => exists t, T t /\ v = point (y t) t) (autonomous f) DD -> solution T f y ->
  forall t h ks, T t -> T (t + h) -> Rabs h <= H -> rk_stages_R eps tb f (y t) t h ks ->
  forall th i, 0 <= th <= 1 -> Rabs (y t i + h * sumn ss (fun m => wd th m * nth m ks (fun _ => 0) i) - y (t + th * h) i) <= E * Rabs h ^ S p.
Proof.
  destruct dense_series as (C1 & P1 & B1).
  destruct (exact_series (J := option I) p M H HM HH Hp p (le_n _)) as (C2 & P2 & B2).
  exists (C1 + C2). split; [lra|]. intros f y DD T Tc Tay Sol t h ks Ht Hth Hh Hst th i Hi.
  assert (PS : forall t j, T t -> derivable_pt_lim (fun s => point (y s) s j) t (autonomous f (point (y t) t) j)).
  { intros u [j|] Hu; [exact (Sol u j Hu)|exact (derivable_pt_lim_id u)]. }
  set (P := mkProb p M T (autonomous f) DD (fun t => point (y t) t) Tc Tay PS).
  set (q := mkInst p M H P t h Ht Hth Hh).
  assert (Ht2 : T (t + th * h)) by (replace (t + th * h) with (t + th * ((t + h) - t)) by ring; now apply Tc).
  assert (Hh2 : Rabs (th * h) <= Rabs h) by (rewrite Rabs_mult, (Rabs_pos_eq th) by lra; pose proof (Rabs_pos h); nra).
  set (q2 := mkInst p M H P t (th * h) Ht Ht2 (Rle_trans _ _ _ Hh2 Hh)).
  set (nn := mkN q f y eq_refl eq_refl ks Hst). specialize (B1 (mkD nn th Hi) (Some i)). specialize (B2 q2 (Some i)).
  set (Z := series (ih p M H) (D p M H) p (fun t0 => / IZR (gamma t0)) q2 (Some i)) in *.
  assert (B1' : Rabs (h * sumn ss (fun m => wd th m * nth m ks (fun _ => 0) i) - Z) <= C1 * Rabs h ^ S p).
  { refine (eq_ind _ (fun z => Rabs (h * sumn ss (fun m => wd th m * nth m ks (fun _ => 0) i) - z) <= C1 * Rabs h ^ S p) B1 Z _).
    unfold Z, series. apply lsum_ext. intros tr _.
    transitivity (h ^ tsize tr * (beta tr * (th ^ tsize tr / IZR (gamma tr))) * elem (D p M H) q2 tr (Some i)); [reflexivity|].
    change (ih p M H q2) with (th * h). rewrite Rpow_mult_distr. unfold Rdiv. ring. }
  assert (B2' : Rabs (y (t + th * h) i - y t i - Z) <= C2 * Rabs h ^ S p).
  { eapply Rle_trans; [exact B2|]. apply Rmult_le_compat_l; [exact P2|]. apply pow_incr. split; [apply Rabs_pos|exact Hh2]. }
  replace (y t i + h * sumn ss (fun m => wd th m * nth m ks (fun _ => 0) i) - y (t + th * h) i)
    with ((h * sumn ss (fun m => wd th m * nth m ks (fun _ => 0) i) - Z) + - (y (t + th * h) i - y t i - Z)) by ring.
  eapply Rle_trans; [apply Rabs_triang|]. rewrite Rabs_Ropp. lra.
Qed.
End Num.

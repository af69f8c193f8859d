(** Symplecticity, reversibility, invariants and order of the symplectic steppers over the reals. *)
From Coq Require Import ZArith List Bool Reals Lra Lia FunctionalExtensionality.
From Verif Require Import M_Num M_RK M_Symp S_RK S_Symp P_Symp.
Import ListNotations.
Local Open Scope R_scope.

Section Real.
Context {I : Type}.
Notation vecR := (I -> R).

(** ** Drifts and kicks *)
Inductive sop := Dr (a : R) | Kk (b : R).
Definition apply (f g : vecR -> vecR) (h : R) (z : vecR * vecR) (o : sop) : vecR * vecR :=
  match o with
  | Dr a => (fun i => 1 * fst z i + a * h * f (snd z) i, snd z)
  | Kk b => (fst z, fun i => 1 * snd z i + b * h * g (fst z) i)
  end.
Definition applies f g h (ops : list sop) z := fold_left (apply f g h) ops z.
Definition flat (abs : list (R * R)) : list sop := flat_map (fun ab => [Dr (fst ab); Kk (snd ab)]) abs.

Lemma shears_R : forall (eps : R) (f g : vecR -> vecR) (h : R) (abs : list (R * R)) (z : vecR * vecR),
  shears (N := RNum eps) f g h abs z = applies f g h (flat abs) z.
Proof.
  intros eps f g h. induction abs as [|[a b] r IH]; intros [q p]; [reflexivity|].
  cbn [flat flat_map app fst snd]. unfold applies. cbn [fold_left].
  change (shears (N := RNum eps) f g h r (shear (N := RNum eps) f g h (q, p) (a, b))
          = applies f g h (flat r) (apply f g h (apply f g h (q, p) (Dr a)) (Kk b))).
  rewrite IH. reflexivity.
Qed.

(** ** Symplecticity *)
Lemma dot_lin_r : forall idx (u v w : vecR) c, dot idx u (fun i => 1 * v i + c * w i) = dot idx u v + c * dot idx u w.
Proof.
  unfold dot. induction idx as [|i r IH]; intros u v w c; cbn; [lra|]. rewrite IH. lra.
Qed.
Lemma dot_lin_l : forall idx (u v w : vecR) c, dot idx (fun i => 1 * v i + c * w i) u = dot idx v u + c * dot idx w u.
Proof.
  unfold dot. induction idx as [|i r IH]; intros u v w c; cbn; [lra|]. rewrite IH. lra.
Qed.

Lemma lin_deriv : forall (u v : R -> R) s a b c,
  derivable_pt_lim u s a -> derivable_pt_lim v s b -> derivable_pt_lim (fun r => 1 * u r + c * v r) s (1 * a + c * b).
Proof.
  intros u v s a b c Hu Hv.
  exact (derivable_pt_lim_plus _ _ s _ _ (derivable_pt_lim_scal u 1 s a Hu) (derivable_pt_lim_scal v c s b Hv)).
Qed.

Lemma symplectic_op : forall idx f g A B h o, tangent f A -> tangent g B -> symmetric idx A -> symmetric idx B ->
  symplectic idx (fun z => apply f g h z o).
Proof.
  intros idx f g A B h [a|b] Hf Hg SA SB.
  - exists (fun z u => (fun i => 1 * fst u i + a * h * A (snd z) (snd u) i, snd u)). split.
    + intros cq cp s u Hq Hp. cbn [apply fst snd]. split; [|exact Hp].
      intros i. exact (lin_deriv _ _ s _ _ (a * h) (Hq i) (Hf cp s (snd u) Hp i)).
    + intros z u v. unfold omega. cbn [fst snd]. rewrite dot_lin_l, dot_lin_r, SA. lra.
  - exists (fun z u => (fst u, fun i => 1 * snd u i + b * h * B (fst z) (fst u) i)). split.
    + intros cq cp s u Hq Hp. cbn [apply fst snd]. split; [exact Hq|].
      intros i. exact (lin_deriv _ _ s _ _ (b * h) (Hp i) (Hg cq s (fst u) Hq i)).
    + intros z u v. unfold omega. cbn [fst snd]. rewrite dot_lin_l, dot_lin_r, SB. lra.
Qed.

Lemma symplectic_id : forall idx, symplectic (I := I) idx (fun z => z).
Proof. intros idx. exists (fun z u => u). split; [intros cq cp s u Hq Hp; now split|reflexivity]. Qed.

Lemma symplectic_comp : forall idx (F G : vecR * vecR -> vecR * vecR),
  symplectic idx F -> symplectic idx G -> symplectic idx (fun z => F (G z)).
Proof.
  intros idx F G (TF & HF & OF) (TG & HG & OG). exists (fun z u => TF (G z) (TG z u)). split.
  - intros cq cp s u Hq Hp. destruct (HG cq cp s u Hq Hp) as [G1 G2].
    destruct (HF _ _ s (TG (cq s, cp s) u) G1 G2) as [F1 F2].
    cbv beta in F1, F2. rewrite <- surjective_pairing in F1, F2.
    replace (fun r => fst (F (G (cq r, cp r)))) with (fun r => fst (F (fst (G (cq r, cp r)), snd (G (cq r, cp r)))))
      by (apply functional_extensionality; intros r; now rewrite <- surjective_pairing).
    replace (fun r => snd (F (G (cq r, cp r)))) with (fun r => snd (F (fst (G (cq r, cp r)), snd (G (cq r, cp r)))))
      by (apply functional_extensionality; intros r; now rewrite <- surjective_pairing).
    now split.
  - intros z u v. now rewrite OF, OG.
Qed.

Lemma symplectic_ops : forall idx f g A B h ops, tangent f A -> tangent g B -> symmetric idx A -> symmetric idx B ->
  symplectic idx (applies f g h ops).
Proof.
  intros idx f g A B h ops Hf Hg SA SB. unfold applies.
  rewrite <- (rev_involutive ops). induction (rev ops) as [|o r IH]; [exact (symplectic_id idx)|].
  cbn [rev].
  replace (fun z => fold_left (apply f g h) (rev r ++ [o]) z)
    with (fun z => apply f g h (fold_left (apply f g h) (rev r) z) o)
    by (apply functional_extensionality; intros z; now rewrite fold_left_app).
  exact (symplectic_comp idx (fun z => apply f g h z o) _ (symplectic_op idx f g A B h o Hf Hg SA SB) IH).
Qed.

Lemma tangent_id : tangent (I := I) (fun p => p) (fun _ u => u).
Proof. intros c s v H. exact H. Qed.

(** ** Reversibility *)
Lemma apply_inv : forall f g h o z, apply f g (- h) (apply f g h z o) o = z.
Proof.
  intros f g h [a|b] [q p]; cbn [apply fst snd]; f_equal; apply functional_extensionality; intros i; ring.
Qed.
Lemma applies_inv : forall f g h ops z, applies f g (- h) (rev ops) (applies f g h ops z) = z.
Proof.
  intros f g h. unfold applies. induction ops as [|o r IH]; intros z; [reflexivity|].
  cbn [rev fold_left]. rewrite fold_left_app, IH. cbn [fold_left]. apply apply_inv.
Qed.
Lemma kick0 : forall f g h z, apply f g h z (Kk 0) = z.
Proof.
  intros f g h [q p]. cbn [apply fst snd]. f_equal. apply functional_extensionality. intros i. ring.
Qed.
Lemma applies_last0 : forall f g h ops z, applies f g h (ops ++ [Kk 0]) z = applies f g h ops z.
Proof. intros f g h ops z. unfold applies. rewrite fold_left_app. apply kick0. Qed.

Lemma palindrome_reversible : forall f g h abs ops, flat abs = ops ++ [Kk 0] -> rev ops = ops -> forall z,
  applies f g (- h) (flat abs) (applies f g h (flat abs) z) = z.
Proof.
  intros f g h abs ops E P z. rewrite E, !applies_last0. rewrite <- P at 1. apply applies_inv.
Qed.

(** ** Linear invariants of the momenta *)
Lemma applies_momentum : forall (l : vecR -> R) f g h ops z,
  (forall u v c, l (fun i => 1 * u i + c * v i) = l u + c * l v) -> (forall q, l (g q) = 0) ->
  l (snd (applies f g h ops z)) = l (snd z).
Proof.
  intros l f g h ops z Hl Hg. unfold applies. revert z. induction ops as [|o r IH]; intros z; [reflexivity|].
  cbn [fold_left]. rewrite IH. destruct o as [a|b]; cbn [apply snd]; [reflexivity|]. rewrite Hl, Hg. lra.
Qed.

(** ** Order for linear forces.
    q = sum al_k h^2k L^k q0 + sum be_k h^(2k+1) L^k p0,
    p = sum ga_k h^(2k+1) L^(k+1) q0 + sum de_k h^2k L^k p0. *)
Section Linear.
Variable L : vecR -> vecR.
Hypothesis HL : linear_map L.
Fixpoint lpow (k : nat) (u : vecR) : vecR := match k with O => u | S k' => L (lpow k' u) end.
(** sum_k c_k h^(2k) L^k u *)
Fixpoint ev (c : list R) (h : R) (u : vecR) : vecR :=
  match c with [] => fun _ => 0 | a :: r => fun i => a * u i + h * h * L (ev r h u) i end.
Fixpoint ladd (c d : list R) (x : R) : list R :=
  match c, d with
  | [], _ => map (Rmult x) d
  | _, [] => c
  | a :: c', b :: d' => (a + x * b) :: ladd c' d' x
  end.
Lemma L0 : forall i, L (fun _ => 0) i = 0.
Proof.
  intros i. pose proof (HL 0 0 (fun _ => 0) (fun _ => 0) i) as H. cbv beta in H.
  replace (fun _ : I => 0 * 0 + 0 * 0) with (fun _ : I => 0) in H by (apply functional_extensionality; intros; ring). lra.
Qed.
Lemma L_lin : forall u v x i, L (fun j => u j + x * v j) i = L u i + x * L v i.
Proof.
  intros u v x i. pose proof (HL 1 x u v i) as H.
  replace (fun j => 1 * u j + x * v j) with (fun j => u j + x * v j) in H by (apply functional_extensionality; intros; ring). lra.
Qed.
Lemma L_scal : forall v x i, L (fun j => x * v j) i = x * L v i.
Proof.
  intros v x i. pose proof (HL x 0 v v i) as H.
  replace (fun j => x * v j + 0 * v j) with (fun j => x * v j) in H by (apply functional_extensionality; intros; ring). lra.
Qed.
Lemma ev_scal : forall d x h u i, ev (map (Rmult x) d) h u i = x * ev d h u i.
Proof.
  induction d as [|b d IH]; intros x h u i; cbn; [ring|].
  replace (ev (map (Rmult x) d) h u) with (fun j => x * ev d h u j) by (apply functional_extensionality; intros; symmetry; apply IH).
  rewrite L_scal. ring.
Qed.
Lemma ev_ladd : forall c d x h u i, ev (ladd c d x) h u i = ev c h u i + x * ev d h u i.
Proof.
  induction c as [|a c IH]; intros d x h u i; [cbn; rewrite ev_scal; ring|].
  destruct d as [|b d]; [cbn; ring|]. cbn [ladd ev].
  replace (ev (ladd c d x) h u) with (fun j => ev c h u j + x * ev d h u j) by (apply functional_extensionality; intros; symmetry; apply IH).
  rewrite L_lin. ring.
Qed.

(** The coefficient lists (al, be, ga, de). *)
Definition co := (list R * list R * list R * list R)%type.
Definition cstep (c : co) (o : sop) : co :=
  let '(al, be, ga, de) := c in
  match o with
  | Dr a => (ladd al (0 :: ga) a, ladd be de a, ga, de)
  | Kk b => (al, be, ladd ga al b, ladd de (0 :: be) b)
  end.
Definition csteps ops c := fold_left cstep ops c.
Definition cev (c : co) (h : R) (q p : vecR) : vecR * vecR :=
  let '(al, be, ga, de) := c in
  (fun i => ev al h q i + h * ev be h p i, fun i => h * L (ev ga h q) i + ev de h p i).

Lemma apply_lin : forall h o c q p, apply (fun p => p) L h (cev c h q p) o = cev (cstep c o) h q p.
Proof.
  intros h [a|b] [[[al be] ga] de] q p; cbn [apply cev cstep fst snd]; f_equal; apply functional_extensionality; intros i.
  - rewrite !ev_ladd. cbn [ev]. ring.
  - replace (ev (ladd ga al b) h q) with (fun j => ev ga h q j + b * ev al h q j)
      by (apply functional_extensionality; intros; symmetry; apply ev_ladd).
    rewrite ev_ladd. cbn [ev]. rewrite !L_lin. ring.
Qed.
Lemma applies_lin : forall h ops c q p, applies (fun p => p) L h ops (cev c h q p) = cev (csteps ops c) h q p.
Proof.
  unfold applies, csteps. intros h. induction ops as [|o r IH]; intros c q p; [reflexivity|].
  cbn [fold_left]. rewrite apply_lin. apply IH.
Qed.
Definition c0 : co := ([1], [], [], [1]).
Lemma cev_c0 : forall h q p, cev c0 h q p = (q, p).
Proof.
  intros h q p. unfold cev, c0. cbn [ev]. f_equal; apply functional_extensionality; intros i; rewrite !L0; ring.
Qed.

(** Bounds for the remainders. *)
Lemma ev_bound : forall c u i, exists K, forall h, Rabs h <= 1 -> Rabs (ev c h u i) <= K.
Proof.
  intros c u. assert (H : forall j c i, exists K, forall h, Rabs h <= 1 -> Rabs (lpow j (ev c h u) i) <= K).
  { intros j c'. revert j. induction c' as [|a r IH]; intros j i.
    - exists 0. intros h _. cbn [ev].
      assert (E : forall j i, lpow j (fun _ => 0) i = 0).
      { induction j0 as [|j0 IHj]; intros i0; [reflexivity|]. cbn.
        replace (lpow j0 (fun _ => 0)) with (fun _ : I => 0) by (apply functional_extensionality; intros; symmetry; apply IHj).
        apply L0. }
      rewrite E, Rabs_R0. lra.
    - destruct (IH (S j) i) as [K HK]. exists (Rabs (a * lpow j u i) + K). intros h Hh. cbn [ev].
      assert (E : lpow j (fun i => a * u i + h * h * L (ev r h u) i) i = a * lpow j u i + h * h * lpow (S j) (ev r h u) i).
      { clear - HL. revert i. induction j as [|j IHj]; intros i; [reflexivity|].
        cbn [lpow].
        replace (lpow j (fun i => a * u i + h * h * L (ev r h u) i)) with (fun i => a * lpow j u i + h * h * lpow (S j) (ev r h u) i)
          by (apply functional_extensionality; intros; symmetry; apply IHj).
        exact (HL a (h * h) _ _ i). }
      rewrite E. eapply Rle_trans; [apply Rabs_triang|]. apply Rplus_le_compat_l.
      rewrite Rabs_mult, Rabs_mult. specialize (HK h Hh).
      pose proof (Rabs_pos h) as P. pose proof (Rabs_pos (lpow (S j) (ev r h u) i)) as P2.
      assert (Rabs h * Rabs h <= 1) by nra. nra. }
  intros i. exact (H O c i).
Qed.
Lemma ev_L : forall c v h i, L (ev c h v) i = ev c h (L v) i.
Proof.
  induction c as [|a c IH]; intros v h i; cbn [ev]; [apply L0|].
  rewrite (HL a (h * h)). f_equal. f_equal.
  replace (ev c h (L v)) with (L (ev c h v)) by (apply functional_extensionality; intros; apply IH). reflexivity.
Qed.

Lemma ev_nth : forall c h u i, ev c h u i = nth 0 c 0 * u i + h * h * ev (tl c) h (L u) i.
Proof.
  intros [|a c] h u i; cbn [ev nth tl]; [ring|]. now rewrite ev_L.
Qed.

(** The coefficients up to h^4 are those of the exact solution except for the given four. *)
Lemma order4 : forall ops al be ga de, csteps ops c0 = (al, be, ga, de) ->
  nth 0 al 0 = 1 -> nth 1 al 0 = / 2 -> nth 0 be 0 = 1 -> nth 0 ga 0 = 1 -> nth 0 de 0 = 1 -> nth 1 de 0 = / 2 ->
  forall q p i, exists K, forall h, Rabs h <= 1 -> let z := applies (fun p => p) L h ops (q, p) in
  Rabs (fst z i - (q i + h * p i + h ^ 2 / 2 * L q i + h ^ 3 / 6 * L p i + h ^ 4 / 24 * L (L q) i))
    <= Rabs (nth 1 be 0 - / 6) * Rabs h ^ 3 * Rabs (L p i) + Rabs (nth 2 al 0 - / 24) * Rabs h ^ 4 * Rabs (L (L q) i) + K * Rabs h ^ 5
  /\ Rabs (snd z i - (p i + h * L q i + h ^ 2 / 2 * L p i + h ^ 3 / 6 * L (L q) i + h ^ 4 / 24 * L (L p) i))
    <= Rabs (nth 1 ga 0 - / 6) * Rabs h ^ 3 * Rabs (L (L q) i) + Rabs (nth 2 de 0 - / 24) * Rabs h ^ 4 * Rabs (L (L p) i) + K * Rabs h ^ 5.
Proof.
  intros ops al be ga de E A0 A1 B0 G0 D0 D1 q p i.
  destruct (ev_bound (tl (tl (tl al))) (L (L (L q))) i) as [K1 H1]. destruct (ev_bound (tl (tl be)) (L (L p)) i) as [K2 H2].
  destruct (ev_bound (tl (tl ga)) (L (L (L q))) i) as [K3 H3]. destruct (ev_bound (tl (tl (tl de))) (L (L (L p))) i) as [K4 H4].
  exists (Rmax (K1 + K2) (K3 + K4)). intros h Hh z.
  assert (Ez : z = cev (al, be, ga, de) h q p) by (unfold z; now rewrite <- (cev_c0 h q p), applies_lin, E).
  rewrite Ez. clear z Ez. unfold cev. cbn [fst snd]. specialize (H1 h Hh). specialize (H2 h Hh). specialize (H3 h Hh). specialize (H4 h Hh).
  rewrite (ev_nth al), (ev_nth (tl al)), (ev_nth (tl (tl al))), (ev_nth be), (ev_nth (tl be)), ev_L, (ev_nth ga), (ev_nth (tl ga)),
    (ev_nth de), (ev_nth (tl de)), (ev_nth (tl (tl de))).
  replace (nth 0 (tl al) 0) with (nth 1 al 0) by now destruct al.
  replace (nth 0 (tl (tl al)) 0) with (nth 2 al 0) by now destruct al as [|? [|? ?]].
  replace (nth 0 (tl be) 0) with (nth 1 be 0) by now destruct be.
  replace (nth 0 (tl ga) 0) with (nth 1 ga 0) by now destruct ga.
  replace (nth 0 (tl de) 0) with (nth 1 de 0) by now destruct de.
  replace (nth 0 (tl (tl de)) 0) with (nth 2 de 0) by now destruct de as [|? [|? ?]].
  rewrite A0, A1, B0, G0, D0, D1.
  set (x1 := ev (tl (tl (tl al))) h (L (L (L q))) i) in *. set (x2 := ev (tl (tl be)) h (L (L p)) i) in *.
  set (x3 := ev (tl (tl ga)) h (L (L (L q))) i) in *. set (x4 := ev (tl (tl (tl de))) h (L (L (L p))) i) in *.
  assert (P : 0 <= Rabs h ^ 5) by (apply pow_le, Rabs_pos).
  assert (P6 : Rabs h ^ 6 <= Rabs h ^ 5) by (rewrite <- tech_pow_Rmult; nra).
  assert (G : forall c3 c4 u3 u4 y1 y2 K K', Rabs y1 <= K -> Rabs y2 <= K' ->
    Rabs (c3 * h ^ 3 * u3 + c4 * h ^ 4 * u4 + h ^ 6 * y1 + h ^ 5 * y2) <= Rabs c3 * Rabs h ^ 3 * Rabs u3 + Rabs c4 * Rabs h ^ 4 * Rabs u4 + (K + K') * Rabs h ^ 5).
  { intros c3 c4 u3 u4 y1 y2 K K' Y1 Y2.
    eapply Rle_trans; [apply Rabs_triang|]. eapply Rle_trans; [apply Rplus_le_compat_r, Rabs_triang|].
    eapply Rle_trans; [apply Rplus_le_compat_r, Rplus_le_compat_r, Rabs_triang|].
    rewrite !Rabs_mult, <- !RPow_abs. pose proof (Rabs_pos y1). pose proof (Rabs_pos y2).
    assert (Rabs h ^ 6 * Rabs y1 <= Rabs h ^ 5 * K) by (apply Rmult_le_compat; auto; apply pow_le, Rabs_pos).
    assert (Rabs h ^ 5 * Rabs y2 <= Rabs h ^ 5 * K') by (apply Rmult_le_compat; auto; lra). lra. }
  pose proof (Rmax_l (K1 + K2) (K3 + K4)) as M1. pose proof (Rmax_r (K1 + K2) (K3 + K4)) as M2.
  set (K := Rmax (K1 + K2) (K3 + K4)) in *. split.
  - match goal with |- Rabs ?e <= _ => replace e with ((nth 1 be 0 - / 6) * h ^ 3 * L p i + (nth 2 al 0 - / 24) * h ^ 4 * L (L q) i + h ^ 6 * x1 + h ^ 5 * x2) by field end.
    eapply Rle_trans; [exact (G _ _ _ _ x1 x2 K1 K2 H1 H2)|]. assert ((K1 + K2) * Rabs h ^ 5 <= K * Rabs h ^ 5) by (apply Rmult_le_compat_r; auto). lra.
  - match goal with |- Rabs ?e <= _ => replace e with ((nth 1 ga 0 - / 6) * h ^ 3 * L (L q) i + (nth 2 de 0 - / 24) * h ^ 4 * L (L p) i + h ^ 6 * x4 + h ^ 5 * x3) by field end.
    eapply Rle_trans; [exact (G _ _ _ _ x4 x3 K4 K3 H4 H3)|]. assert ((K3 + K4) * Rabs h ^ 5 <= K * Rabs h ^ 5) by (apply Rmult_le_compat_r; auto). lra.
Qed.
End Linear.
End Real.

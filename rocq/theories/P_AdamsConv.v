(** Convergence of the Adams steppers. *)
From Coq Require Import List Arith Bool ZArith Reals Lia Lra FunctionalExtensionality.
From Verif Require Import M_Num M_Sign M_Run M_Plain M_RK M_Midpoint M_Adams S_Grid S_Real S_RK S_Conv S_Adams S_Taylor S_AdamsConv
  P_Run P_R P_Plain P_PlainR P_Poly P_RK P_RKOrder P_RKNamed P_RKAll P_Adams P_AdamsR P_Conv P_ConvRun P_ConvOrd P_Taylor.
Import ListNotations.
Local Open Scope R_scope.

(** ** Invariants along the grid. *)
Section Grid.
Context {N : Num} {S W X : Type}.
Variable do_step : S -> W -> X -> N -> N -> M (ev X (carrier N)) (S * W * X).
Variables (t0 dt : N) (n : nat).
Variable Inv : nat -> S -> X -> Prop.
Hypothesis Hstep : forall k s w x, (k < n)%nat -> Inv k s x -> forall tr r, do_step s w x (grid t0 dt k) dt = (tr, r) ->
  obs_of tr = [] /\ forall s' w' x', r = Ok (s', w', x') -> Inv (Datatypes.S k) s' x'.

Lemma sched_inv : forall m k s w x tr r, (k + m = n)%nat -> Inv k s x ->
  S_Grid.exec rec_obs do_step (flat_map (fun k => [CObs (grid t0 dt k); CStep (grid t0 dt k) dt]) (seq k m) ++ [CObs (grid t0 dt n)]) s w x = (tr, r) ->
  forall x' t', In (x', t') (obs_of tr) -> exists j s', (j <= n)%nat /\ t' = grid t0 dt j /\ Inv j s' x'.
Proof.
  induction m as [|m IH]; intros k s w x tr r Hk HI E x' t' Hin.
  - cbn [seq flat_map app S_Grid.exec] in E. unfold bind, rec_obs, ret in E. cbn in E. injection E as <- _.
    destruct Hin as [Q|[]]. injection Q as <- <-. exists n, s. replace n with k by lia. auto.
  - cbn [seq flat_map app S_Grid.exec] in E. unfold bind at 1 in E. cbn [rec_obs fst snd] in E. unfold rec_obs in E at 1. cbn [app] in E.
    destruct (do_step s w x (grid t0 dt k) dt) as [tr1 r1] eqn:Es.
    destruct (Hstep k s w x ltac:(lia) HI tr1 r1 Es) as [Ho Hok].
    unfold bind in E at 1. destruct r1 as [[[s1 w1] x1]| | |].
    + destruct (S_Grid.exec _ _ _ s1 w1 x1) as [tr2 r2] eqn:E2. injection E as <- _.
      cbn [obs_of flat_map app] in Hin. fold (obs_of (tr1 ++ tr2)) in Hin. rewrite obs_of_app, Ho in Hin. cbn [app] in Hin.
      destruct Hin as [Q|Hin].
      * injection Q as <- <-. exists k, s. split; [lia|]. auto.
      * exact (IH (Datatypes.S k) s1 w1 x1 tr2 r2 ltac:(lia) (Hok s1 w1 x1 eq_refl) E2 x' t' Hin).
    + injection E as <- _. cbn [obs_of flat_map app] in Hin. fold (obs_of tr1) in Hin. rewrite Ho in Hin.
      destruct Hin as [Q|[]]. injection Q as <- <-. exists k, s. split; [lia|]. auto.
    + injection E as <- _. cbn [obs_of flat_map app] in Hin. fold (obs_of tr1) in Hin. rewrite Ho in Hin.
      destruct Hin as [Q|[]]. injection Q as <- <-. exists k, s. split; [lia|]. auto.
    + injection E as <- _. cbn [obs_of flat_map app] in Hin. fold (obs_of tr1) in Hin. rewrite Ho in Hin.
      destruct Hin as [Q|[]]. injection Q as <- <-. exists k, s. split; [lia|]. auto.
Qed.
End Grid.

(** ** Quadrature rules on smooth functions. *)
Lemma qsum_sumn w th (c : nat -> R) (g : nat -> R -> R) : forall m,
  qsum w th (fun z => sumn m (fun j => c j * g j z)) = sumn m (fun j => c j * qsum w th (g j)).
Proof.
  induction m as [|m IH].
  - unfold sumn. cbn. rewrite (qsum_ext _ _ _ (fun z => 0 * 0)) by (intro; ring). rewrite qsum_scale. ring.
  - rewrite sumn_S, <- IH, <- qsum_scale, <- qsum_plus. apply qsum_ext. intro z. apply sumn_S.
Qed.
Lemma qsum_abs : forall w th (g : R -> R) B k, 0 <= B -> (forall z, In z th -> Rabs (g z) <= B * Rabs z ^ k) ->
  Rabs (qsum w th g) <= B * qsum (map Rabs w) (map Rabs th) (fun z => z ^ k).
Proof.
  intros w th g B k HB. unfold qsum, rsum. revert th. induction w as [|a w IH]; intros [|z th] Hg; cbn [map combine fold_right fst snd]; try (rewrite Rabs_R0; lra).
  specialize (IH th ltac:(intros z' Hz; apply Hg; now right)). eapply Rle_trans; [apply Rabs_triang|]. rewrite Rmult_plus_distr_l.
  apply Rplus_le_compat; [|exact IH]. rewrite Rabs_mult.
  replace (B * (Rabs a * Rabs z ^ k)) with (Rabs a * (B * Rabs z ^ k)) by ring. apply Rmult_le_compat_l; [apply Rabs_pos|apply Hg; now left].
Qed.
Lemma qsum_nonneg w th k : 0 <= qsum (map Rabs w) (map Rabs th) (fun z => z ^ k).
Proof.
  unfold qsum, rsum. revert th. induction w as [|a w IH]; intros [|z th]; cbn [map combine fold_right fst snd]; try lra.
  specialize (IH th). pose proof (Rabs_pos a). assert (0 <= Rabs z ^ k) by (apply pow_le, Rabs_pos).
  assert (0 <= Rabs a * Rabs z ^ k) by now apply Rmult_le_pos. lra.
Qed.
Lemma rule_const_nonneg w th k : 0 <= rule_const w th k.
Proof.
  unfold rule_const. pose proof (qsum_nonneg w th k). pose proof (INR_fact_lt_0 (S k)) as P1. pose proof (INR_fact_lt_0 k) as P2.
  apply Rinv_0_lt_compat in P1, P2. assert (0 <= qsum (map Rabs w) (map Rabs th) (fun z => z ^ k) * / INR (fact k)) by (apply Rmult_le_pos; lra).
  unfold Rdiv. lra.
Qed.
Lemma rule_size_nonneg w : 0 <= rule_size w.
Proof. unfold rule_size, rsum. induction w as [|a w IH]; cbn; [lra|]. pose proof (Rabs_pos a). lra. Qed.

Section Rule.
Variable eps : R.
Notation NN := (RNum eps).
Context {I : Type}.
Variable T : R -> Prop.
Hypothesis Tconv : forall s u c, T s -> T u -> 0 <= c <= 1 -> T (s + c * (u - s)).
Variables (Y : nat -> R -> I -> R) (k : nat) (M : R).
Hypothesis HM : 0 <= M.
Hypothesis Hder : derivatives T (S k) Y.
Hypothesis HB : deriv_bound T (S k) M Y.

Lemma rule_local w th t h i : moments w th k -> T t -> T (t + h) -> (forall z, In z th -> T (t + z * h)) ->
  Rabs (Y O t i + h * qsum w th (fun z => Y 1%nat (t + z * h) i) - Y O (t + h) i) <= M * rule_const w th k * Rabs h ^ S k.
Proof.
  intros Hm Ht Hth Hz.
  set (c := fun j => h ^ j / INR (fact j) * Y (S j) t i).
  set (Rm := fun z => Y 1%nat (t + z * h) i - sumn k (fun j => (z * h) ^ j / INR (fact j) * Y (S j) t i)).
  assert (E1 : qsum w th (fun z => Y 1%nat (t + z * h) i) = sumn k (fun j => c j * / INR (S j)) + qsum w th Rm).
  { rewrite (qsum_ext _ _ _ (fun z => sumn k (fun j => c j * z ^ j) + Rm z)).
    - rewrite qsum_plus, (qsum_sumn w th c (fun j z => z ^ j)). f_equal. apply sumn_ext. intros j Hj. now rewrite (Hm j Hj).
    - intro z. unfold Rm. replace (sumn k (fun j => c j * z ^ j)) with (sumn k (fun j => (z * h) ^ j / INR (fact j) * Y (S j) t i)); [ring|].
      apply sumn_ext. intros j Hj. unfold c. rewrite Rpow_mult_distr. field. apply INR_fact_neq_0. }
  assert (B1 : Rabs (qsum w th Rm) <= (M * Rabs h ^ k / INR (fact k)) * qsum (map Rabs w) (map Rabs th) (fun z => z ^ k)).
  { assert (PF : 0 < INR (fact k)) by apply INR_fact_lt_0.
    apply qsum_abs.
    - apply Rmult_le_pos; [|left; now apply Rinv_0_lt_compat]. apply Rmult_le_pos; [exact HM|apply pow_le, Rabs_pos].
    - intros z Hin. unfold Rm.
      eapply Rle_trans; [apply (taylor_gen T Tconv k (fun j => Y (S j)) M t (z * h) HM)|].
      + intros j s q Hj Hs. apply Hder; [lia|exact Hs].
      + exact HB.
      + exact Ht.
      + now apply Hz.
      + right. rewrite Rabs_mult, Rpow_mult_distr. field. lra. }
  pose proof (taylor_gen T Tconv (S k) Y M t h HM Hder HB Ht Hth i) as B2.
  assert (E2 : sumn (S k) (fun j => h ^ j / INR (fact j) * Y j t i) = Y O t i + h * sumn k (fun j => c j * / INR (S j))).
  { rewrite sumn_shift. replace (h ^ 0 / INR (fact 0) * Y 0%nat t i) with (Y 0%nat t i) by (cbn; field). f_equal.
    rewrite <- sumn_scale. apply sumn_ext. intros j Hj. unfold c. rewrite fact_simpl, mult_INR. cbn [pow]. field. split; [apply not_0_INR; lia|apply INR_fact_neq_0]. }
  rewrite E2 in B2. rewrite E1.
  replace (Y 0%nat t i + h * (sumn k (fun j => c j * / INR (S j)) + qsum w th Rm) - Y 0%nat (t + h) i) with
    (h * qsum w th Rm + - (Y 0%nat (t + h) i - (Y 0%nat t i + h * sumn k (fun j => c j * / INR (S j))))) by ring.
  eapply Rle_trans; [apply Rabs_triang|]. rewrite Rabs_Ropp, Rabs_mult.
  apply Rle_trans with (Rabs h * (M * Rabs h ^ k / INR (fact k) * qsum (map Rabs w) (map Rabs th) (fun z => z ^ k)) + M * Rabs h ^ S k / INR (fact (S k))).
  - apply Rplus_le_compat; [apply Rmult_le_compat_l; [apply Rabs_pos|exact B1]|exact B2].
  - right. unfold rule_const. cbn [pow]. field. split; apply INR_fact_neq_0.
Qed.

(** The rule applied to inexact samples. *)
Lemma rule_step w th t h x ds b e i : moments w th k -> T t -> T (t + h) -> (forall z, In z th -> T (t + z * h)) ->
  length ds = length th -> length w = length th -> 0 <= e ->
  Rabs (x i - Y O t i) <= b ->
  (forall j z (d : I -> R), nth_error th j = Some z -> nth_error ds j = Some d -> Rabs (d i - Y 1%nat (t + z * h) i) <= e) ->
  Rabs (lmm (N := NN) h w x ds i - Y O (t + h) i) <= b + Rabs h * (rule_size w * e) + M * rule_const w th k * Rabs h ^ S k.
Proof.
  intros Hm Ht Hth Hz Ll Lw He Hx Hd.
  assert (E : lmm (N := NN) h w x ds i = x i + h * rsum (map (fun p => fst p * snd p i) (combine w ds))) by exact (lmm_R eps h w x ds i).
  rewrite E.
  assert (B : Rabs (rsum (map (fun p => fst p * snd p i) (combine w ds)) - qsum w th (fun z => Y 1%nat (t + z * h) i)) <= rule_size w * e).
  { clear -Ll Lw He Hd. unfold rule_size, qsum, rsum. revert th ds Ll Lw Hd. induction w as [|a w IH]; intros [|z th] [|d ds] L1 L2 Hd; try discriminate L1; try discriminate L2.
    - cbn. rewrite Rminus_0_r, Rabs_R0. lra.
    - cbn [map combine fold_right fst snd].
      specialize (IH th ds ltac:(now injection L1) ltac:(now injection L2) ltac:(intros j z' d' H1 H2; exact (Hd (S j) z' d' H1 H2))).
      specialize (Hd O z d eq_refl eq_refl).
      match goal with |- Rabs (?a1 * ?d1 + ?r1 - (?a1 * ?y1 + ?r2)) <= _ => replace (a1 * d1 + r1 - (a1 * y1 + r2)) with (a1 * (d1 - y1) + (r1 - r2)) by ring end.
      eapply Rle_trans; [apply Rabs_triang|]. rewrite Rmult_plus_distr_r. apply Rplus_le_compat; [|exact IH].
      rewrite Rabs_mult. apply Rmult_le_compat_l; [apply Rabs_pos|exact Hd]. }
  pose proof (rule_local w th t h i Hm Ht Hth Hz) as B2.
  set (s1 := rsum (map (fun p => fst p * snd p i) (combine w ds))) in *. set (s2 := qsum w th (fun z => Y 1%nat (t + z * h) i)) in *.
  replace (x i + h * s1 - Y 0%nat (t + h) i) with ((x i - Y 0%nat t i) + h * (s1 - s2) + (Y 0%nat t i + h * s2 - Y 0%nat (t + h) i)) by ring.
  eapply Rle_trans; [apply Rabs_triang|]. apply Rplus_le_compat; [|exact B2].
  eapply Rle_trans; [apply Rabs_triang|]. apply Rplus_le_compat; [exact Hx|]. rewrite Rabs_mult.
  apply Rmult_le_compat_l; [apply Rabs_pos|exact B].
Qed.
End Rule.

(** ** Runs. *)
Section Run.
Variable eps : R.
Notation NN := (RNum eps).
Context {I IS : Type}.
Variable T : R -> Prop.
Hypothesis Tconv : forall s u c, T s -> T u -> 0 <= c <= 1 -> T (s + c * (u - s)).
Variable f : (I -> R) -> R -> (I -> R).
Variable K : nat.
Hypothesis HK : (1 <= K <= 8)%nat.
Variables L M H D : R.
Hypothesis HL0 : 0 <= L.
Hypothesis HM0 : 0 <= M.
Hypothesis HD0 : 0 <= D.
Hypothesis HL : lipschitz T L f.
Variable Y : nat -> R -> I -> R.
Hypothesis Hder : derivatives T (S K) Y.
Hypothesis Hsol : forall t i, T t -> Y 1%nat t i = f (Y 0%nat t) t i.
Hypothesis HB : deriv_bound T (S K) M Y.
Variables t0 dt : R.
Hypothesis Hdt : Rabs dt <= H.
Variable istep : ((I -> R) -> R -> (I -> R)) -> IS -> bool -> (I -> R) -> (I -> R) -> R -> R -> res (IS * (I -> R)).
Variables La E0 : R.
Hypothesis HLa : 0 <= La.
Hypothesis HE0 : 0 <= E0.
(** The starting steps. *)
Hypothesis Hist : forall is io x t b is' out, 0 <= b -> T t -> T (t + dt) -> (forall j, Rabs (x j - Y 0%nat t j) <= b) ->
  istep f is io x (f x t) t dt = Ok (is', out) -> forall i, Rabs (out i - Y 0%nat (t + dt) i) <= (1 + Rabs dt * La) * b + E0.

Notation u := (Rabs dt).
Notation wB := (ab_coef (N := NN) K).
Notation cB := (rule_const wB (ab_nodes K) K).
Notation sB := (rule_size wB).
Notation wM := (am_coef (N := NN) K).
Notation cM := (rule_const wM (am_nodes K) K).
Notation sM := (rule_size wM).
Definition g_ab : R := Rmax La (sB * L).
Definition g_abm : R := Rmax La (sM * L * (1 + H * (sB * L))).
Definition c_ab : R := M * cB.
Definition c_abm : R := M * (cM + H * (sM * L) * cB).

Lemma u0 : 0 <= u. Proof. apply Rabs_pos. Qed.
Lemma sBL : 0 <= sB * L. Proof. apply Rmult_le_pos; [apply rule_size_nonneg|exact HL0]. Qed.
Lemma sML : 0 <= sM * L. Proof. apply Rmult_le_pos; [apply rule_size_nonneg|exact HL0]. Qed.

(** The samples at t-dt, t-2dt, ... are derivatives at points within [b] of the solution. *)
Definition near (l : list (I -> R)) (t b : R) : Prop :=
  forall j d, nth_error l j = Some d -> T (t - INR (S j) * dt) /\ forall i, Rabs (d i - Y 1%nat (t - INR (S j) * dt) i) <= L * b.

Lemma near_dx x t b : T t -> (forall j, Rabs (x j - Y 0%nat t j) <= b) -> forall i, Rabs (f x t i - Y 1%nat t i) <= L * b.
Proof. intros Ht Hx i. rewrite (Hsol t i Ht). now apply HL. Qed.
Lemma near_cons l t b b' x : b <= b' -> T t -> near l t b -> (forall j, Rabs (x j - Y 0%nat t j) <= b) -> near (f x t :: l) (t + dt) b'.
Proof.
  intros Hb Ht Hl Hx. assert (LL : L * b <= L * b') by now apply Rmult_le_compat_l. intros [|j] d Hj; cbn [nth_error] in Hj.
  - injection Hj as <-. replace (t + dt - INR 1 * dt) with t by (cbn; ring). split; [exact Ht|]. intro i.
    pose proof (near_dx x t b Ht Hx i). lra.
  - destruct (Hl j d Hj) as [A B]. replace (t + dt - INR (S (S j)) * dt) with (t - INR (S j) * dt) by (rewrite !S_INR; ring).
    split; [exact A|]. intro i. specialize (B i). lra.
Qed.

Lemma ab_error l x t b : 0 <= b -> T t -> T (t + dt) -> near l t b -> (K - 1 <= length l)%nat -> (forall j, Rabs (x j - Y 0%nat t j) <= b) ->
  forall i, Rabs (lmm (N := NN) dt wB x (f x t :: firstn (K - 1) l) i - Y 0%nat (t + dt) i) <= (1 + u * (sB * L)) * b + c_ab * u ^ S K.
Proof.
  intros Hb Ht Hth Hl Ll Hx i.
  assert (Hn : forall j d, (j < K)%nat -> nth_error (f x t :: firstn (K - 1) l) j = Some d ->
    T (t + - INR j * dt) /\ Rabs (d i - Y 1%nat (t + - INR j * dt) i) <= L * b).
  { intros [|j] d Hj Hd; cbn [nth_error] in Hd.
    - injection Hd as <-. replace (t + - INR 0 * dt) with t by (cbn; ring). split; [exact Ht|]. now apply near_dx.
    - rewrite nth_error_firstn_lt in Hd by lia. destruct (Hl j d Hd) as [A B].
      replace (t + - INR (S j) * dt) with (t - INR (S j) * dt) by ring. split; [exact A|apply B]. }
  eapply Rle_trans; [apply (rule_step eps T Tconv Y K M HM0 Hder HB wB (ab_nodes K) t dt x _ b (L * b) i)|].
  - now apply ab_moments.
  - exact Ht.
  - exact Hth.
  - intros z Hz. unfold ab_nodes in Hz. apply in_map_iff in Hz as (j & <- & Hj). apply in_seq in Hj.
    destruct (nth_error (f x t :: firstn (K - 1) l) j) as [d|] eqn:Ed; [exact (proj1 (Hn j d ltac:(lia) Ed))|].
    apply nth_error_None in Ed. cbn [length] in Ed. rewrite firstn_length in Ed. lia.
  - unfold ab_nodes. rewrite map_length, seq_length. cbn [length]. rewrite firstn_length. lia.
  - unfold ab_nodes. rewrite map_length, seq_length. now apply ab_coef_length.
  - now apply Rmult_le_pos.
  - apply Hx.
  - intros j z d Hz Hd. apply nth_error_nodes in Hz as [Hj ->]. exact (proj2 (Hn j d Hj Hd)).
  - unfold c_ab. lra.
Qed.

Lemma am_error l x t b bp p : 0 <= b <= bp -> T t -> T (t + dt) -> near l t b -> (K - 1 <= length l)%nat -> (forall j, Rabs (x j - Y 0%nat t j) <= b) ->
  (forall j, Rabs (p j - Y 0%nat (t + dt) j) <= bp) ->
  forall i, Rabs (lmm (N := NN) dt wM x (f p (t + dt) :: firstn (K - 1) (f x t :: l)) i - Y 0%nat (t + dt) i) <= b + u * (sM * (L * bp)) + M * cM * u ^ S K.
Proof.
  intros Hb Ht Hth Hl Ll Hx Hp i.
  assert (LL : L * b <= L * bp) by (apply Rmult_le_compat_l; lra).
  assert (Hn : forall j d, (j < K)%nat -> nth_error (f p (t + dt) :: firstn (K - 1) (f x t :: l)) j = Some d ->
    T (t + (1 - INR j) * dt) /\ Rabs (d i - Y 1%nat (t + (1 - INR j) * dt) i) <= L * bp).
  { intros [|j] d Hj Hd; cbn [nth_error] in Hd.
    - injection Hd as <-. replace (t + (1 - INR 0) * dt) with (t + dt) by (cbn; ring). split; [exact Hth|]. now apply near_dx.
    - rewrite nth_error_firstn_lt in Hd by lia. destruct j as [|j]; cbn [nth_error] in Hd.
      + injection Hd as <-. replace (t + (1 - INR 1) * dt) with t by (cbn; ring). split; [exact Ht|].
        pose proof (near_dx x t b Ht Hx i). lra.
      + destruct (Hl j d Hd) as [A B].
        replace (t + (1 - INR (S (S j))) * dt) with (t - INR (S j) * dt) by (rewrite !S_INR; ring). split; [exact A|]. specialize (B i). lra. }
  eapply Rle_trans; [apply (rule_step eps T Tconv Y K M HM0 Hder HB wM (am_nodes K) t dt x _ b (L * bp) i)|].
  - now apply am_moments.
  - exact Ht.
  - exact Hth.
  - intros z Hz. unfold am_nodes in Hz. apply in_map_iff in Hz as (j & <- & Hj). apply in_seq in Hj.
    destruct (nth_error (f p (t + dt) :: firstn (K - 1) (f x t :: l)) j) as [d|] eqn:Ed; [exact (proj1 (Hn j d ltac:(lia) Ed))|].
    apply nth_error_None in Ed. cbn [length] in Ed. rewrite firstn_length in Ed. cbn [length] in Ed. lia.
  - unfold am_nodes. rewrite map_length, seq_length. cbn [length]. rewrite firstn_length. cbn [length]. lia.
  - unfold am_nodes. rewrite map_length, seq_length. now apply am_coef_length.
  - apply Rmult_le_pos; lra.
  - apply Hx.
  - intros j z d Hz Hd. apply nth_error_nodes in Hz as [Hj ->]. exact (proj2 (Hn j d Hj Hd)).
  - lra.
Qed.

(** One step of the bound. *)
Lemma lmm_bound_step G W a v : 0 <= G -> 0 <= W -> 0 <= a -> 0 <= v ->
  (1 + u * G) * (exp (G * a) * W) + v <= exp (G * (a + u)) * (W + v).
Proof.
  intros HG HW Ha Hv. pose proof u0 as Hu. replace (G * (a + u)) with (G * a + G * u) by ring. rewrite exp_plus.
  assert (E1 : 1 + G * u <= exp (G * u)) by apply exp_ineq1_le.
  assert (P : 1 <= exp (G * a)). { pose proof (exp_ineq1_le (G * a)). assert (0 <= G * a) by now apply Rmult_le_pos. lra. }
  assert (PGu : 0 <= G * u) by now apply Rmult_le_pos.
  set (ea := exp (G * a)) in *. set (eu := exp (G * u)) in *.
  apply Rle_trans with (ea * ((1 + G * u) * W + v)).
  - assert (1 * v <= ea * v) by now apply Rmult_le_compat_r. lra.
  - rewrite Rmult_assoc. apply Rmult_le_compat_l; [lra|].
    assert ((1 + G * u) * W <= eu * W) by now apply Rmult_le_compat_r.
    assert (1 * v <= eu * v) by (apply Rmult_le_compat_r; lra). lra.
Qed.

(** The bound after k steps: the first K-1 of them are starting steps. *)
Definition bnd (G C : R) (k : nat) : R := lmm_bound G D (INR (Nat.min k (K - 1)) * E0) (C * u ^ K) (INR k * u).

Lemma bnd_nonneg G C k : 0 <= C -> 0 <= bnd G C k.
Proof.
  intro HC. unfold bnd, lmm_bound. apply Rmult_le_pos; [left; apply exp_pos|].
  assert (0 <= INR (Nat.min k (K - 1)) * E0) by (apply Rmult_le_pos; [apply pos_INR|exact HE0]).
  assert (0 <= C * u ^ K * (INR k * u)). { apply Rmult_le_pos; [apply Rmult_le_pos; [exact HC|apply pow_le, u0]|apply Rmult_le_pos; [apply pos_INR|apply u0]]. }
  lra.
Qed.
Lemma bnd_start G C k : 0 <= C -> 0 <= G -> La <= G -> (k < K - 1)%nat -> (1 + u * La) * bnd G C k + E0 <= bnd G C (S k) /\ bnd G C k <= bnd G C (S k).
Proof.
  intros HC HG HLG Hk. pose proof (bnd_nonneg G C k HC) as Hb. pose proof u0 as Hu.
  assert (A : (1 + u * G) * bnd G C k + E0 <= bnd G C (S k)).
  { unfold bnd, lmm_bound.
    eapply Rle_trans; [apply lmm_bound_step; [exact HG| | |exact HE0]|].
    - assert (0 <= INR (Nat.min k (K - 1)) * E0) by (apply Rmult_le_pos; [apply pos_INR|exact HE0]).
      assert (0 <= C * u ^ K * (INR k * u)). { apply Rmult_le_pos; [apply Rmult_le_pos; [exact HC|apply pow_le, u0]|apply Rmult_le_pos; [apply pos_INR|apply u0]]. }
      lra.
    - apply Rmult_le_pos; [apply pos_INR|exact Hu].
    - replace (INR k * u + u) with (INR (S k) * u) by (rewrite S_INR; ring). apply Rmult_le_compat_l; [left; apply exp_pos|].
      replace (Nat.min (S k) (K - 1)) with (S k) by lia. replace (Nat.min k (K - 1)) with k by lia. rewrite (S_INR k).
      assert (0 <= C * u ^ K * u). { apply Rmult_le_pos; [apply Rmult_le_pos; [exact HC|apply pow_le, u0]|exact Hu]. }
      lra. }
  assert (Q : u * La * bnd G C k <= u * G * bnd G C k) by (apply Rmult_le_compat_r; [exact Hb|now apply Rmult_le_compat_l]).
  assert (Q2 : 0 <= u * G * bnd G C k) by (apply Rmult_le_pos; [now apply Rmult_le_pos|exact Hb]).
  split; lra.
Qed.
Lemma bnd_step G C k g : 0 <= C -> 0 <= G -> g <= G -> (1 + u * g) * bnd G C k + C * u ^ S K <= bnd G C (S k) /\ bnd G C k <= bnd G C (S k).
Proof.
  intros HC HG Hg. pose proof (bnd_nonneg G C k HC) as Hb. pose proof u0 as Hu.
  assert (PK : 0 <= C * u ^ S K) by (apply Rmult_le_pos; [exact HC|apply pow_le, u0]).
  assert (A : (1 + u * G) * bnd G C k + C * u ^ S K <= bnd G C (S k)).
  { unfold bnd, lmm_bound.
    eapply Rle_trans; [apply lmm_bound_step; [exact HG| | |exact PK]|].
    - assert (0 <= INR (Nat.min k (K - 1)) * E0) by (apply Rmult_le_pos; [apply pos_INR|exact HE0]).
      assert (0 <= C * u ^ K * (INR k * u)). { apply Rmult_le_pos; [apply Rmult_le_pos; [exact HC|apply pow_le, u0]|apply Rmult_le_pos; [apply pos_INR|apply u0]]. }
      lra.
    - apply Rmult_le_pos; [apply pos_INR|exact Hu].
    - replace (INR k * u + u) with (INR (S k) * u) by (rewrite S_INR; ring). apply Rmult_le_compat_l; [left; apply exp_pos|].
      assert (INR (Nat.min k (K - 1)) * E0 <= INR (Nat.min (S k) (K - 1)) * E0) by (apply Rmult_le_compat_r; [exact HE0|apply le_INR; lia]).
      rewrite (S_INR k). cbn [pow]. lra. }
  assert (Q : u * g * bnd G C k <= u * G * bnd G C k) by (apply Rmult_le_compat_r; [exact Hb|now apply Rmult_le_compat_l]).
  assert (Q2 : 0 <= u * G * bnd G C k) by (apply Rmult_le_pos; [now apply Rmult_le_pos|exact Hb]).
  split; lra.
Qed.

(** State of the object and of the solution after k steps. *)
Definition ab_inv (G C : R) (k : nat) (s : ab NN I IS) (x : I -> R) : Prop :=
  exists l, length l = k /\ ab_hist K s l /\ near l (t0 + INR k * dt) (bnd G C k) /\ forall i, Rabs (x i - Y 0%nat (t0 + INR k * dt) i) <= bnd G C k.

Lemma next_time k : t0 + INR k * dt + dt = t0 + INR (S k) * dt.
Proof. rewrite S_INR. ring. Qed.

Lemma g_ab_nonneg : 0 <= g_ab. Proof. unfold g_ab. eapply Rle_trans; [exact HLa|apply Rmax_l]. Qed.
Lemma g_abm_nonneg : 0 <= g_abm. Proof. unfold g_abm. eapply Rle_trans; [exact HLa|apply Rmax_l]. Qed.
Lemma c_ab_nonneg : 0 <= c_ab. Proof. apply Rmult_le_pos; [exact HM0|apply rule_const_nonneg]. Qed.
Lemma c_abm_nonneg : 0 <= c_abm.
Proof.
  apply Rmult_le_pos; [exact HM0|]. pose proof (rule_const_nonneg wM (am_nodes K) K). pose proof (rule_const_nonneg wB (ab_nodes K) K).
  assert (0 <= H) by (pose proof u0; lra). assert (0 <= H * (sM * L) * cB) by (apply Rmult_le_pos; [apply Rmult_le_pos; [assumption|apply sML]|assumption]). lra.
Qed.

Lemma ab_inv_step io k s x s' x' log : T (t0 + INR k * dt) -> T (t0 + INR (S k) * dt) -> ab_inv g_ab c_ab k s x ->
  ab_do_step (N := NN) K f (istep f) false io s x (t0 + INR k * dt)%R dt = Ok (s', x', log) -> ab_inv g_ab c_ab (S k) s' x'.
Proof.
  intros Ht Ht2 (l & Ll & Hh & Hn & Hx) E. set (t := t0 + INR k * dt) in *.
  assert (Ht3 : T (t + dt)) by (unfold t; now rewrite next_time).
  pose proof (bnd_nonneg g_ab c_ab k c_ab_nonneg) as Hb.
  pose proof (ab_call (N := NN) K ltac:(lia) istep f io s l x t dt Hh) as C.
  pose proof (bnd_step g_ab c_ab k (sB * L) c_ab_nonneg g_ab_nonneg (Rmax_r _ _)) as [S1 S2].
  destruct (Nat.ltb (ab_init s + 1) K) eqn:Q.
  - destruct (istep f (ab_is s) io x (f x t) t dt) as [[is' out]| | |] eqn:Ei;
      try (pose proof (eq_trans (eq_sym E) C) as Z; discriminate Z).
    destruct C as (s2 & E2 & H2 & _). pose proof (eq_trans (eq_sym E) E2) as Z. injection Z as <- <- _.
    destruct Hh as (_ & _ & Hc). rewrite Q in Hc. apply Nat.ltb_lt in Q.
    destruct (bnd_start g_ab c_ab k c_ab_nonneg g_ab_nonneg (Rmax_l _ _) ltac:(lia)) as [B1 B2].
    exists (f x t :: l). split; [cbn; congruence|]. split; [exact H2|]. rewrite <- next_time. fold t.
    split; [eapply near_cons; eassumption|]. intro i. eapply Rle_trans; [|exact B1].
    exact (Hist (ab_is s) io x t _ is' x' Hb Ht Ht3 Hx Ei i).
  - destruct C as (s2 & E2 & H2 & _). pose proof (eq_trans (eq_sym E) E2) as Z. injection Z as <- -> _.
    destruct Hh as (_ & _ & Hc). rewrite Q in Hc.
    exists (f x t :: l). split; [cbn; congruence|]. split; [exact H2|]. rewrite <- next_time. fold t.
    split; [eapply near_cons; eassumption|]. intro i. eapply Rle_trans; [|exact S1].
    exact (ab_error l x t _ Hb Ht Ht3 Hn Hc Hx i).
Qed.

Lemma abm_inv_step io k (s s' : abm NN I IS) x x' log : T (t0 + INR k * dt) -> T (t0 + INR (S k) * dt) -> ab_inv g_abm c_abm k (abm_ab s) x ->
  abm_do_step (N := NN) K f (istep f) false io s x (t0 + INR k * dt)%R dt = Ok (s', x', log) -> ab_inv g_abm c_abm (S k) (abm_ab s') x'.
Proof.
  intros Ht Ht2 (l & Ll & Hh & Hn & Hx) E. set (t := t0 + INR k * dt) in *.
  assert (Ht3 : T (t + dt)) by (unfold t; now rewrite next_time).
  pose proof c_abm_nonneg as Pc. pose proof g_abm_nonneg as Pg.
  pose proof (bnd_nonneg g_abm c_abm k Pc) as Hb.
  pose proof (bnd_step g_abm c_abm k (sM * L * (1 + H * (sB * L))) Pc Pg (Rmax_r _ _)) as [S1 S2].
  destruct (Nat.ltb (ab_init (abm_ab s) + 1) K) eqn:Q.
  - pose proof (ab_call (N := NN) K ltac:(lia) istep f io (abm_ab s) l x t dt Hh) as C. rewrite Q in C.
    unfold abm_do_step, ab_is_initialized in E. pose proof Q as Q0. apply Nat.ltb_lt in Q0.
    destruct (Nat.leb_spec (K - 1) (ab_init (abm_ab s))) as [Q2|_]; [lia|].
    destruct (istep f (ab_is (abm_ab s)) io x (f x t) t dt) as [[is' out]| | |] eqn:Ei;
      try (rewrite C in E; discriminate E).
    destruct C as (s2 & E2 & H2 & _). rewrite E2 in E. cbn [rbind] in E. injection E as <- <- _. cbn [abm_ab].
    destruct Hh as (_ & _ & Hc). rewrite Q in Hc.
    destruct (bnd_start g_abm c_abm k Pc Pg (Rmax_l _ _) ltac:(lia)) as [B1 B2].
    exists (f x t :: l). split; [cbn; congruence|]. split; [exact H2|]. rewrite <- next_time. fold t.
    split; [eapply near_cons; eassumption|]. intro i. eapply Rle_trans; [|exact B1].
    exact (Hist (ab_is (abm_ab s)) io x t _ is' out Hb Ht Ht3 Hx Ei i).
  - pose proof Hh as (_ & _ & Hc). rewrite Q in Hc.
    destruct (abm_step (N := NN) K ltac:(lia) istep f io s l x t dt Hh Hc) as (s2 & E2 & H2).
    pose proof (eq_trans (eq_sym E) E2) as Z. injection Z as <- -> _.
    exists (f x t :: l). split; [cbn; congruence|]. split; [exact H2|]. rewrite <- next_time. fold t.
    split; [eapply near_cons; eassumption|]. intro i. eapply Rle_trans; [|exact S1].
    set (b := bnd g_abm c_abm k) in *. set (p := lmm (N := NN) dt wB x (f x t :: firstn (K - 1) l)).
    pose proof (ab_error l x t b Hb Ht Ht3 Hn Hc Hx) as Bp. fold p in Bp.
    set (bp := (1 + u * (sB * L)) * b + c_ab * u ^ S K) in Bp.
    pose proof u0 as Hu. pose proof sBL as P1. pose proof sML as P2. pose proof c_ab_nonneg as P3.
    assert (PU : 0 <= u ^ S K) by (apply pow_le, u0).
    assert (Hbp : b <= bp).
    { unfold bp. assert (0 <= u * (sB * L) * b) by (apply Rmult_le_pos; [now apply Rmult_le_pos|exact Hb]).
      assert (0 <= c_ab * u ^ S K) by now apply Rmult_le_pos. lra. }
    eapply Rle_trans; [exact (am_error l x t b bp p (conj Hb Hbp) Ht Ht3 Hn Hc Hx Bp i)|].
    unfold bp, c_abm. replace (M * (cM + H * (sM * L) * cB)) with (M * cM + H * (sM * L) * c_ab) by (unfold c_ab; ring).
    assert (Z1 : u * (sM * L) * (u * (sB * L) * b) <= u * (sM * L) * (H * (sB * L) * b)).
    { apply Rmult_le_compat_l; [now apply Rmult_le_pos|]. apply Rmult_le_compat_r; [exact Hb|]. now apply Rmult_le_compat_r. }
    assert (Z2 : u * (sM * L) * (c_ab * u ^ S K) <= H * (sM * L) * (c_ab * u ^ S K)).
    { apply Rmult_le_compat_r; [now apply Rmult_le_pos|]. now apply Rmult_le_compat_r. }
    lra.
Qed.

(** The start. *)
Lemma ab_inv_start G C (s : ab NN I IS) x : rb_wf K (ab_buf s) -> ab_init s = O -> (forall i, Rabs (x i - Y 0%nat t0 i) <= D) -> ab_inv G C 0 s x.
Proof.
  intros W0 Hi Hx. exists []. split; [reflexivity|]. split.
  { pose proof (ab_reset_hist (N := NN) K ltac:(lia) s W0) as Q. unfold ab_reset in Q. destruct s as [b i0 is0]. cbn in *. subst i0. exact Q. }
  split; [intros [|j] d Hj; discriminate|]. intro i. cbn [INR]. rewrite Rmult_0_l, Rplus_0_r. eapply Rle_trans; [apply Hx|].
  unfold bnd, lmm_bound. cbn [Nat.min INR]. rewrite !Rmult_0_l, !Rmult_0_r, exp_0. lra.
Qed.
End Run.

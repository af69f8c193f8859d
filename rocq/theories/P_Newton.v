(** Divided differences and Newton's interpolation formula; integration of Newton polynomials. *)
From Coq Require Import ZArith List Bool Lia Arith Reals Lra.
From Verif Require Import M_Num M_RK S_RK P_Poly.
Import ListNotations.
Local Open Scope R_scope.

Fixpoint sumf (k : nat) (f : nat -> R) : R := match k with O => 0 | S k' => sumf k' f + f k' end.
Lemma sumf_first k f : sumf (S k) f = f 0%nat + sumf k (fun j => f (S j)).
Proof. induction k as [|k IH]; [simpl; ring|]. change (sumf (S (S k)) f) with (sumf (S k) f + f (S k)). rewrite IH. simpl. ring. Qed.
Lemma sumf_ext k f g : (forall j, (j < k)%nat -> f j = g j) -> sumf k f = sumf k g.
Proof. induction k as [|k IH]; intro H; [reflexivity|]. simpl. rewrite IH, H; [reflexivity|lia|intros; apply H; lia]. Qed.
Lemma sumf_scale k c f : sumf k (fun j => c * f j) = c * sumf k f.
Proof. induction k as [|k IH]; simpl; [ring|rewrite IH; ring]. Qed.

(** ** Division by s - a *)
Fixpoint quot (a : R) (p : list R) : list R :=
  match p with [] => [] | _ :: p' => padd p' (map (Rmult a) (quot a p')) end.
Lemma quot_spec a p s : peval p s = peval p a + (s - a) * peval (quot a p) s.
Proof.
  induction p as [|c p IH]; simpl; [ring|]. rewrite peval_padd, peval_scale.
  replace (peval p a) with (peval p s - (s - a) * peval (quot a p) s) by (rewrite IH; ring). ring.
Qed.
Lemma quot_length a p : length (quot a p) = (length p - 1)%nat.
Proof. induction p as [|c p IH]; [reflexivity|]. cbn [quot]. rewrite padd_length, map_length, IH. simpl. lia. Qed.
Lemma quot_sym a p s : peval (quot a p) s = peval (quot s p) a.
Proof.
  induction p as [|c p IH]; [reflexivity|]. cbn [quot]. rewrite !peval_padd, !peval_scale, IH.
  rewrite (quot_spec a p s), (IH). ring.
Qed.

Definition cf (p : list R) (n : nat) : R := nth n p 0.
Lemma cf_padd : forall p q n, cf (padd p q) n = cf p n + cf q n.
Proof.
  unfold cf. induction p as [|a p IH]; intros [|b q] [|n]; cbn [padd nth]; try ring. apply IH.
Qed.
Lemma cf_scale c p n : cf (map (Rmult c) p) n = c * cf p n.
Proof. unfold cf. revert n. induction p as [|a p IH]; intros [|n]; simpl; try ring. apply IH. Qed.
Lemma cf_ext p q : length p = length q -> (forall n, cf p n = cf q n) -> p = q.
Proof. intros L H. apply (nth_ext p q 0 0 L). intros n _. apply H. Qed.
Lemma cf_quot_S a c p n : cf (quot a (c :: p)) n = cf p n + a * cf (quot a p) n.
Proof. cbn [quot]. now rewrite cf_padd, cf_scale. Qed.
Lemma cf_quot_padd a : forall p q n, cf (quot a (padd p q)) n = cf (quot a p) n + cf (quot a q) n.
Proof.
  induction p as [|c p IH]; intros [|d q] n; cbn [padd]; try (cbn [quot]; unfold cf; destruct n; simpl; ring).
  rewrite !cf_quot_S, cf_padd, IH. ring.
Qed.
Lemma cf_quot_scale a c : forall p n, cf (quot a (map (Rmult c) p)) n = c * cf (quot a p) n.
Proof.
  induction p as [|d p IH]; intro n; [cbn [map quot]; unfold cf; destruct n; simpl; ring|].
  cbn [map]. rewrite !cf_quot_S, IH, cf_scale. ring.
Qed.
Lemma cf_quot2 a b c p n : cf (quot b (quot a (c :: p))) n = cf (quot b p) n + a * cf (quot b (quot a p)) n.
Proof. cbn [quot]. now rewrite cf_quot_padd, cf_quot_scale. Qed.
Lemma quot_diff a b : forall p n, cf (quot b p) n + a * cf (quot b (quot a p)) n = cf (quot a p) n + b * cf (quot b (quot a p)) n.
Proof.
  induction p as [|c p IH]; intro n; [unfold cf; destruct n; simpl; ring|].
  rewrite !cf_quot_S, cf_quot2. specialize (IH n).
  replace (cf p n + b * cf (quot b p) n + a * (cf (quot b p) n + a * cf (quot b (quot a p)) n))
    with (cf p n + b * cf (quot b p) n + a * (cf (quot a p) n + b * cf (quot b (quot a p)) n)) by (rewrite <- IH; ring). ring.
Qed.
Lemma quot_swap a b p : quot b (quot a p) = quot a (quot b p).
Proof.
  apply cf_ext; [now rewrite !quot_length|]. induction p as [|c p IH]; intro n; [reflexivity|].
  rewrite !cf_quot2. rewrite <- IH. apply quot_diff.
Qed.

(** ** Divided differences of a polynomial over a list of points *)
Fixpoint ddl (p : list R) (l : list R) : R :=
  match l with [] => 0 | a :: l' => match l' with [] => peval p a | _ :: _ => ddl (quot a p) l' end end.
Lemma ddl_cons p a l : l <> [] -> ddl p (a :: l) = ddl (quot a p) l.
Proof. intro H. destruct l; [congruence|reflexivity]. Qed.
Lemma snoc_nn {A} (l : list A) b : l ++ [b] <> [].
Proof. destruct l; discriminate. Qed.
Lemma ddl_swap p a c l : ddl p (a :: c :: l) = ddl (quot c p) (a :: l).
Proof.
  destruct l as [|d l]; [apply quot_sym|].
  change (ddl (quot c (quot a p)) (d :: l) = ddl (quot a (quot c p)) (d :: l)). now rewrite quot_swap.
Qed.
Lemma ddl_rec : forall l p a b, (a - b) * ddl p (a :: l ++ [b]) = ddl p (a :: l) - ddl p (l ++ [b]).
Proof.
  induction l as [|c l IH]; intros p a b.
  - simpl. rewrite (quot_spec a p b). ring.
  - cbn [app]. rewrite !ddl_swap, IH. now rewrite (ddl_cons p c) by apply snoc_nn.
Qed.
Lemma ddl_rot : forall l p a, ddl p (a :: l) = ddl p (l ++ [a]).
Proof.
  induction l as [|c l IH]; intros p a; [reflexivity|]. cbn [app]. rewrite ddl_swap, IH.
  now rewrite (ddl_cons p c) by apply snoc_nn.
Qed.

(** Newton's formula. *)
Fixpoint newt (p : list R) (l : list R) (s : R) : R :=
  match l with [] => 0 | a :: l' => peval p a + (s - a) * newt (quot a p) l' s end.
Lemma newt_exact : forall l p s, (length p <= length l)%nat -> newt p l s = peval p s.
Proof.
  induction l as [|a l IH]; intros p s H.
  - destruct p; [reflexivity|simpl in H; lia].
  - cbn [newt]. rewrite IH by (rewrite quot_length; simpl in H; lia). symmetry. apply quot_spec.
Qed.
Fixpoint wl (l : list R) (s : R) : R := match l with [] => 1 | a :: l' => (s - a) * wl l' s end.
Lemma wl_snoc : forall l b s, wl (l ++ [b]) s = wl l s * (s - b).
Proof. induction l as [|a l IH]; intros; simpl; [ring|rewrite IH; ring]. Qed.
Lemma newt_sum : forall l p s, newt p l s = sumf (length l) (fun j => ddl p (firstn (S j) l) * wl (firstn j l) s).
Proof.
  induction l as [|a l IH]; intros p s; [reflexivity|]. cbn [length]. rewrite sumf_first. cbn [newt]. rewrite IH.
  cbn [firstn ddl wl]. rewrite <- sumf_scale. replace (peval p a * 1) with (peval p a) by ring. f_equal.
  apply sumf_ext. intros j Hj. destruct l as [|b l]; [simpl in Hj; lia|]. cbn [firstn]. ring.
Qed.

(** ** The same over sequences *)
Section Seq.
Variables tm dv : nat -> R.
Fixpoint D (i j : nat) : R :=
  match j with O => dv i | S j' => (D i j' - D (S i) j') / (tm i - tm (i + S j')%nat) end.
Lemma D_ddl q : forall j i, (forall m, (i <= m <= i + j)%nat -> peval q (tm m) = dv m) ->
  (forall m m', (i <= m < m')%nat -> (m' <= i + j)%nat -> tm m <> tm m') -> D i j = ddl q (map tm (seq i (S j))).
Proof.
  induction j as [|j IH]; intros i Hq Hd.
  - simpl. symmetry. apply Hq. lia.
  - cbn [D]. rewrite (IH i) by (intros; (apply Hq || apply Hd); lia). rewrite (IH (S i)) by (intros; (apply Hq || apply Hd); lia).
    assert (Q : tm i - tm (i + S j)%nat <> 0) by (specialize (Hd i (i + S j)%nat ltac:(lia) ltac:(lia)); lra).
    apply (Rmult_eq_reg_l (tm i - tm (i + S j)%nat)); [|exact Q].
    replace ((tm i - tm (i + S j)%nat) * ((ddl q (map tm (seq i (S j))) - ddl q (map tm (seq (S i) (S j)))) / (tm i - tm (i + S j)%nat)))
      with (ddl q (map tm (seq i (S j))) - ddl q (map tm (seq (S i) (S j)))) by (field; exact Q).
    assert (Es : map tm (seq (S i) (S j)) = map tm (seq (S i) j) ++ [tm (i + S j)%nat]).
    { rewrite seq_S, map_app. cbn [map]. now replace (S i + j)%nat with (i + S j)%nat by lia. }
    change (seq i (S (S j))) with (i :: seq (S i) (S j)). change (seq i (S j)) with (i :: seq (S i) j). rewrite !map_cons, Es.
    symmetry. apply ddl_rec.
Qed.
Definition w (i j : nat) (s : R) : R := wl (map tm (seq i j)) s.
Lemma w_S i j s : w i (S j) s = w i j s * (s - tm (i + j)%nat).
Proof. unfold w. rewrite seq_S, map_app. apply wl_snoc. Qed.
Lemma w_0 i s : w i 0 s = 1.
Proof. reflexivity. Qed.
End Seq.

Lemma firstn_map_seq {A} (f : nat -> A) j k : (j <= k)%nat -> firstn j (map f (seq 0 k)) = map f (seq 0 j).
Proof. intro H. rewrite firstn_map. f_equal. replace k with (j + (k - j))%nat by lia. rewrite seq_app, firstn_app, seq_length, Nat.sub_diag.
  cbn [firstn]. rewrite app_nil_r. rewrite <- (seq_length j 0) at 1. apply firstn_all. Qed.

(** A polynomial through the first k points is the Newton polynomial. *)
Lemma newton_pred tm dv q k s : (length q <= k)%nat -> (forall m, (m < k)%nat -> peval q (tm m) = dv m) ->
  (forall m m', (m < m')%nat -> (m' < k)%nat -> tm m <> tm m') ->
  peval q s = sumf k (fun j => D tm dv 0 j * w tm 0 j s).
Proof.
  intros L H Hd. rewrite <- (newt_exact (map tm (seq 0 k)) q s) by (rewrite map_length, seq_length; exact L).
  rewrite newt_sum, map_length, seq_length. apply sumf_ext. intros j Hj.
  rewrite (D_ddl tm dv q) by (intros; (apply H || apply Hd); lia). unfold w. now rewrite !firstn_map_seq by lia.
Qed.
(** One more point. *)
Lemma newton_corr tm dv q k t' d s : (length q <= S k)%nat -> (forall m, (m < k)%nat -> peval q (tm m) = dv m) -> peval q t' = d ->
  (forall m m', (m < m')%nat -> (m' < k)%nat -> tm m <> tm m') -> (forall m, (m < k)%nat -> t' <> tm m) ->
  let tm' := fun m => match m with O => t' | S m' => tm m' end in
  let dv' := fun m => match m with O => d | S m' => dv m' end in
  peval q s = sumf k (fun j => D tm dv 0 j * w tm 0 j s) + D tm' dv' 0 k * w tm 0 k s.
Proof.
  intros L H Hq Hd Hd' tm' dv'. rewrite <- (newt_exact (map tm (seq 0 k) ++ [t']) q s) by (rewrite app_length, map_length, seq_length; simpl; lia).
  rewrite newt_sum, app_length, map_length, seq_length. replace (k + length [t'])%nat with (S k) by (simpl; lia).
  cbn [sumf]. f_equal.
  - apply sumf_ext. intros j Hj. rewrite (D_ddl tm dv q) by (intros; (apply H || apply Hd); lia).
    rewrite !firstn_app, map_length, seq_length. replace (S j - k)%nat with 0%nat by lia. replace (j - k)%nat with 0%nat by lia.
    change (firstn 0 [t']) with (@nil R). rewrite !app_nil_r. unfold w. now rewrite !firstn_map_seq by lia.
  - rewrite (D_ddl tm' dv' q k 0).
    + replace (map tm' (seq 0 (S k))) with (t' :: map tm (seq 0 k)) by (cbn [seq map]; rewrite <- seq_shift, map_map; reflexivity).
      rewrite ddl_rot. rewrite firstn_all2 by (rewrite app_length, map_length, seq_length; simpl; lia).
      rewrite firstn_app, map_length, seq_length, Nat.sub_diag. cbn [firstn]. rewrite app_nil_r.
      rewrite firstn_all2 by (rewrite map_length, seq_length; lia). reflexivity.
    + intros [|m] Hm; [exact Hq|]. apply H. lia.
    + intros [|m] [|m'] H1 H2; cbn; try lia; [apply Hd'; lia|apply Hd; lia].
Qed.

(** ** Integration *)
Fixpoint Lq (q : nat) (p : list R) : R := match p with [] => 0 | a :: p' => a / INR (q + 1) + Lq (S q) p' end.
Lemma Lq_padd : forall p p' q, Lq q (padd p p') = Lq q p + Lq q p'.
Proof. induction p as [|a p IH]; intros [|b p'] q; cbn [padd Lq]; try ring. rewrite IH. unfold Rdiv. ring. Qed.
Lemma Lq_scale c : forall p q, Lq q (map (Rmult c) p) = c * Lq q p.
Proof. induction p as [|a p IH]; intro q; cbn [map Lq]; [ring|]. rewrite IH. unfold Rdiv. ring. Qed.
Fixpoint anti_from (k : nat) (p : list R) : list R := match p with [] => [] | a :: p' => a / INR k :: anti_from (S k) p' end.
Definition anti (p : list R) : list R := 0 :: anti_from 1 p.
Lemma pder_anti_from : forall p k s, (0 < k)%nat -> peval (pder_from k (anti_from k p)) s = peval p s.
Proof.
  induction p as [|a p IH]; intros k s Hk; [reflexivity|]. cbn [anti_from pder_from peval]. rewrite IH by lia.
  assert (INR k <> 0) by (apply not_0_INR; lia). field. assumption.
Qed.
Lemma pder_anti p s : peval (pder (anti p)) s = peval p s.
Proof. unfold anti, pder. apply pder_anti_from. lia. Qed.
Lemma anti_from_1 : forall p q, peval (anti_from (S q) p) 1 = Lq q p.
Proof. induction p as [|a p IH]; intro q; cbn [anti_from peval Lq]; [reflexivity|]. rewrite IH, Nat.add_1_r. ring. Qed.
Lemma anti_1 p : peval (anti p) 1 = Lq 0 p.
Proof. unfold anti. cbn [peval]. rewrite anti_from_1. ring. Qed.
Lemma anti_0 p : peval (anti p) 0 = 0.
Proof. unfold anti. cbn [peval]. ring. Qed.

Lemma deriv_zero_const f : (forall s, derivable_pt_lim f s 0) -> f 1 = f 0.
Proof.
  intro H. set (pr := fun s => exist (fun l => derivable_pt_abs f s l) 0 (H s) : derivable_pt f s).
  assert (C : constant f) by (apply (null_derivative_1 f pr); reflexivity). apply C.
Qed.

(** The integral over a step from its end: v = (t' - s)/dt. *)
Lemma step_integral X q Z t' dt : (forall s, derivable_pt_lim X s (peval q s)) -> (forall v, peval Z v = peval q (t' - v * dt)) ->
  X t' - X (t' - dt) = dt * Lq 0 Z.
Proof.
  intros HX HZ.
  set (f := fun v => X (t' - v * dt) + dt * peval (anti Z) v).
  assert (G : f 1 = f 0).
  { apply deriv_zero_const. intro v. unfold f.
    replace 0 with (peval q (t' - v * dt) * (0 - 1 * dt) + dt * peval (pder (anti Z)) v).
    2:{ rewrite pder_anti, HZ. ring. }
    apply (derivable_pt_lim_plus (fun v => X (t' - v * dt)) (fun v => dt * peval (anti Z) v)).
    - apply (derivable_pt_lim_comp (fun v => t' - v * dt) X).
      + apply (derivable_pt_lim_minus (fun _ => t') (fun v => v * dt)); [apply derivable_pt_lim_const|].
        replace (1 * dt) with (1 * dt + v * 0) by ring.
        apply (derivable_pt_lim_mult (fun v => v) (fun _ => dt)); [apply derivable_pt_lim_id|apply derivable_pt_lim_const].
      + apply HX.
    - apply (derivable_pt_lim_scal (peval (anti Z)) dt). apply peval_derivable. }
  unfold f in G. rewrite anti_1, anti_0 in G. replace (t' - 0 * dt) with t' in G by ring. replace (t' - 1 * dt) with (t' - dt) in G by ring. lra.
Qed.

Section Coef.
Variables (tm : nat -> R) (t' dt : R).
Fixpoint Pp (j : nat) : list R :=
  match j with O => [1] | S j' => padd (Pp j') (0 :: map (Rmult (- (dt / (t' - tm j')))) (Pp j')) end.
Lemma Pp_eval : forall j v, (forall m, (m < j)%nat -> t' <> tm m) -> w tm 0 j (t' - v * dt) = w tm 0 j t' * peval (Pp j) v.
Proof.
  induction j as [|j IH]; intros v H; [rewrite !w_0; simpl; ring|].
  rewrite !w_S, IH by (intros; apply H; lia). cbn [Pp Nat.add]. rewrite peval_padd. cbn [peval]. rewrite peval_scale.
  assert (t' - tm j <> 0) by (specialize (H j ltac:(lia)); lra). field. assumption.
Qed.
Lemma Lq_Pp_S j q : Lq q (Pp (S j)) = Lq q (Pp j) - dt / (t' - tm j) * Lq (S q) (Pp j).
Proof. cbn [Pp]. rewrite Lq_padd. cbn [Lq]. rewrite Lq_scale. unfold Rdiv. ring. Qed.

(** The integral of a Newton polynomial. *)
Lemma newton_integral X q k a : (forall s, derivable_pt_lim X s (peval q s)) ->
  (forall s, peval q s = sumf k (fun j => a j * w tm 0 j s)) -> (forall m, (S m < k)%nat -> t' <> tm m) ->
  X t' - X (t' - dt) = dt * sumf k (fun j => a j * w tm 0 j t' * Lq 0 (Pp j)).
Proof.
  intros HX Hq Hd.
  set (Z := fix Z (n : nat) : list R := match n with O => [] | S n' => padd (Z n') (map (Rmult (a n' * w tm 0 n' t')) (Pp n')) end).
  assert (HZ : forall n v, (n <= k)%nat -> peval (Z n) v = sumf n (fun j => a j * w tm 0 j (t' - v * dt))).
  { induction n as [|n IH]; intros v Hn; [reflexivity|]. cbn [Z sumf]. rewrite peval_padd, peval_scale, IH by lia.
    rewrite Pp_eval by (intros; apply Hd; lia). ring. }
  assert (HL : forall n, Lq 0 (Z n) = sumf n (fun j => a j * w tm 0 j t' * Lq 0 (Pp j))).
  { induction n as [|n IH]; [reflexivity|]. cbn [Z sumf]. now rewrite Lq_padd, Lq_scale, IH. }
  rewrite (step_integral X q (Z k) t' dt HX), HL; [reflexivity|]. intro v. rewrite HZ by lia. symmetry. apply Hq.
Qed.
End Coef.

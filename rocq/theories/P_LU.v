(** Correctness of the LU factorisation with row pivoting and of the triangular solves. *)
From Coq Require Import Reals Arith Bool Lia Lra FunctionalExtensionality.
From Verif Require Import M_Num M_Sign M_RK M_CtrlRK M_LU S_LU P_R.
Local Open Scope R_scope.

Lemma sigma_ext : forall n f g, (forall c, (c < n)%nat -> f c = g c) -> sigma n f = sigma n g.
Proof. induction n; intros f g H; [reflexivity|]. simpl. rewrite (IHn f g), (H n); auto. Qed.

Lemma sigma_plus : forall n f g, sigma n (fun c => f c + g c) = sigma n f + sigma n g.
Proof. induction n; intros; simpl; [lra|]. rewrite IHn. lra. Qed.

Lemma sigma_scal : forall n a f, sigma n (fun c => a * f c) = a * sigma n f.
Proof. induction n; intros; simpl; [lra|]. rewrite IHn. lra. Qed.

Lemma sigma_0 : forall n f, (forall c, (c < n)%nat -> f c = 0) -> sigma n f = 0.
Proof. induction n; intros f H; simpl; [reflexivity|]. rewrite IHn, (H n); auto; lra. Qed.

Section LU.
Variable eps : R.
Notation N := (RNum eps).
Notation mat := (nat -> nat -> R).
Notation v := (nat -> R).

Lemma nneq_R : forall a b : R, nneq (N := N) a b = true <-> a <> b.
Proof.
  intros a b. unfold nneq. simpl. unfold Rleb.
  destruct (Rle_dec a b), (Rle_dec b a); simpl; split; intros H; try reflexivity; try discriminate H; try lra; try (exfalso; apply H; lra).
Qed.
Lemma nneq_R_false : forall a b : R, nneq (N := N) a b = false <-> a = b.
Proof.
  intros a b. destruct (nneq (N := N) a b) eqn:E.
  - apply nneq_R in E. split; intros H; [discriminate H|contradiction].
  - split; [intros _|reflexivity]. destruct (Req_dec a b) as [Q|Q]; [exact Q|].
    apply nneq_R in Q. rewrite Q in E. discriminate E.
Qed.

(** ** The pivot. *)
Lemma pivot_from_spec : forall (m : mat) i k r best (t : R),
  0 <= t -> let p := pivot_from (N := N) m i r k best t in
  (p = best \/ (r <= p < r + k)%nat) /\
  (m p i = 0 -> t = 0 \/ m best i <> 0 ->
   t = 0 /\ forall q, (r <= q < r + k)%nat -> m q i = 0).
Proof.
  intros m i. induction k; intros r best t Ht.
  - simpl. split; [left; reflexivity|]. intros H [Q|Q]; [split; [exact Q|intros; lia]|contradiction].
  - cbn [pivot_from]. cbv zeta. change (@nabs N (m r i)) with (Rabs (m r i)).
    change (@nlt N t (Rabs (m r i))) with (Rltb t (Rabs (m r i))).
    destruct (Rltb t (Rabs (m r i))) eqn:E.
    + apply Rltb_true in E. destruct (IHk (S r) r (Rabs (m r i)) (Rabs_pos _)) as [H1 H2]. cbv zeta.
      split; [right; destruct H1 as [H1|H1]; [rewrite H1|]; lia|]. intros H0 _. exfalso.
      assert (Z : m r i <> 0) by (intro Z; rewrite Z, Rabs_R0 in E; lra).
      destruct (H2 H0 (or_intror Z)) as [H3 _]. lra.
    + apply Rltb_false in E. destruct (IHk (S r) best t Ht) as [H1 H2]. cbv zeta.
      split; [destruct H1 as [H1|H1]; [left; exact H1|right; lia]|]. intros H0 Hc. destruct (H2 H0 Hc) as [Q1 Q2].
      split; [exact Q1|]. intros q Hq. destruct (Nat.eq_dec q r) as [->|].
      * destruct (Req_dec (m r i) 0) as [Z|Z]; [exact Z|]. apply Rabs_pos_lt in Z. lra.
      * apply Q2. lia.
Qed.

Lemma pivot_spec : forall n (m : mat) i, (i < n)%nat -> let p := pivot (N := N) n m i in
  (i <= p < n)%nat /\ (m p i = 0 -> forall q, (i <= q < n)%nat -> m q i = 0).
Proof.
  intros n m i Hi. unfold pivot.
  destruct (pivot_from_spec m i (n - i) i i 0 (Rle_refl _)) as [H1 H2]. cbv zeta.
  change (nofZ (n := N) 0%Z) with 0%R.
  split; [destruct H1 as [H1|H1]; [rewrite H1|]; lia|].
  intros H0 q Hq. apply H2; [exact H0|left; reflexivity|lia].
Qed.

(** ** Row swaps. *)
Lemma swapi_sym : forall a b r, swapi a b r = swapi b a r.
Proof.
  intros a b r. unfold swapi. destruct (Nat.eqb_spec r a), (Nat.eqb_spec r b); congruence.
Qed.
Lemma swapi_inv : forall a b r, swapi a b (swapi a b r) = r.
Proof.
  intros a b r. unfold swapi. destruct (Nat.eqb_spec r a) as [->|H].
  - destruct (Nat.eqb_spec b a) as [->|]; [reflexivity|]. rewrite Nat.eqb_refl. reflexivity.
  - destruct (Nat.eqb_spec r b) as [->|H'].
    + rewrite Nat.eqb_refl. reflexivity.
    + destruct (Nat.eqb_spec r a), (Nat.eqb_spec r b); congruence.
Qed.
Lemma swapi_lt : forall a b r n, (a < n)%nat -> (b < n)%nat -> ((swapi a b r < n)%nat <-> (r < n)%nat).
Proof. intros. unfold swapi. destruct (Nat.eqb_spec r a), (Nat.eqb_spec r b); lia. Qed.
Lemma swapi_fix : forall a b r, r <> a -> r <> b -> swapi a b r = r.
Proof. intros. unfold swapi. destruct (Nat.eqb_spec r a), (Nat.eqb_spec r b); congruence. Qed.
Lemma swapi_ge : forall a b r i, (i <= a)%nat -> (i <= b)%nat -> ((i <= swapi a b r)%nat <-> (i <= r)%nat).
Proof. intros. unfold swapi. destruct (Nat.eqb_spec r a), (Nat.eqb_spec r b); lia. Qed.

(** ** The lower triangular solve as elimination. *)
Lemma solve_lower_S : forall n (m : mat) k (w : v) r,
  solve_lower (N := N) n m (S k) w r =
  (if ((k <? r)%nat && (r <? n)%nat)%bool
   then solve_lower (N := N) n m k w r - m r k * solve_lower (N := N) n m k w k
   else solve_lower (N := N) n m k w r).
Proof.
  intros n m k w r. cbn [solve_lower].
  destruct (nneq (N := N) _ _) eqn:E; [reflexivity|]. apply nneq_R_false in E.
  change (solve_lower (N := N) n m k w k = 0) in E. rewrite E.
  destruct (_ && _)%bool; simpl; [lra|reflexivity].
Qed.

Lemma solve_lower_ext : forall n (m1 m2 : mat) k (w : v),
  (forall r c, (c < k)%nat -> (c < r < n)%nat -> m1 r c = m2 r c) ->
  forall r, solve_lower (N := N) n m1 k w r = solve_lower (N := N) n m2 k w r.
Proof.
  induction k; intros w H r; [reflexivity|].
  rewrite !solve_lower_S. rewrite !(IHk w (fun r c Hc => H r c (Nat.lt_lt_succ_r _ _ Hc))).
  destruct (Nat.ltb_spec k r), (Nat.ltb_spec r n); simpl; try reflexivity.
  rewrite H by lia. reflexivity.
Qed.

Lemma solve_lower_swap : forall n (m : mat) a b i (w : v),
  (i <= a < n)%nat -> (i <= b < n)%nat -> forall r,
  solve_lower (N := N) n (swap_rows (N := N) a b m) i (swap_elems (N := N) a b w) r =
  solve_lower (N := N) n m i w (swapi a b r).
Proof.
  induction i; intros w Ha Hb r; [reflexivity|].
  rewrite !solve_lower_S. rewrite !(IHi w) by lia.
  rewrite (swapi_fix a b i) by lia.
  assert (E1 : (i <? swapi a b r)%nat = (i <? r)%nat).
  { destruct (Nat.ltb_spec i (swapi a b r)) as [H|H], (Nat.ltb_spec i r) as [H'|H']; try reflexivity; exfalso.
    - apply (swapi_ge a b r (S i)) in H; lia.
    - assert (S i <= swapi a b r)%nat by (apply swapi_ge; lia). lia. }
  assert (E2 : (swapi a b r <? n)%nat = (r <? n)%nat).
  { destruct (Nat.ltb_spec (swapi a b r) n) as [H|H], (Nat.ltb_spec r n) as [H'|H']; try reflexivity; exfalso.
    - apply swapi_lt in H; lia.
    - assert (swapi a b r < n)%nat by (apply swapi_lt; lia). lia. }
  rewrite E1, E2. reflexivity.
Qed.

Lemma solve_lower_zero : forall n (m : mat) k (w : v),
  (forall r, (r < n)%nat -> w r = 0) -> (k <= n)%nat -> forall r, (r < n)%nat -> solve_lower (N := N) n m k w r = 0.
Proof.
  induction k; intros w H Hk r Hr; [apply H; exact Hr|].
  rewrite solve_lower_S, !(IHk w H) by lia. destruct (_ && _)%bool; lra.
Qed.

(** ** The upper triangular solve. *)
Lemma solve_upper_S : forall (m : mat) k (w : v),
  solve_upper (N := N) m (S k) w =
  solve_upper (N := N) m k (fun r => if (r <? k)%nat then w r - m r k * (w k / m k k)
                                     else if Nat.eqb r k then w k / m k k else w r).
Proof.
  intros m k w. cbn [solve_upper]. f_equal. extensionality r.
  destruct (nneq (N := N) _ _) eqn:E; [reflexivity|]. apply nneq_R_false in E.
  change (w k / m k k = 0) in E. change (ndiv (n := N) (w k) (m k k)) with (w k / m k k). rewrite E.
  destruct (Nat.ltb_spec r k); [|reflexivity].
  destruct (Nat.eqb_spec r k); [lia|]. simpl. lra.
Qed.

Lemma solve_upper_spec : forall (m : mat) k (w : v), (forall j, (j < k)%nat -> m j j <> 0) ->
  (forall r, (r < k)%nat ->
     sigma k (fun c => if (c <? r)%nat then 0 else m r c * solve_upper (N := N) m k w c) = w r) /\
  (forall r, (k <= r)%nat -> solve_upper (N := N) m k w r = w r).
Proof.
  induction k; intros w H.
  - split; [intros; lia|reflexivity].
  - rewrite solve_upper_S.
    match goal with |- context [solve_upper m k ?f] => set (w' := f) end.
    destruct (IHk w' (fun j Hj => H j (Nat.lt_lt_succ_r _ _ Hj))) as [H1 H2].
    assert (Ek : solve_upper (N := N) m k w' k = w k / m k k).
    { rewrite H2 by lia. unfold w'. destruct (Nat.ltb_spec k k); [lia|]. rewrite Nat.eqb_refl. reflexivity. }
    split.
    + intros r Hr. cbn [sigma]. rewrite Ek. destruct (Nat.eq_dec r k) as [->|Hne].
      * rewrite (sigma_0 k).
        -- destruct (Nat.ltb_spec k k); [lia|]. field. apply H. lia.
        -- intros c Hc. destruct (Nat.ltb_spec c k); [reflexivity|lia].
      * rewrite H1 by lia. destruct (Nat.ltb_spec k r); [lia|].
        unfold w'. destruct (Nat.ltb_spec r k); [|lia]. lra.
    + intros r Hr. rewrite H2 by lia. unfold w'.
      destruct (Nat.ltb_spec r k); [lia|]. destruct (Nat.eqb_spec r k); [lia|reflexivity].
Qed.

Lemma solve_upper_zero : forall (m : mat) k (w : v),
  (forall r, (r < k)%nat -> w r = 0) -> forall r, (r < k)%nat -> solve_upper (N := N) m k w r = 0.
Proof.
  assert (G : forall (m : mat) k (w : v) n, (k <= n)%nat ->
    (forall r, (r < n)%nat -> w r = 0) -> forall r, (r < n)%nat -> solve_upper (N := N) m k w r = 0).
  { intros m k. induction k; intros w n Hk H r Hr; [apply H; exact Hr|].
    rewrite solve_upper_S. apply (IHk _ n); [lia| |exact Hr].
    intros q Hq. rewrite (H k), (H q) by lia.
    destruct (Nat.ltb_spec q k); [unfold Rdiv; lra|]. destruct (Nat.eqb_spec q k); [unfold Rdiv; lra|reflexivity]. }
  intros m k w. apply G. lia.
Qed.

(** ** The permutation. *)
Lemma apply_pm_ext : forall pm1 pm2 k (w : v), (forall j, (j < k)%nat -> pm1 j = pm2 j) ->
  apply_pm (N := N) pm1 k w = apply_pm (N := N) pm2 k w.
Proof.
  induction k; intros w H; [reflexivity|]. cbn [apply_pm].
  rewrite (IHk w), (H k) by auto. reflexivity.
Qed.

Lemma apply_pm_zero : forall pm n k (w : v), (forall j, (j < n)%nat -> (pm j < n)%nat) -> (k <= n)%nat ->
  (forall r, (r < n)%nat -> w r = 0) -> forall r, (r < n)%nat -> apply_pm (N := N) pm k w r = 0.
Proof.
  induction k; intros w Hp Hk H r Hr; [apply H; exact Hr|]. cbn [apply_pm].
  destruct (Nat.eqb k (pm k)).
  - apply IHk; auto; lia.
  - unfold swap_elems. apply IHk; auto; [lia|]. apply swapi_lt; auto.
Qed.

(** ** The factorisation loop. *)
(** The system left at stage i: rows r < i are final, the columns c < i of the others are
    eliminated. *)
Definition left (i : nat) (m : mat) : mat :=
  fun r c => if ((c <? r)%nat && (c <? i)%nat)%bool then 0 else m r c.


(** Entries after a stage with a pivot. *)
Lemma stage_entries : forall n i (s : lu_state N),
  let p := pivot (N := N) n (lu_m s) i in
  lu_m s p i <> 0 ->
  let m1 := swap_rows (N := N) i p (lu_m s) in
  forall r c, lu_m (lu_stage n i s) r c =
    (if (i <? r)%nat then
       (if Nat.eqb c i then m1 r i * (1 / m1 i i)
        else if (i <? c)%nat then m1 r c - m1 r i * (1 / m1 i i) * m1 i c else m1 r c)
     else m1 r c).
Proof.
  intros n i s p Hp m1 r c. unfold lu_stage. fold p. cbv zeta.
  apply nneq_R in Hp. change (@nofZ N 0%Z) with 0%R. rewrite Hp. cbn [lu_m].
  assert (Em : (if Nat.eqb p i then lu_m s else swap_rows (N := N) p i (lu_m s)) = m1).
  { unfold m1. destruct (Nat.eqb_spec p i) as [E|E].
    - extensionality a. extensionality b. unfold swap_rows, swapi. rewrite E.
      destruct (Nat.eqb_spec a i); congruence.
    - extensionality a. extensionality b. unfold swap_rows. rewrite swapi_sym. reflexivity. }
  rewrite Em. rewrite Nat.ltb_irrefl, Nat.eqb_refl. rewrite ?andb_false_r, ?andb_true_r. cbn [andb].
  destruct (Nat.ltb_spec i r); cbn [andb]; [|reflexivity].
  destruct (Nat.eqb_spec c i) as [->|E].
  - rewrite Nat.ltb_irrefl. reflexivity.
  - destruct (i <? c)%nat; reflexivity.
Qed.

Lemma stage_pm : forall n i (s : lu_state N),
  let p := pivot (N := N) n (lu_m s) i in
  lu_m s p i <> 0 -> lu_pm s i = i ->
  (forall k, k <> i -> lu_pm (lu_stage n i s) k = lu_pm s k) /\ lu_pm (lu_stage n i s) i = p /\
  lu_res (lu_stage n i s) = lu_res s.
Proof.
  intros n i s p Hp Hi. unfold lu_stage. fold p. cbv zeta.
  apply nneq_R in Hp. change (@nofZ N 0%Z) with 0%R. rewrite Hp. cbn [lu_pm lu_res].
  split; [|split; [|reflexivity]].
  - intros k Hk. destruct (Nat.eqb p i); [reflexivity|]. destruct (Nat.eqb_spec k i); congruence.
  - destruct (Nat.eqb_spec p i) as [E|E]; [congruence|]. rewrite Nat.eqb_refl. reflexivity.
Qed.

(** Elimination does not lose equations. *)
Lemma stage_solves : forall n i (s : lu_state N) (x y : v), (i < n)%nat ->
  let p := pivot (N := N) n (lu_m s) i in
  lu_m s p i <> 0 ->
  let m' := lu_m (lu_stage n i s) in
  (forall r, (r < n)%nat -> mvec n (left (S i) m') x r =
     (if (i <? r)%nat then y (swapi i p r) - m' r i * y p else y (swapi i p r))) ->
  forall r, (r < n)%nat -> mvec n (left i (lu_m s)) x r = y r.
Proof.
  intros n i s x y Hi p Hp m' H.
  destruct (pivot_spec n (lu_m s) i Hi) as [Hr _]. fold p in Hr.
  pose proof (stage_entries n i s Hp) as Hm. fold p m' in Hm. cbv zeta in Hm.
  set (m1 := swap_rows (N := N) i p (lu_m s)) in *.
  assert (Hpiv : m1 i i <> 0).
  { unfold m1, swap_rows, swapi. rewrite Nat.eqb_refl. exact Hp. }
  assert (Si : swapi i p i = p) by (unfold swapi; rewrite Nat.eqb_refl; reflexivity).
  (* rows of the swapped system *)
  assert (K : forall r, (r < n)%nat -> mvec n (left i m1) x r = y (swapi i p r)).
  { assert (Ki : mvec n (left i m1) x i = y p).
    { pose proof (H i Hi) as Q. rewrite Nat.ltb_irrefl, Si in Q. rewrite <- Q. unfold mvec. apply sigma_ext.
      intros c Hc. unfold left. rewrite Hm, Nat.ltb_irrefl.
      destruct (Nat.ltb_spec c i), (Nat.ltb_spec c (S i)); simpl; try reflexivity; lia. }
    intros r Hrn. pose proof (H r Hrn) as Q.
    destruct (Nat.ltb_spec i r) as [Hir|Hir].
    - assert (E : mvec n (left i m1) x r = mvec n (left (S i) m') x r + m' r i * mvec n (left i m1) x i).
      { unfold mvec. rewrite <- sigma_scal, <- sigma_plus. apply sigma_ext. intros c Hc. unfold left.
        rewrite !Hm. destruct (Nat.ltb_spec i r); [|lia]. rewrite Nat.eqb_refl.
        destruct (Nat.ltb_spec c r), (Nat.ltb_spec c i), (Nat.ltb_spec c (S i)), (Nat.eqb_spec c i), (Nat.ltb_spec i c);
          simpl; subst; try lia; try ring; field; exact Hpiv. }
      rewrite E, Q, Ki. lra.
    - rewrite <- Q. unfold mvec. apply sigma_ext.
      intros c Hc. unfold left. rewrite Hm. destruct (Nat.ltb_spec i r); [lia|].
      destruct (Nat.ltb_spec c r), (Nat.ltb_spec c i), (Nat.ltb_spec c (S i)); simpl; try reflexivity; lia. }
  intros r Hrn.
  assert (Hs : (swapi i p r < n)%nat) by (apply swapi_lt; lia).
  pose proof (K _ Hs) as Q. rewrite swapi_inv in Q. rewrite <- Q. unfold mvec. apply sigma_ext.
  intros c Hc. f_equal. unfold left, m1, swap_rows. rewrite swapi_inv.
  destruct (Nat.ltb_spec c i) as [Hci|Hci].
  - destruct (Nat.le_gt_cases i r) as [Hri|Hri].
    + assert (i <= swapi i p r)%nat by (apply swapi_ge; lia).
      destruct (Nat.ltb_spec c r), (Nat.ltb_spec c (swapi i p r)); simpl; try reflexivity; lia.
    + rewrite swapi_fix by lia. reflexivity.
  - rewrite !andb_false_r. reflexivity.
Qed.

(** A reported singularity is never forgotten. *)
Lemma stage_res : forall n i (s : lu_state N), lu_res (lu_stage n i s) = 0%nat -> lu_res s = 0%nat.
Proof.
  intros n i s. unfold lu_stage. cbv zeta. cbn [lu_res].
  destruct (nneq (N := N) _ _); [auto|]. destruct (Nat.eqb_spec (lu_res s) 0); [auto|auto].
Qed.

Lemma stage_res_pivot : forall n i (s : lu_state N), lu_res (lu_stage n i s) = 0%nat ->
  lu_m s (pivot (N := N) n (lu_m s) i) i <> 0.
Proof.
  intros n i s. unfold lu_stage. cbv zeta. cbn [lu_res].
  destruct (nneq (N := N) _ _) eqn:E; [intros _; apply nneq_R; exact E|].
  destruct (Nat.eqb_spec (lu_res s) 0); intros H; [discriminate H|contradiction].
Qed.

Definition lu_inv (n i : nat) (A : mat) (s : lu_state N) : Prop :=
  (forall k, (i <= k < n)%nat -> lu_pm s k = k) /\
  (forall k, (k < i)%nat -> (k <= lu_pm s k < n)%nat) /\
  (forall k, (k < i)%nat -> lu_m s k k <> 0) /\
  (forall b x : v, (forall r, (r < n)%nat -> mvec n (left i (lu_m s)) x r =
       solve_lower (N := N) n (lu_m s) i (apply_pm (N := N) (lu_pm s) i b) r) ->
     solves n A x b).

Lemma lu_loop_inv : forall n (A : mat) pm i, (forall k, (k < n)%nat -> pm k = k) -> (i <= n)%nat ->
  let s := lu_loop (N := N) n i (mkLu (N := N) A pm 0) in
  lu_res s = 0%nat -> lu_inv n i A s.
Proof.
  intros n A pm i Hpm. induction i; intros Hi s Hres.
  - unfold s. cbn [lu_loop]. repeat split; try (intros; lia); cbn [lu_pm lu_m].
    + intros k Hk. apply Hpm; lia.
    + intros b x H r Hr. pose proof (H r Hr) as Q. cbn in Q. rewrite <- Q.
      unfold mvec. apply sigma_ext. intros c Hc. unfold left. rewrite andb_false_r. reflexivity.
  - unfold s in *. cbn [lu_loop] in *.
    set (s0 := lu_loop (N := N) n i (mkLu (N := N) A pm 0)) in *.
    pose proof (IHi (Nat.lt_le_incl _ _ Hi) (stage_res _ _ _ Hres)) as IV.
    destruct IV as (I1 & I2 & I3 & I4).
    pose proof (stage_res_pivot _ _ _ Hres) as Hp.
    destruct (pivot_spec n (lu_m s0) i Hi) as [Hr _].
    destruct (stage_pm n i s0 Hp (I1 i (conj (Nat.le_refl _) Hi))) as (P1 & P2 & _).
    pose proof (stage_entries n i s0 Hp) as Hm. cbv zeta in Hm.
    pose proof (fun x y => stage_solves n i s0 x y Hi Hp) as HS. cbv zeta in HS.
    set (p := pivot (N := N) n (lu_m s0) i) in *.
    set (s1 := lu_stage n i s0) in *.
    assert (D1 : lu_m s1 i i <> 0).
    { rewrite Hm, Nat.ltb_irrefl. unfold swap_rows, swapi. rewrite Nat.eqb_refl. exact Hp. }
    split; [|split; [|split]].
    + intros k Hk. rewrite P1 by lia. apply I1. lia.
    + intros k Hk. destruct (Nat.eq_dec k i) as [->|]; [rewrite P2; lia|]. rewrite P1 by lia. apply I2. lia.
    + intros k Hk. destruct (Nat.eq_dec k i) as [->|]; [exact D1|].
      rewrite Hm. destruct (Nat.ltb_spec i k); [lia|]. unfold swap_rows. rewrite swapi_fix by lia. apply I3. lia.
    + intros b x H. apply I4. apply HS. intros r Hrn. rewrite (H r Hrn). clear H.
      rewrite solve_lower_S.
      assert (E : forall q, solve_lower (N := N) n (lu_m s1) i (apply_pm (N := N) (lu_pm s1) (S i) b) q =
                  solve_lower (N := N) n (lu_m s0) i (apply_pm (N := N) (lu_pm s0) i b) (swapi i p q)).
      { intros q. rewrite <- (solve_lower_swap n (lu_m s0) i p i) by lia.
        rewrite (solve_lower_ext n (lu_m s1) (swap_rows (N := N) i p (lu_m s0))).
        - f_equal. cbn [apply_pm]. rewrite P2.
          rewrite (apply_pm_ext (lu_pm s1) (lu_pm s0)) by (intros j Hj; apply P1; lia).
          destruct (Nat.eqb_spec i p) as [E|E]; [|reflexivity].
          rewrite <- E. extensionality a. unfold swap_elems, swapi. destruct (Nat.eqb_spec a i); congruence.
        - intros r0 c Hc Hrc. rewrite Hm. destruct (Nat.ltb_spec i r0); [|reflexivity].
          destruct (Nat.eqb_spec c i); [lia|]. destruct (Nat.ltb_spec i c); [lia|]. reflexivity. }
      rewrite !E. replace (swapi i p i) with p by (unfold swapi; rewrite Nat.eqb_refl; reflexivity).
      destruct (Nat.ltb_spec r n); [|lia]. rewrite andb_true_r. reflexivity.
Qed.

(** ** lu_factorize and lu_substitute. *)
Definition pm_id (n : nat) (pm : nat -> nat) : Prop := forall k, (k < n)%nat -> pm k = k.

Theorem lu_solves : forall n (A : mat) pm (b : v), pm_id n pm ->
  lu_res (lu_factorize (N := N) n A pm) = 0%nat ->
  solves n A (lu_substitute (N := N) n (lu_m (lu_factorize (N := N) n A pm))
                (lu_pm (lu_factorize (N := N) n A pm)) b) b.
Proof.
  intros n A pm b Hpm Hres. unfold lu_factorize in *.
  destruct (lu_loop_inv n A pm n Hpm (Nat.le_refl _) Hres) as (_ & _ & D & S4).
  apply S4. intros r Hr. unfold lu_substitute.
  set (s := lu_loop (N := N) n n (mkLu (N := N) A pm 0)) in *.
  set (y := solve_lower (N := N) n (lu_m s) n (apply_pm (N := N) (lu_pm s) n b)).
  destruct (solve_upper_spec (lu_m s) n y D) as [H1 _].
  rewrite <- (H1 r Hr). unfold mvec. apply sigma_ext. intros c Hc. unfold left.
  destruct (Nat.ltb_spec c r), (Nat.ltb_spec c n); cbn [andb]; try lia; [ring|reflexivity].
Qed.

Lemma lu_loop_nonsingular : forall n (A : mat) pm, pm_id n pm -> nonsingular n A ->
  forall i, (i <= n)%nat -> lu_res (lu_loop (N := N) n i (mkLu (N := N) A pm 0)) = 0%nat.
Proof.
  intros n A pm Hpm HA. induction i; intros Hi; [reflexivity|].
  pose proof (IHi (Nat.lt_le_incl _ _ Hi)) as R0.
  destruct (lu_loop_inv n A pm i Hpm (Nat.lt_le_incl _ _ Hi) R0) as (I1 & I2 & I3 & I4).
  cbn [lu_loop]. set (s := lu_loop (N := N) n i (mkLu (N := N) A pm 0)) in *.
  destruct (pivot_spec n (lu_m s) i Hi) as [Hr Hz].
  destruct (Req_dec (lu_m s (pivot (N := N) n (lu_m s) i) i) 0) as [Z|Z].
  2:{ destruct (stage_pm n i s Z (I1 i (conj (Nat.le_refl _) Hi))) as (_ & _ & E). rewrite E. exact R0. }
  exfalso. pose proof (Hz Z) as Hcol.
  destruct (solve_upper_spec (lu_m s) i (fun r => - lu_m s r i) I3) as [H1 _].
  set (z := solve_upper (N := N) (lu_m s) i (fun r => - lu_m s r i)) in *.
  pose (x := fun c => if (c <? i)%nat then z c else if Nat.eqb c i then 1 else 0 : R).
  assert (Hx : solves n A x (fun _ => 0)).
  { apply I4. intros r Hrn.
    rewrite solve_lower_zero; [|intros q Hq; apply (apply_pm_zero (lu_pm s) n); auto; try lia|lia|exact Hrn].
    2:{ intros j Hj. destruct (Nat.le_gt_cases i j); [rewrite I1 by lia; lia|]. apply I2; lia. }
    assert (Split : forall k, (i < k <= n)%nat -> sigma k (fun c => left i (lu_m s) r c * x c) =
              sigma i (fun c => left i (lu_m s) r c * x c) + left i (lu_m s) r i * x i).
    { induction k; intros Hk; [lia|]. cbn [sigma]. destruct (Nat.eq_dec k i) as [->|]; [reflexivity|].
      rewrite IHk by lia. assert (Xk : x k = 0).
      { unfold x. destruct (Nat.ltb_spec k i); [lia|]. destruct (Nat.eqb_spec k i); [lia|reflexivity]. }
      rewrite Xk. lra. }
    unfold mvec. rewrite (Split n) by lia.
    assert (Xi : x i = 1) by (unfold x; rewrite Nat.ltb_irrefl, Nat.eqb_refl; reflexivity).
    rewrite Xi. destruct (Nat.le_gt_cases i r) as [Hir|Hir].
    - rewrite sigma_0.
      + unfold left. rewrite Nat.ltb_irrefl, andb_false_r, Hcol by lia. lra.
      + intros c Hc. unfold left. destruct (Nat.ltb_spec c r), (Nat.ltb_spec c i); cbn [andb]; try lia. lra.
    - rewrite (sigma_ext i _ (fun c => if (c <? r)%nat then 0 else lu_m s r c * z c)).
      + rewrite H1 by lia. unfold left. rewrite Nat.ltb_irrefl, andb_false_r. lra.
      + intros c Hc. unfold left, x. destruct (Nat.ltb_spec c i); [|lia].
        destruct (Nat.ltb_spec c r); cbn [andb]; [ring|reflexivity]. }
  pose proof (HA x Hx i Hi) as Q. unfold x in Q. rewrite Nat.ltb_irrefl, Nat.eqb_refl in Q. lra.
Qed.

Theorem lu_nonsingular : forall n (A : mat) pm, pm_id n pm -> nonsingular n A ->
  lu_res (lu_factorize (N := N) n A pm) = 0%nat.
Proof. intros n A pm H1 H2. apply lu_loop_nonsingular; auto. Qed.

Lemma lu_pm_range : forall n i (s : lu_state N), (i <= n)%nat ->
  (forall k, (k < n)%nat -> (lu_pm s k < n)%nat) ->
  forall k, (k < n)%nat -> (lu_pm (lu_loop n i s) k < n)%nat.
Proof.
  intros n i s. induction i; intros Hi H k Hk; [apply H; exact Hk|].
  cbn [lu_loop]. unfold lu_stage. cbv zeta. cbn [lu_pm].
  pose proof (IHi (Nat.lt_le_incl _ _ Hi) H) as Q.
  destruct (nneq (N := N) _ _); [|apply Q; exact Hk].
  destruct (Nat.eqb _ i); [apply Q; exact Hk|].
  destruct (Nat.eqb_spec k i); [|apply Q; exact Hk].
  destruct (pivot_spec n (lu_m (lu_loop n i s)) i Hi) as [Hr _]. lia.
Qed.

(** Whatever matrix is factorised: the solution for the zero right-hand side is zero. *)
Lemma lu_zero : forall n (m : mat) pm (b : v), (forall k, (k < n)%nat -> (pm k < n)%nat) ->
  veq n b (fun _ => 0) -> veq n (lu_substitute (N := N) n m pm b) (fun _ => 0).
Proof.
  intros n m pm b Hp Hb r Hr. unfold lu_substitute. apply solve_upper_zero; [|exact Hr].
  intros q Hq. apply solve_lower_zero; [|lia|exact Hq].
  intros q' Hq'. apply (apply_pm_zero pm n); auto.
Qed.

(** A solution of a nonsingular system is unique. *)
Lemma solves_unique : forall n (A : mat) (x y b : v), nonsingular n A ->
  solves n A x b -> solves n A y b -> veq n x y.
Proof.
  intros n A x y b HA Hx Hy r Hr.
  assert (Z : solves n A (fun c => x c - y c) (fun _ => 0)).
  { intros q Hq. unfold mvec.
    rewrite (sigma_ext n _ (fun c => A q c * x c + (-1) * (A q c * y c))) by (intros; ring).
    rewrite sigma_plus, sigma_scal. fold (mvec n A x q) (mvec n A y q). rewrite Hx, Hy by exact Hq. lra. }
  pose proof (HA _ Z r Hr) as Q. cbv beta in Q. lra.
Qed.
End LU.

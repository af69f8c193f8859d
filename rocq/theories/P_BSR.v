(** bulirsch_stoer over the reals: step size bounds, the try_step contract and
    termination of integrate_adaptive. *)
From Coq Require Import ZArith List Bool Arith Reals Lia Lra.
From Verif Require Import M_Num M_Sign M_Run M_Checker M_Controlled S_Grid M_RK M_CtrlRK M_Midpoint M_BS M_BSDense S_Real S_Ctrl S_CtrlRK S_Midpoint
  P_R P_Midpoint P_BS P_BSDense P_BSInd P_CtrlRKR P_CtrlTermRK P_CtrlTerm.
Import ListNotations.
Local Open Scope R_scope.

Lemma Rpower_root_inv x n : Rpower x (1 / INR n) = / Rpower x (-1 / INR n).
Proof. rewrite <- Rpower_Ropp. f_equal. unfold Rdiv. ring. Qed.
Lemma root_le1 x n : 0 < x <= 1 -> (0 < n)%nat -> x <= Rpower x (1 / INR n) <= 1.
Proof.
  intros Hx Hn. rewrite Rpower_root_inv. pose proof (Rpower_gt0 x (-1 / INR n)) as G. split.
  - assert (Rpower x (-1 / INR n) <= / x).
    { apply Rpower_root_le; [lra|apply Rinv_0_lt_compat; lra|exact Hn|].
      destruct n as [|n]; [lia|]. simpl. rewrite <- Rmult_assoc, Rinv_r, Rmult_1_l by lra.
      apply pow_R1_Rle. rewrite <- Rinv_1. apply Rinv_le_contravar; lra. }
    rewrite <- (Rinv_inv x) at 1. apply Rinv_le_contravar; lra.
  - assert (1 <= Rpower x (-1 / INR n)) by (apply Rpower_root_ge; [lra|lra|exact Hn|rewrite pow1; lra]).
    rewrite <- Rinv_1. apply Rinv_le_contravar; lra.
Qed.
Lemma root_ge1 x n : 1 <= x -> (0 < n)%nat -> 1 <= Rpower x (1 / INR n).
Proof.
  intros Hx Hn. rewrite Rpower_root_inv. pose proof (Rpower_gt0 x (-1 / INR n)) as G.
  assert (Rpower x (-1 / INR n) <= 1) by (apply Rpower_root_le; [lra|lra|exact Hn|rewrite pow1; lra]).
  rewrite <- Rinv_1. apply Rinv_le_contravar; lra.
Qed.
Lemma root_le x b n : 0 < x -> 0 < b -> (0 < n)%nat -> x <= b ^ n -> Rpower x (1 / INR n) <= b.
Proof.
  intros Hx Hb Hn H. rewrite Rpower_root_inv.
  assert (/ b <= Rpower x (-1 / INR n)).
  { apply Rpower_root_ge; [lra|now apply Rinv_0_lt_compat|exact Hn|]. rewrite pow_inv.
    pose proof (pow_lt b n Hb). apply Rmult_le_reg_r with (b ^ n); [lra|]. rewrite Rmult_assoc, Rinv_l by lra. lra. }
  rewrite <- (Rinv_inv b). apply Rinv_le_contravar; [now apply Rinv_0_lt_compat|assumption].
Qed.

Section R.
Variable eps : R.
Notation NN := (RNum eps).
Variable dense : bool.

Definition fm (k : nat) : R := Rpower (2 / 100) (1 / INR (2 * k + 1)).
Lemma fm_bounds k : 2 / 100 <= fm k <= 1.
Proof. unfold fm. apply root_le1; [lra|lia]. Qed.

Definition root_of (k : nat) : nat := if dense then bsd_seq (k - 1) else (2 * k + 1)%nat.
Definition hfac (e : R) (k : nat) : R :=
  if Req_EM_T e 0 then 1 / fm k
  else Rmax (fm k / 4) (Rmin (1 / fm k) (94 / 100 / rpow (e / (65 / 100)) (1 / INR (root_of k)))).

Lemma calc_R dt e k : (1 <= k <= 8)%nat -> calc_h_opt (N := NN) rpow dense dt e k = Ok (dt * hfac e k).
Proof.
  intro Hk. unfold calc_h_opt.
  assert (Ef : facmin (N := NN) rpow k = fm k).
  { unfold facmin, fm. rewrite nofnat_R. cbn [ndiv nofZ RNum stepfac3]. apply rpow_pos. unfold stepfac3. cbn. lra. }
  assert (E : (if dense then rbind (vget (bs_seqs (seq_of dense)) (k - 1)) (fun s => Ok (ndiv (nofZ 1) (@nofnat NN s)))
               else Ok (ndiv (nofZ 1) (@nofnat NN (2 * k + 1)))) = Ok (1 / INR (root_of k) : NN)).
  { unfold root_of. destruct dense; cbn [seq_of].
    - rewrite (vget_nth _ _ _ (bs_seqs_nth bsd_seq (k - 1) ltac:(lia))). cbn [rbind]. now rewrite nofnat_R.
    - now rewrite nofnat_R. }
  rewrite E. cbn [rbind]. unfold facmins, k_max.
  rewrite (vget_nth _ _ (facmin (N := NN) rpow k)) by (apply nth_error_map_seq; lia). cbn [rbind]. rewrite Ef.
  f_equal. cbn [nmul RNum]. f_equal. unfold hfac.
  destruct (@nneq NN e (nofZ 0)) eqn:En; cbn [negb].
  - apply nneq_R in En. destruct (Req_EM_T e 0) as [->|_]; [now destruct En|]. rewrite nmax_R, nmin_R. reflexivity.
  - apply nneq_R_false in En. destruct (Req_EM_T e 0) as [_|Q]; [reflexivity|]. now destruct Q.
Qed.

Lemma root_of_pos k : (1 <= k)%nat -> (0 < root_of k)%nat.
Proof. unfold root_of, bsd_seq. destruct dense; lia. Qed.
Lemma inv_fm k : 1 <= 1 / fm k.
Proof.
  pose proof (fm_bounds k) as F. unfold Rdiv. rewrite Rmult_1_l, <- Rinv_1. apply Rinv_le_contravar; lra.
Qed.

Lemma hfac_lower e k : 1 / 200 <= hfac e k.
Proof.
  pose proof (fm_bounds k) as F. pose proof (inv_fm k). unfold hfac. destruct (Req_EM_T e 0); [lra|].
  eapply Rle_trans; [|apply Rmax_l]. lra.
Qed.
Lemma hfac_reject e k : (1 <= k)%nat -> 1 <= e -> hfac e k <= 94 / 100.
Proof.
  intros Hk He. pose proof (fm_bounds k) as F. unfold hfac. destruct (Req_EM_T e 0); [lra|].
  apply Rmax_lub; [lra|]. eapply Rle_trans; [apply Rmin_r|]. rewrite rpow_pos by lra.
  pose proof (root_ge1 (e / (65 / 100)) (root_of k) ltac:(lra) (root_of_pos k Hk)) as G.
  set (r := Rpower _ _) in *. unfold Rdiv at 1.
  assert (/ r <= 1) by (rewrite <- Rinv_1; apply Rinv_le_contravar; lra). lra.
Qed.
Lemma hfac_small e k : dense = false -> (1 <= k <= 8)%nat -> 0 <= e <= 2 / 10 -> 1 <= hfac e k.
Proof.
  intros Hd Hk He. pose proof (inv_fm k) as F. unfold hfac. destruct (Req_EM_T e 0); [exact F|].
  eapply Rle_trans; [|apply Rmax_r]. apply Rmin_glb; [exact F|]. rewrite rpow_pos by lra.
  pose proof (Rpower_gt0 (e / (65 / 100)) (1 / INR (root_of k))) as G.
  assert (L : Rpower (e / (65 / 100)) (1 / INR (root_of k)) <= 94 / 100).
  { apply root_le; [lra|lra|apply root_of_pos; lia|].
    unfold root_of. rewrite Hd.
    assert (Hc : (k = 1 \/ k = 2 \/ k = 3 \/ k = 4 \/ k = 5 \/ k = 6 \/ k = 7 \/ k = 8)%nat) by lia.
    destruct Hc as [->|[->|[->|[->|[->|[->|[->| ->]]]]]]]; simpl; lra. }
  set (r := Rpower _ _) in *. clearbody r. apply Rmult_le_reg_r with r; [lra|].
  replace (94 / 100 / r * r) with (94 / 100) by (field; lra). lra.
Qed.

Lemma bs_cost_mono a b : (b <= a)%nat -> (bs_cost (seq_of dense) b <= bs_cost (seq_of dense) a)%nat.
Proof. induction 1; [lia|]. simpl. lia. Qed.
Lemma bs_cost_pos a : (0 < bs_cost (seq_of dense) a)%nat.
Proof. induction a; unfold seq_of in *; destruct dense; simpl; unfold bs_seq, bsd_seq in *; lia. Qed.

(** Scaling by the cost ratio keeps the direction and never shortens. *)
Lemma scaled_R (h h' : R) : scaled (N := NN) dense h h' -> exists c, 1 <= c /\ h' = h * c.
Proof.
  intros [->|(a & b & Hb & Ha & E)]; [exists 1; lra|].
  unfold cost_ratio in E.
  rewrite (vget_nth _ _ _ (bs_costs_nth (seq_of dense) a Ha)), (vget_nth _ _ _ (bs_costs_nth (seq_of dense) b ltac:(lia))) in E.
  cbn [rbind] in E. rewrite !(nofnat_R eps) in E. injection E as E.
  exists (INR (bs_cost (seq_of dense) a) / INR (bs_cost (seq_of dense) b)).
  pose proof (lt_0_INR _ (bs_cost_pos b)). pose proof (le_INR _ _ (bs_cost_mono a b ltac:(lia))). split.
  - apply Rmult_le_reg_r with (INR (bs_cost (seq_of dense) b)); [lra|].
    unfold Rdiv. rewrite Rmult_assoc, Rinv_l by lra. lra.
  - rewrite <- E. destruct dense; cbn [nmul ndiv RNum]; unfold Rdiv; ring.
Qed.
End R.

(** *** try_step *)
Section BS.
Variable eps : R.
Hypothesis Heps : 0 <= eps.
Notation NN := (RNum eps).
Context {I : Type}.
Variable idx : list I.
Variable sys : (I -> R) -> R -> (I -> R).
Variable cfg : err_cfg NN.

(** Step sizes without a step limit. *)
Lemma core_R s x dx t dt s' t' out dt' ok : dt <> 0 ->
  core_post (N := NN) idx rpow sys cfg 0%R s x dx t dt s' t' out dt' ok ->
  let err := bs_err (N := NN) idx sys cfg x dx t dt in
  (if (ok : bool) then t' = t + dt /\ exists k, (1 <= k <= 8)%nat /\ err k < 1 /\ out = bs_T (N := NN) sys x dx t dt k k else t' = t) /\
  exists j c, (1 <= j <= 8)%nat /\ 1 <= c /\ (ok = false -> c = 1 /\ 1 <= err j) /\
    (dt' = dt * (hfac false (err j) j * c) \/ dt' = dt /\ bs_lastrej s = true /\ dir dt * (dt - dt * (hfac false (err j) j * c)) <= eps).
Proof.
  intros Hd H err. unfold core_post in H.
  assert (L0 : @limits NN 0%R = false) by (unfold limits; apply nneq_R_false; reflexivity).
  rewrite L0 in H. cbn [andb] in H. destruct H as [[H _]|(_ & _ & Ht & _ & new_h & lr & Hdt & Hlr & H)]; [discriminate|].
  split.
  - destruct ok; [|exact Ht]. split; [exact Ht|]. destruct H as [(k & Hk & He & Ho) _]. exists k. split; [exact Hk|]. split; [|exact Ho].
    apply Rltb_true in He. exact He.
  - assert (Q : exists j c, (1 <= j <= 8)%nat /\ 1 <= c /\ (ok = false -> c = 1 /\ 1 <= err j) /\ new_h = dt * (hfac false (err j) j * c)).
    { destruct ok.
      + destruct H as [_ (j & h0 & Hj & Ec & Sc)]. rewrite calc_R in Ec by exact Hj. injection Ec as <-.
        destruct (scaled_R eps false _ _ Sc) as (c & Hc & E). exists j, c. split; [exact Hj|]. split; [exact Hc|]. split; [discriminate|].
        rewrite <- Rmult_assoc. exact E.
      + destruct H as (j & Hj & He & Ec). rewrite calc_R in Ec by exact Hj. injection Ec as <-.
        exists j, 1. split; [exact Hj|]. split; [lra|]. rewrite Rmult_1_r. split; [|reflexivity].
        intros _. split; [reflexivity|]. apply Rltb_false in He. exact He. }
    destruct Q as (j & c & Hj & Hc & Hr & Eh). exists j, c. split; [exact Hj|]. split; [exact Hc|]. split; [exact Hr|].
    rewrite <- Eh. destruct (negb lr || less_with_sign new_h dt dt) eqn:Eu.
    + left. exact Hdt.
    + right. apply orb_false_iff in Eu. destruct Eu as [Eu El]. apply less_R_false in El. split; [exact Hdt|]. split; [|exact El].
      apply Hlr. now destruct lr.
Qed.

(** The object after its constructor and any calls, together with a call counter
    ([rs n]: what the resizer answers in call [n]); try_step is total on it. *)
Definition bs_live : Type := ({s : bs NN I | bs_inv s} * nat)%type.
Variable rs : nat -> bool.
Lemma bs_live_inv (s : {s : bs NN I | bs_inv s}) n x t dt s' x' t' dt' ok :
  bs_try (N := NN) idx rpow sys cfg 0%R (proj1_sig s) (rs n) x t dt = Ok (s', x', t', dt', ok) -> bs_inv s'.
Proof.
  intro E. destruct (bs_try_ok (N := NN) idx rpow sys cfg 0%R (proj1_sig s) (rs n) x t dt (proj2_sig s)) as (a & b & c & d & e & E2 & H & _).
  pose proof (eq_trans (eq_sym E) E2) as Q. injection Q as -> _ _ _ _. exact H.
Qed.
Lemma bs_live_ok (s : {s : bs NN I | bs_inv s}) n x t dt :
  exists r, bs_try (N := NN) idx rpow sys cfg 0%R (proj1_sig s) (rs n) x t dt = Ok r.
Proof. destruct (bs_try_ok (N := NN) idx rpow sys cfg 0%R (proj1_sig s) (rs n) x t dt (proj2_sig s)) as (a & b & c & d & e & E & _). eauto. Qed.

Definition bs_live_pack (s : {s : bs NN I | bs_inv s}) (n : nat) (x : I -> R) (t dt : R) (r : res (bs NN I * (I -> R) * R * R * bool)) :
  bs_try (N := NN) idx rpow sys cfg 0%R (proj1_sig s) (rs n) x t dt = r -> bs_live * (I -> R) * R * R * bool :=
  match r with
  | Ok (s', x', t', dt', ok) => fun E => ((exist _ s' (bs_live_inv s n x t dt s' x' t' dt' ok E), S n), x', t', dt', ok)
  | _ => fun _ => ((s, n), x, t, dt, false)
  end.
Definition bs_live_try (l : bs_live) (x : I -> R) (t dt : R) : bs_live * (I -> R) * R * R * bool :=
  bs_live_pack (fst l) (snd l) x t dt _ eq_refl.
Lemma bs_live_spec l x t dt l' x' t' dt' ok : bs_live_try l x t dt = (l', x', t', dt', ok) ->
  bs_try (N := NN) idx rpow sys cfg 0%R (proj1_sig (fst l)) (rs (snd l)) x t dt = Ok (proj1_sig (fst l'), x', t', dt', ok) /\ snd l' = S (snd l).
Proof.
  destruct l as [s n]. unfold bs_live_try. cbn [fst snd].
  destruct (bs_live_ok s n x t dt) as [[[[[a b] c] d] e] E].
  assert (G : forall r (Q : bs_try (N := NN) idx rpow sys cfg 0%R (proj1_sig s) (rs n) x t dt = r), r = Ok (a, b, c, d, e) ->
    bs_live_pack s n x t dt r Q = (l', x', t', dt', ok) ->
    Ok (a, b, c, d, e) = Ok (proj1_sig (fst l'), x', t', dt', ok) /\ snd l' = S n).
  { intros r Q Er. destruct r as [p| | |]; try discriminate. injection Er as ->. intro H. unfold bs_live_pack in H. injection H as <- <- <- <- <-. cbn. auto. }
  intro H. destruct (G _ eq_refl E H) as [H1 H2]. split; [|exact H2]. congruence.
Qed.

(** The try_step contract. *)
Lemma bs_contract : try_contract bs_live_try.
Proof.
  intros l x t dt Hd. destruct (bs_live_try l x t dt) as [[[[l' x'] t'] dt'] ok] eqn:E.
  apply bs_live_spec in E. destruct E as [E _].
  destruct (bs_try_ok (N := NN) idx rpow sys cfg 0%R (proj1_sig (fst l)) (rs (snd l)) x t dt (proj2_sig (fst l)))
    as (a & b & c & d & e & E2 & _ & out & Cp & Ex).
  pose proof (eq_trans (eq_sym E) E2) as Q. injection Q as _ -> -> -> ->. clear E E2.
  destruct (core_R _ _ _ _ _ _ _ _ _ _ Hd Cp) as (Ht & j & k & Hj & Hk & Hr & Hdt).
  set (err := bs_err (N := NN) idx sys cfg x (sys x t) t dt) in *.
  pose proof (hfac_lower false (err j) j) as Hl. pose proof (Rabs_pos_lt dt Hd) as Pd. pose proof (dir_abs dt) as Da.
  set (q := hfac false (err j) j) in *.
  assert (P : 0 < q * k) by (apply Rmult_lt_0_compat; lra).
  assert (D : 0 < dir dt * d).
  { destruct Hdt as [->|[-> _]]; [|lra]. replace (dir dt * (dt * (q * k))) with (dir dt * dt * (q * k)) by ring.
    apply Rmult_lt_0_compat; lra. }
  destruct e.
  - destruct Ht as [Ht _]. auto.
  - destruct (Hr eq_refl) as [-> He]. split; [exact Ex|]. split; [exact Ht|]. split; [exact D|].
    pose proof (hfac_reject false (err j) j ltac:(lia) He) as Hh. fold q in Hh.
    destruct Hdt as [->|[-> _]]; [|lra].
    replace (dir dt * (dt * (q * 1))) with (dir dt * dt * q) by ring. rewrite Da. nra.
Qed.

(** *** Bounded right-hand sides *)
Hypothesis Htol : good_tol (eps_abs cfg) (eps_rel cfg) (a_x cfg) (a_dxdt cfg).
Variable B : R.
Hypothesis HB : forall x t i, Rabs (sys x t i) <= B.
Hypothesis HB0 : 0 < B.

Lemma gz_bound x dx t h : (forall i, Rabs (dx i) <= B) -> forall m i,
  Rabs (gz (N := NN) sys x dx t h m i - x i) <= INR m * (Rabs h * B)
  /\ Rabs (gz (N := NN) sys x dx t h (S m) i - x i) <= INR (S m) * (Rabs h * B).
Proof.
  intros Hdx. pose proof (Rabs_pos h) as Ph. induction m as [|m IH]; intro i.
  - split.
    + unfold gz. cbn [gpair fst]. rewrite Rminus_eq_0, Rabs_R0. simpl. nra.
    + unfold gz. cbn [gpair fst]. cbn [nadd nmul nofZ RNum].
      replace (1 * x i + h * dx i - x i) with (h * dx i) by ring. rewrite Rabs_mult. specialize (Hdx i). simpl. nra.
  - destruct (IH i) as [I1 I2]. split; [exact I2|]. rewrite gz_SS. cbn [nadd nmul nofZ RNum].
    set (z := gz (N := NN) sys x dx t h m i) in *.
    set (g := sys (gz (N := NN) sys x dx t h (S m)) (gth (N := NN) t h (S m)) i).
    assert (Hg : Rabs g <= B) by apply HB.
    replace (1 * z + 2 * h * g - x i) with ((z - x i) + 2 * h * g) by ring.
    eapply Rle_trans; [apply Rabs_triang|]. rewrite !Rabs_mult, (Rabs_right 2) by lra. rewrite !S_INR. nra.
Qed.

Lemma mm_bound n x dx t dt : (1 <= n)%nat -> (forall i, Rabs (dx i) <= B) -> forall i,
  Rabs (mm_val (N := NN) sys n x dx t dt i - x i) <= Rabs dt * B.
Proof.
  intros Hn Hdx i. unfold mm_val, smoothed. cbn [nadd nmul ndiv nofZ RNum]. rewrite nofnat_R.
  assert (Pn : 0 < INR n) by (apply lt_0_INR; lia).
  set (h := dt / INR n).
  pose proof (gz_bound x dx t h Hdx (n - 1) i) as [G1 G2]. replace (S (n - 1)) with n in G2 by lia.
  set (z1 := gz (N := NN) sys x dx t h (n - 1) i) in *. set (z2 := gz (N := NN) sys x dx t h n i) in *.
  set (g := sys (gz (N := NN) sys x dx t h n) (gth (N := NN) t h n) i).
  assert (Hg : Rabs g <= B) by apply HB.
  replace (1 / 2 * z1 + 1 / 2 * z2 + 1 / 2 * h * g - x i) with (1 / 2 * ((z1 - x i) + ((z2 - x i) + h * g))) by field.
  rewrite Rabs_mult, (Rabs_right (1 / 2)) by lra.
  pose proof (Rabs_triang (z1 - x i) ((z2 - x i) + h * g)). pose proof (Rabs_triang (z2 - x i) (h * g)) as T2.
  rewrite Rabs_mult in T2.
  assert (Eh : Rabs dt = INR n * Rabs h).
  { subst h. unfold Rdiv. rewrite Rabs_mult, Rabs_inv, (Rabs_right (INR n)) by lra. field. lra. }
  assert (En : INR n = INR (n - 1) + 1) by (rewrite <- S_INR; f_equal; lia).
  pose proof (Rabs_pos h). rewrite Eh. set (a := INR (n - 1)) in *. rewrite En in *. nra.
Qed.

Lemma coeff_bound k j : (j < k <= 8)%nat -> 0 <= ex_coeff (N := NN) bs_seq k j <= 4.
Proof.
  intro H. unfold ex_coeff. rewrite !nofnat_R. cbn [nadd nsub nmul ndiv nofZ RNum].
  set (r := INR (bs_seq k) / INR (bs_seq j)).
  assert (P : 0 < INR (bs_seq j)) by (apply lt_0_INR; unfold bs_seq; lia).
  assert (Hr : 9 / 8 <= r).
  { subst r. apply Rmult_le_reg_r with (INR (bs_seq j)); [exact P|]. unfold Rdiv at 2. rewrite Rmult_assoc, Rinv_l, Rmult_1_r by lra.
    assert (INR 9 * INR (bs_seq j) <= INR 8 * INR (bs_seq k)).
    { rewrite <- !mult_INR. apply le_INR. unfold bs_seq. lia. }
    simpl in H0. simpl. lra. }
  clearbody r. assert (1 / 4 <= r * r - 1) by nra.
  split.
  - unfold Rdiv. rewrite Rmult_1_l. left. apply Rinv_0_lt_compat. lra.
  - apply Rmult_le_reg_r with (r * r - 1); [lra|]. unfold Rdiv. rewrite Rmult_assoc, Rinv_l by lra. lra.
Qed.

Lemma T_bound x dx t dt : (forall i, Rabs (dx i) <= B) -> forall m k i, (m <= k <= 8)%nat ->
  Rabs (bs_T (N := NN) sys x dx t dt k m i - x i) <= 9 ^ m * (Rabs dt * B).
Proof.
  intros Hdx. assert (P : 0 <= Rabs dt * B) by (apply Rmult_le_pos; [apply Rabs_pos|lra]).
  induction m as [|m IH]; intros k i Hk.
  - unfold bs_T. cbn [nev]. rewrite pow_O, Rmult_1_l. apply mm_bound; [unfold bs_seq; lia|exact Hdx].
  - unfold bs_T. cbn [nev]. unfold ex_comb. cbn [scale_sum fold_left fst snd]. cbn [nadd nmul nopp nofZ RNum].
    fold (bs_T (N := NN) sys x dx t dt).
    pose proof (coeff_bound k (k - 1 - m) ltac:(lia)) as Hc. set (c := ex_coeff (N := NN) bs_seq k (k - 1 - m)) in *.
    pose proof (IH k i ltac:(lia)) as A. pose proof (IH (k - 1)%nat i ltac:(lia)) as A2.
    set (a := bs_T (N := NN) sys x dx t dt k m i) in *. set (b := bs_T (N := NN) sys x dx t dt (k - 1) m i) in *.
    replace ((1 + c) * a + - c * b - x i) with ((1 + c) * (a - x i) + - (c * (b - x i))) by ring.
    eapply Rle_trans; [apply Rabs_triang|]. rewrite Rabs_Ropp, !Rabs_mult, (Rabs_right (1 + c)), (Rabs_right c) by lra.
    simpl (9 ^ S m). set (Mm := 9 ^ m * (Rabs dt * B)) in *.
    replace (9 * 9 ^ m * (Rabs dt * B)) with (9 * Mm) by (unfold Mm; ring).
    pose proof (Rabs_pos (a - x i)). pose proof (Rabs_pos (b - x i)). nra.
Qed.

Definition bs_C : R := 2 * 9 ^ 8 * B.

Lemma err_bound x t dt k : (1 <= k <= 8)%nat ->
  0 <= bs_err (N := NN) idx sys cfg x (sys x t) t dt k <= Rabs dt * bs_C / eps_abs cfg.
Proof.
  intro Hk. unfold bs_err, err_of. split; [apply norm_inf_nonneg|].
  apply error_small; [exact Htol| |].
  - apply Rmult_le_pos; [apply Rabs_pos|]. unfold bs_C. simpl. lra.
  - intros i _. cbn [scale_sum fold_left fst snd]. cbn [nadd nmul nopp nofZ RNum].
    pose proof (T_bound x (sys x t) t dt (HB x t) k k i ltac:(lia)) as A.
    pose proof (T_bound x (sys x t) t dt (HB x t) (k - 1) k i ltac:(lia)) as A2.
    set (a := bs_T (N := NN) sys x (sys x t) t dt k k i) in *. set (b := bs_T (N := NN) sys x (sys x t) t dt k (k - 1) i) in *.
    replace (1 * a + - (1) * b) with ((a - x i) + - (b - x i)) by ring.
    eapply Rle_trans; [apply Rabs_triang|]. rewrite Rabs_Ropp.
    assert (P : 0 <= Rabs dt * B) by (apply Rmult_le_pos; [apply Rabs_pos|lra]).
    assert (Q1 : 9 ^ k <= 9 ^ 8) by (apply Rle_pow; [lra|lia]).
    assert (Q2 : 9 ^ (k - 1) <= 9 ^ 8) by (apply Rle_pow; [lra|lia]).
    unfold bs_C. set (K := 9 ^ 8) in *. nra.
Qed.

Definition bs_h : R := 2 / 10 * eps_abs cfg / bs_C.
Lemma bs_C_pos : 0 < bs_C.
Proof. unfold bs_C. simpl. lra. Qed.
Lemma bs_h_pos : 0 < bs_h.
Proof. unfold bs_h. destruct Htol as [H _]. apply Rdiv_lt_0_compat; [lra|apply bs_C_pos]. Qed.

Lemma err_small x t dt k : (1 <= k <= 8)%nat -> Rabs dt <= bs_h ->
  0 <= bs_err (N := NN) idx sys cfg x (sys x t) t dt k <= 2 / 10.
Proof.
  intros Hk Hd. destruct (err_bound x t dt k Hk) as [E1 E2]. split; [exact E1|]. eapply Rle_trans; [exact E2|].
  pose proof bs_C_pos as C. destruct Htol as [Ht _].
  apply Rmult_le_reg_r with (eps_abs cfg); [exact Ht|].
  replace (Rabs dt * bs_C / eps_abs cfg * eps_abs cfg) with (Rabs dt * bs_C) by (field; lra).
  replace (2 / 10 * eps_abs cfg) with (bs_h * bs_C) by (unfold bs_h; field; lra).
  apply Rmult_le_compat_r; lra.
Qed.

Lemma bs_step_term : eps < 6 / 100 * bs_h -> forall l x t dt, dt <> 0 ->
  let '(l', x', t', dt', ok) := bs_live_try l x t dt in
  0 < dir dt * dt' /\ (Rabs dt <= bs_h -> ok = true) /\
  (if ok : bool then t' = t + dt /\ Rmin (Rabs dt) (1 / 200 * bs_h) <= Rabs dt'
   else x' = x /\ t' = t /\ 1 / 200 * Rabs dt <= Rabs dt' <= 94 / 100 * Rabs dt).
Proof.
  intros He l x t dt Hd. pose proof (bs_contract l x t dt Hd) as HC.
  destruct (bs_live_try l x t dt) as [[[[l' x'] t'] dt'] ok] eqn:E.
  apply bs_live_spec in E. destruct E as [E _].
  destruct (bs_try_ok (N := NN) idx rpow sys cfg 0%R (proj1_sig (fst l)) (rs (snd l)) x t dt (proj2_sig (fst l)))
    as (a & b & c & d & e & E2 & _ & out & Cp & Ex).
  pose proof (eq_trans (eq_sym E) E2) as Q. injection Q as _ -> -> -> ->. clear E E2.
  destruct (core_R _ _ _ _ _ _ _ _ _ _ Hd Cp) as (Ht & j & k & Hj & Hk & Hr & Hdt).
  pose proof (err_small x t dt j Hj) as Hs.
  set (err := bs_err (N := NN) idx sys cfg x (sys x t) t dt) in *. clearbody err.
  pose proof (hfac_lower false (err j) j) as Hl. pose proof (Rabs_pos_lt dt Hd) as Pd. pose proof (dir_abs dt) as Da.
  assert (D : 0 < dir dt * d) by (destruct e; tauto).
  assert (Sm : Rabs dt <= bs_h -> e = true).
  { intro L. destruct e; [reflexivity|]. destruct (Hr eq_refl) as [_ Q]. specialize (Hs L). lra. }
  split; [exact D|]. split; [exact Sm|].
  set (q := hfac false (err j) j) in *.
  assert (Ad : Rabs (dt * (q * k)) = Rabs dt * (q * k)) by (rewrite Rabs_mult, (Rabs_right (q * k)) by nra; reflexivity).
  pose proof bs_h_pos as Ph.
  destruct e.
  - split; [tauto|]. destruct Hdt as [->|[-> _]]; [|apply Rmin_l]. rewrite Ad.
    destruct (Rle_lt_dec (Rabs dt) bs_h) as [L|L].
    + eapply Rle_trans; [apply Rmin_l|].
      pose proof (hfac_small false (err j) j eq_refl Hj (Hs L)) as Q. fold q in Q.
      assert (1 <= q * k) by nra. nra.
    + eapply Rle_trans; [apply Rmin_r|]. assert (1 / 200 <= q * k) by nra. nra.
  - destruct (Hr eq_refl) as [-> Q]. split; [tauto|]. split; [tauto|].
    pose proof (hfac_reject false (err j) j ltac:(lia) Q) as Hh. fold q in Hh.
    assert (L : bs_h < Rabs dt) by (destruct (Rle_lt_dec (Rabs dt) bs_h) as [L|L]; [discriminate (Sm L)|exact L]).
    destruct Hdt as [->|(-> & _ & Hn)].
    + rewrite Ad, Rmult_1_r. nra.
    + exfalso. replace (dir dt * (dt - dt * (q * 1))) with (dir dt * dt * (1 - q)) in Hn by ring. rewrite Da in Hn. nra.
Qed.

Lemma bs_terminates {W : Type} (obs : W -> (I -> R) -> R -> M (ev (I -> R) R) W) :
  (forall w x t, exists tr w', obs w x t = (tr, Ok w')) -> eps < 6 / 100 * bs_h ->
  forall l w x t0 tend dt, dt <> 0 -> 0 <= dir dt * (tend - t0) ->
  (94 / 100) ^ 499 * (Rabs (tend - t0) + eps) <= bs_h ->
  forall k fuel, Rabs (tend - t0) <= INR k * Rmin (Rabs dt) (1 / 200 * bs_h) + eps -> (k < fuel)%nat ->
  exists tr l' w' x' t' dt' steps,
   integrate_adaptive_ctrl (N := NN) (ctrl_step bs_live_try) obs fuel l w x t0 tend dt
   = (tr, Ok (l', w', x', t', dt', steps)) /\ Rabs (tend - t') <= eps /\ (steps <= k)%nat.
Proof.
  intros Hobs He l w x t0 tend dt Hd Hs HL k fuel Hk Hf. pose proof bs_h_pos as Ph.
  assert (Ab : Rabs (tend - t0) = dir dt * (tend - t0)).
  { destruct (dir_cases dt) as [[_ E]|[_ E]]; rewrite E in *; [rewrite Rabs_right; lra|rewrite Rabs_left1; lra]. }
  pose proof (Rabs_pos_lt dt Hd) as Pd.
  destruct (ia_loop_term (W := W) eps Heps bs_live_try (fun _ _ _ => True) (1 / 200) (94 / 100) bs_h ltac:(lra) ltac:(lra) t0 tend (dir dt))
    with (obs := obs) (m := Rmin (Rabs dt) (1 / 200 * bs_h))
      (L := Rabs (tend - t0)) (n := k) (fuel := fuel) (s := l) (w := w) (x := x) (t := t0) (dt := dt) (count := 0%nat)
    as (tr & c' & w' & x' & t' & dt' & steps & E & Q1 & Q2); auto.
  - intros s x1 t dt1 _ Hd1 _. pose proof (bs_step_term He s x1 t dt1 Hd1) as G.
    destruct (bs_live_try s x1 t dt1) as [[[[s' x'] t'] dt'] ok]. tauto.
  - lra.
  - split; [apply Rmin_glb_lt; lra|apply Rmin_r].
  - rewrite Rminus_diag_eq, Rmult_0_r by reflexivity. lra.
  - lra.
  - lra.
  - apply Rmin_l.
  - exists tr, c', w', x', t', dt', steps. split; [exact E|]. split; [exact Q1|lia].
Qed.
End BS.

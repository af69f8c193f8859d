(** The named Runge-Kutta steppers: tableaux, orders, embedded methods, dense
    output of dopri5. *)
From Coq Require Import ZArith List Bool Lia Arith Reals Lra QArith Qreals FunctionalExtensionality.
From Verif Require Import M_Num M_RK S_RK P_RK P_RKR P_Trees P_RKLin P_Poly P_RKOrder.
Import ListNotations.
Local Open Scope R_scope.

Ltac wf_tab :=
  constructor; try reflexivity;
  let s := fresh "s" in let row := fresh "row" in let H := fresh "H" in
  intros s row H;
  repeat first [ solve [destruct s; discriminate H] | destruct s as [|s]; [inversion H; reflexivity|] ].

Lemma wf_euler : forall N, wf_tableau (euler_tab (N := N)).
Proof. intro N. wf_tab. Qed.
Lemma wf_rk4 : forall N, wf_tableau (rk4_tab (N := N)).
Proof. intro N. wf_tab. Qed.
Lemma wf_ck54 : forall N, wf_tableau (ck54_tab (N := N)).
Proof. intro N. wf_tab. Qed.
Lemma wf_f78 : forall N, wf_tableau (f78_tab (N := N)).
Proof. intro N. wf_tab. Qed.
Lemma wf_dopri5 : forall N, wf_tableau (dopri5_tab7 (N := N)).
Proof. intro N. wf_tab. Qed.

Lemma Q2R_frac : forall p q : Z, q <> 0%Z -> Q2R (nfrac (N := QNum 0) p q) = IZR p / IZR q.
Proof.
  intros p q Hq. unfold nfrac. cbn [ndiv nofZ QNum].
  rewrite (Qeq_eqR _ _ (Qred_correct _)). unfold Qdiv. rewrite Q2R_mult, Q2R_inv.
  - unfold Q2R; simpl. field. now apply not_0_IZR.
  - unfold Qeq; simpl. lia.
Qed.
Lemma Q2R_int : forall p : Z, Q2R (nofZ (n := QNum 0) p) = IZR p.
Proof. intros. simpl. unfold Q2R; simpl. field. Qed.
Lemma Q2R_sub : forall a b, Q2R (nsub (n := QNum 0) a b) = Q2R a - Q2R b.
Proof.
  intros. cbn [nsub QNum]. rewrite (Qeq_eqR _ _ (Qred_correct _)). apply Q2R_minus.
Qed.

Ltac twin_tab :=
  repeat split; cbn [tab_a tab_b tab_c tab_b2 rk4_tab ck54_tab f78_tab dopri5_tab7 euler_tab map];
  rewrite ?Q2R_sub, ?Q2R_int, ?Q2R_frac by discriminate; reflexivity.

Lemma twin_euler : forall eps, twin eps euler_tab euler_tab. Proof. intro. twin_tab. Qed.
Lemma twin_rk4 : forall eps, twin eps rk4_tab rk4_tab. Proof. intro. twin_tab. Qed.
Lemma twin_ck54 : forall eps, twin eps ck54_tab ck54_tab. Proof. intro. twin_tab. Qed.
Lemma twin_f78 : forall eps, twin eps f78_tab f78_tab. Proof. intro. twin_tab. Qed.
Lemma twin_dopri5 : forall eps, twin eps dopri5_tab7 dopri5_tab7. Proof. intro. twin_tab. Qed.

(** Weights of the second method of an embedded pair. *)
Definition vsub (a b : list Q) : list Q := map (fun p => (fst p - snd p)%Q) (combine a b).
Definition embedded (tq : tableau (QNum 0)) : list Q := vsub (tab_b tq) (tab_b2 tq).

Definition order_of (tq : tableau (QNum 0)) (b : list Q) (p : nat) : Prop :=
  has_order ([] :: tab_a tq) b (tab_c tq) p.

Lemma euler_order : order_of euler_tab (tab_b (euler_tab : tableau QQ)) 1.
Proof. apply check_method_sound. vm_compute. reflexivity. Qed.
Lemma rk4_order : order_of rk4_tab (tab_b (rk4_tab : tableau QQ)) 4.
Proof. apply check_method_sound. exact rk4_check. Qed.
Lemma ck54_order : order_of ck54_tab (tab_b (ck54_tab : tableau QQ)) 5.
Proof. apply check_method_sound. exact ck54_check. Qed.
Lemma f78_order : order_of f78_tab (tab_b (f78_tab : tableau QQ)) 8.
Proof. apply check_method_sound. vm_compute. reflexivity. Qed.
Lemma dopri5_order : order_of dopri5_tab7 (tab_b (dopri5_tab7 : tableau QQ)) 5.
Proof. apply check_method_sound. vm_compute. reflexivity. Qed.

Lemma ck54_embedded : order_of ck54_tab (embedded ck54_tab) 4.
Proof. apply check_method_sound. vm_compute. reflexivity. Qed.
Lemma f78_embedded : order_of f78_tab (embedded f78_tab) 7.
Proof. apply check_method_sound. vm_compute. reflexivity. Qed.
Lemma dopri5_embedded : order_of dopri5_tab7 (embedded dopri5_tab7) 4.
Proof. apply check_method_sound. vm_compute. reflexivity. Qed.

(** The orders are not larger. *)
Lemma ck54_not6 : ~ order_of ck54_tab (tab_b (ck54_tab : tableau QQ)) 6.
Proof.
  intros (H & _). specialize (H (bushy 5)). rewrite bushy_size in H. specialize (H (le_n _)).
  vm_compute in H. discriminate.
Qed.
Lemma dopri5_not6 : ~ order_of dopri5_tab7 (tab_b (dopri5_tab7 : tableau QQ)) 6.
Proof.
  intros (H & _). specialize (H (bushy 5)). rewrite bushy_size in H. specialize (H (le_n _)).
  vm_compute in H. discriminate.
Qed.

Section Err.
Variable eps : R.
Notation NN := (RNum eps).
Context {I : Type}.

(** The second method of the pair, on the same stages. *)
Definition second (tb : tableau NN) (bh : list R) : tableau NN :=
  mkTableau (N := NN) (tab_a tb) bh (tab_c tb) [].

Lemma wsum_vsub : forall (b b2 : list Q) (ks : list (I -> R)) i,
  length b = length b2 ->
  wsum (map Q2R (vsub b b2)) ks i = wsum (map Q2R b) ks i - wsum (map Q2R b2) ks i.
Proof.
  unfold wsum, vsub. induction b as [|x b IH]; intros [|y b2] ks i H; simpl in H; try lia.
  - simpl. ring.
  - destruct ks as [|k ks]; [simpl; ring|].
    cbn [combine map rsum fold_right fst snd]. unfold rsum in *. 
    cbn [fold_right]. rewrite IH by lia. rewrite Q2R_minus. ring.
Qed.

Lemma rk_stages_second : forall tb bh f (x : I -> R) t dt ks,
  rk_stages_R eps tb f x t dt ks -> rk_stages_R eps (second tb bh) f x t dt ks.
Proof. intros tb bh f x t dt ks [L Z S]. constructor; auto. Qed.

Lemma rk_stages_R_unique : forall (tb : tableau NN) f (x : I -> R) t dt ks ks',
  wf_tableau tb -> rk_stages_R eps tb f x t dt ks -> rk_stages_R eps tb f x t dt ks' -> ks = ks'.
Proof.
  intros tb f x t dt ks ks' Hwf [L Z S] [L' Z' S'].
  apply (rk_stages_unique (N := NN) f tb x (f x t) t dt ks ks' Hwf).
  - constructor; auto. intros s row c Hr Hc. 
    etransitivity; [exact (S s row c Hr Hc)|]. f_equal. f_equal. symmetry. apply stage_arg_R.
  - constructor; auto. intros s row c Hr Hc. 
    etransitivity; [exact (S' s row c Hr Hc)|]. f_equal. f_equal. symmetry. apply stage_arg_R.
Qed.

Theorem error_is_difference : forall tb tq f (x : I -> R) t dt y e,
  wf_tableau tb -> twin eps tb tq -> length (tab_b2 tb) = length (tab_b tb) ->
  rk_result eps tb f x t dt y -> rk_error eps tb f x t dt e ->
  rk_result eps (second tb (map Q2R (embedded tq))) f x t dt (fun i => y i - e i).
Proof.
  intros tb tq f x t dt y e Hwf (Ha & Hb & Hc & Hb2) Hl (ks & S & Hy) (ks' & S' & He).
  pose proof (rk_stages_R_unique tb f x t dt ks ks' Hwf S S') as <-.
  exists ks. split; [now apply rk_stages_second|].
  intro i. rewrite Hy, He. cbn [tab_b second].
  unfold embedded. rewrite wsum_vsub.
  - rewrite Hb, Hb2. ring.
  - assert (E : length (map Q2R (tab_b tq)) = length (map Q2R (tab_b2 tq))).
    { rewrite <- Hb, <- Hb2. symmetry. exact Hl. }
    rewrite !map_length in E. exact E.
Qed.

(** The error estimate vanishes on polynomials integrated exactly by both. *)
Theorem error_polynomial : forall tb tq p q (P : I -> list R) x t dt e,
  wf_tableau tb -> twin eps tb tq -> length (tab_b2 tb) = length (tab_b tb) ->
  has_order ([] :: tab_a tq) (tab_b tq) (tab_c tq) p ->
  has_order ([] :: tab_a tq) (embedded tq) (tab_c tq) q -> (q <= p)%nat ->
  (forall i, (length (P i) <= S q)%nat) -> (forall i, x i = peval (P i) t) ->
  rk_error eps tb (fun _ s i => peval (pder (P i)) s) x t dt e ->
  forall i, e i = 0.
Proof.
  intros tb tq p q P x t dt e Hwf Htw Hl Ho Hq Hqp HP Hx He i.
  set (f := fun (_ : I -> R) s i => peval (pder (P i)) s) in *.
  destruct He as (ks & S & He).
  set (y := fun i => x i + dt * wsum (tab_b tb) ks i).
  assert (Hy : rk_result eps tb f x t dt y) by (exists ks; split; auto).
  assert (He' : rk_error eps tb f x t dt e) by (exists ks; split; auto).
  pose proof (error_is_difference tb tq f x t dt y e Hwf Htw Hl Hy He') as Hd.
  assert (Y : y i = peval (P i) (t + dt)).
  { apply (rk_polynomial eps tb tq p Htw Hwf (tab_b tq) Ho) with (x := x); auto.
    - symmetry. apply Htw.
    - intro; eapply Nat.le_trans; [apply HP|lia]. }
  assert (D : y i - e i = peval (P i) (t + dt)).
  { set (tb' := second tb (map Q2R (embedded tq))) in *.
    set (tq' := mkTableau (N := QNum 0) (tab_a tq) (embedded tq) (tab_c tq) []).
    assert (Hwf' : wf_tableau tb').
    { destruct Hwf as [W1 W2 W3]. constructor; auto. cbn [tab_b tb' second].
      rewrite map_length. destruct Hq as (_ & E & _). rewrite <- E.
      destruct Htw as (Ha & _). simpl. rewrite Ha, map_length. reflexivity. }
    assert (Htw' : twin eps tb' tq').
    { destruct Htw as (A & B & C & D). repeat split; auto. }
    apply (rk_polynomial eps tb' tq' q Htw' Hwf' (embedded tq) Hq) with (x := x) (y := fun i => y i - e i); auto. }
  lra.
Qed.
End Err.

(** ** dopri5 dense output. *)
Section Dense.
Variable eps : R.
Notation NN := (RNum eps).
Context {I : Type}.

Definition calc (x d1 k3 k4 k5 k6 d7 : I -> R) (t0 t1 s : R) : I -> R :=
  dopri5_calc_state (N := NN) s x d1 t0 k3 k4 k5 k6 d7 t1.

Lemma calc_start : forall x d1 k3 k4 k5 k6 d7 t0 t1 j, t1 <> t0 ->
  calc x d1 k3 k4 k5 k6 d7 t0 t1 t0 j = x j.
Proof.
  intros. unfold calc, dopri5_calc_state, dopri5_btheta. cbn. unfold nfrac. cbn.
  field. lra.
Qed.

Lemma calc_end : forall x d1 k3 k4 k5 k6 d7 t0 t1 j, t1 <> t0 ->
  calc x d1 k3 k4 k5 k6 d7 t0 t1 t1 j
  = x j + (t1 - t0) * (35 / 384 * d1 j + 500 / 1113 * k3 j + 125 / 192 * k4 j
                       - 2187 / 6784 * k5 j + 11 / 84 * k6 j).
Proof.
  intros. unfold calc, dopri5_calc_state, dopri5_btheta. cbn. unfold nfrac. cbn.
  field. lra.
Qed.

(** The weights of the interpolant, as polynomials in theta. *)
Definition W1 (th : R) := th ^ 2 * (3 - 2 * th) * (35 / 384) + th * (th - 1) ^ 2
  - th ^ 2 * (th - 1) ^ 2 * 5 * (2558722523 - 31403016 * th) / 11282082432.
Definition W3 (th : R) := th ^ 2 * (3 - 2 * th) * (500 / 1113)
  + th ^ 2 * (th - 1) ^ 2 * 100 * (882725551 - 15701508 * th) / 32700410799.
Definition W4 (th : R) := th ^ 2 * (3 - 2 * th) * (125 / 192)
  - th ^ 2 * (th - 1) ^ 2 * 25 * (443332067 - 31403016 * th) / 1880347072.
Definition W5 (th : R) := - (th ^ 2 * (3 - 2 * th) * (2187 / 6784))
  + th ^ 2 * (th - 1) ^ 2 * 32805 * (23143187 - 3489224 * th) / 199316789632.
Definition W6 (th : R) := th ^ 2 * (3 - 2 * th) * (11 / 84)
  - th ^ 2 * (th - 1) ^ 2 * 55 * (29972135 - 7076736 * th) / 822651844.
Definition W7 (th : R) := th ^ 2 * (th - 1)
  + th ^ 2 * (th - 1) ^ 2 * 10 * (7414447 - 829305 * th) / 29380423.

Lemma calc_weights : forall x d1 k3 k4 k5 k6 d7 t0 t1 s j, t1 <> t0 ->
  let th := (s - t0) / (t1 - t0) in
  calc x d1 k3 k4 k5 k6 d7 t0 t1 s j
  = x j + (t1 - t0) * (W1 th * d1 j + W3 th * k3 j + W4 th * k4 j + W5 th * k5 j
                       + W6 th * k6 j + W7 th * d7 j).
Proof.
  intros. unfold calc, dopri5_calc_state, dopri5_btheta, W1, W3, W4, W5, W6, W7. cbn. unfold nfrac. cbn.
  fold th. assert (E : (s - t0) / (t1 - t0) = th) by reflexivity. clearbody th.
  field.
Qed.

Lemma W_moments : forall th k, (k < 4)%nat ->
  W1 th * 0 ^ k + W3 th * (3 / 10) ^ k + W4 th * (4 / 5) ^ k + W5 th * (8 / 9) ^ k
  + W6 th * 1 ^ k + W7 th * 1 ^ k = th ^ (S k) / INR (S k).
Proof.
  intros th k Hk. unfold W1, W3, W4, W5, W6, W7.
  destruct k as [|[|[|[|k]]]]; try lia; simpl; field.
Qed.

(** The interpolant as a polynomial in theta. *)
Definition dense_coeffs (d1 k3 k4 k5 k6 d7 : I -> R) (j : I) : list R :=
  [ 0;
    (1) / 1 * d1 j;
    (-4034104133) / 1410260304 * d1 j + (132343189600) / 32700410799 * k3 j + (-115792950) / 29380423 * k4 j + (70805911779) / 24914598704 * k5 j + (-331320693) / 205662961 * k6 j + (44764047) / 29380423 * d7 j;
    (105330401) / 33982176 * d1 j + (-833316000) / 131326951 * k3 j + (185270875) / 16991088 * k4 j + (-4531260609) / 600351776 * k5 j + (31361737) / 7433601 * k6 j + (-1532549) / 353981 * d7 j;
    (-13107642775) / 11282082432 * d1 j + (91412856700) / 32700410799 * k3 j + (-12653452475) / 1880347072 * k4 j + (988140236175) / 199316789632 * k5 j + (-2426908385) / 822651844 * k6 j + (90730570) / 29380423 * d7 j;
    (6542295) / 470086768 * d1 j + (-523383600) / 10900136933 * k3 j + (98134425) / 235043384 * k4 j + (-14307999165) / 24914598704 * k5 j + (97305120) / 205662961 * k6 j + (-8293050) / 29380423 * d7 j ].

Lemma dense_coeffs_eval : forall d1 k3 k4 k5 k6 d7 j th,
  W1 th * d1 j + W3 th * k3 j + W4 th * k4 j + W5 th * k5 j + W6 th * k6 j + W7 th * d7 j
  = peval (dense_coeffs d1 k3 k4 k5 k6 d7 j) th.
Proof.
  intros. unfold dense_coeffs, W1, W3, W4, W5, W6, W7. cbn [peval]. field.
Qed.

Lemma dense_coeffs_der : forall d1 k3 k4 k5 k6 d7 j,
  peval (pder (dense_coeffs d1 k3 k4 k5 k6 d7 j)) 0 = d1 j
  /\ peval (pder (dense_coeffs d1 k3 k4 k5 k6 d7 j)) 1 = d7 j.
Proof.
  intros. unfold dense_coeffs, pder. cbn [pder_from peval INR]. split; field.
Qed.

Lemma calc_derivative : forall x d1 k3 k4 k5 k6 d7 t0 t1 j, t1 <> t0 ->
  derivable_pt_lim (fun s => calc x d1 k3 k4 k5 k6 d7 t0 t1 s j) t0 (d1 j)
  /\ derivable_pt_lim (fun s => calc x d1 k3 k4 k5 k6 d7 t0 t1 s j) t1 (d7 j).
Proof.
  intros x d1 k3 k4 k5 k6 d7 t0 t1 j Hn.
  set (P := dense_coeffs d1 k3 k4 k5 k6 d7 j).
  assert (D : forall s, derivable_pt_lim (fun s => calc x d1 k3 k4 k5 k6 d7 t0 t1 s j) s
                          (peval (pder P) ((s - t0) / (t1 - t0)))).
  { intro s.
    assert (G : derivable_pt_lim (fun s => x j + (t1 - t0) * peval P ((s - t0) / (t1 - t0))) s
                  (0 + (t1 - t0) * (peval (pder P) ((s - t0) / (t1 - t0)) * (/ (t1 - t0))))).
    { apply (derivable_pt_lim_plus (fun _ => x j) (fun s => (t1 - t0) * peval P ((s - t0) / (t1 - t0)))).
      - apply derivable_pt_lim_const.
      - apply (derivable_pt_lim_scal (fun s => peval P ((s - t0) / (t1 - t0)))).
        apply (derivable_pt_lim_comp (fun s => (s - t0) / (t1 - t0)) (peval P)).
        + replace (/ (t1 - t0)) with ((1 - 0) * / (t1 - t0) + (s - t0) * 0) by ring.
          apply (derivable_pt_lim_mult (fun s => s - t0) (fun _ => / (t1 - t0))).
          * apply (derivable_pt_lim_minus (fun s => s) (fun _ => t0)).
            -- apply derivable_pt_lim_id.
            -- apply derivable_pt_lim_const.
          * apply derivable_pt_lim_const.
        + apply peval_derivable. }
    replace (0 + (t1 - t0) * (peval (pder P) ((s - t0) / (t1 - t0)) * / (t1 - t0)))
      with (peval (pder P) ((s - t0) / (t1 - t0))) in G by (field; lra).
    intros e He. destruct (G e He) as [d Hd]. exists d. intros h H1 H2.
    specialize (Hd h H1 H2).
    rewrite !calc_weights, !dense_coeffs_eval by exact Hn. exact Hd. }
  destruct (dense_coeffs_der d1 k3 k4 k5 k6 d7 j) as [E0 E1]. fold P in E0, E1.
  split.
  - specialize (D t0). replace ((t0 - t0) / (t1 - t0)) with 0 in D by (field; lra). now rewrite E0 in D.
  - specialize (D t1). replace ((t1 - t0) / (t1 - t0)) with 1 in D by (field; lra). now rewrite E1 in D.
Qed.
End Dense.

(** The order conditions of the interpolant for every theta. *)
Definition dense_weights (th : R) : list R := [W1 th; 0; W3 th; W4 th; W5 th; W6 th; W7 th].

Theorem dense_order4 : forall tr th, (tsize tr <= 4)%nat ->
  rsum (map (fun p => fst p * snd p)
         (combine (dense_weights th) (map Q2R (phi ([] :: tab_a (dopri5_tab7 (N := QNum 0))) tr))))
  = th ^ tsize tr / IZR (gamma tr).
Proof.
  intros [cs] th Hs. rewrite tsize_node, gamma_node in *.
  set (rows := [] :: tab_a (dopri5_tab7 (N := QNum 0))).
  assert (E : map Q2R (phi rows (Node cs)) = map Q2R (fw rows cs)).
  { pose proof (fw_phi rows cs) as F. induction F as [|q q' l l' Hq _ IH]; [reflexivity|].
    simpl. rewrite IH. f_equal. symmetry. now apply Qeq_eqR. }
  rewrite E. clear E.
  pose proof (levels_complete rows 3 cs ltac:(lia)) as HI.
  set (v := fw rows cs) in *. set (g := fgam cs) in *. clearbody v g.
  assert (Hf : (fsize cs <= 3)%nat) by lia. clear Hs.
  generalize dependent (fsize cs). intros n HI Hn.
  assert (Hl : nth n (levels rows 3) [] = nth n (ltac:(let l := eval vm_compute in (levels rows 3) in exact l)) [])
    by (f_equal; vm_compute; reflexivity).
  rewrite Hl in HI. clear Hl.
  destruct n as [|[|[|[|n]]]]; [| | | |lia]; simpl in HI;
  repeat (destruct HI as [HI|HI];
    [ inversion HI; subst; unfold dense_weights, W1, W3, W4, W5, W6, W7, Q2R;
      cbn [combine map rsum fold_right fst snd pow Qnum Qden Z.of_nat Z.mul Pos.mul Pos.of_succ_nat Pos.succ Pos.add Pos.add_carry];
      try field | ]); try contradiction.
Qed.

(** The order conditions of the symplectic steppers, checked by computation with numbers u + v sqrt(7/8). *)
From Coq Require Import List Arith ZArith Reals Lia Lra QArith Qabs Qreals FunctionalExtensionality.
From Verif Require Import M_Num M_RK M_Symp S_RK S_BSeries P_RKOrder P_ConvOrd P_BSeries P_Butcher P_SympConv.
Import ListNotations.
Local Open Scope R_scope.
Local Notation S := Datatypes.S.

Definition qs := (Q * Q)%type.
Definition sadd (x y : qs) : qs := (Qred (fst x + fst y), Qred (snd x + snd y))%Q.
Definition smul (x y : qs) : qs := (Qred (fst x * fst y + (7 # 8) * (snd x * snd y)), Qred (fst x * snd y + snd x * fst y))%Q.
Fixpoint ssum (n : nat) (u : nat -> qs) : qs := match n with O => (0, 0)%Q | S n => sadd (ssum n u) (u n) end.

Section Ev.
Variable sq : R.
Hypothesis Hsq : sq * sq = 7 / 8.
Definition ev (x : qs) : R := Q2R (fst x) + Q2R (snd x) * sq.
Lemma Q2R_red q : Q2R (Qred q) = Q2R q. Proof. apply Qeq_eqR, Qred_correct. Qed.
Lemma ev_add x y : ev (sadd x y) = ev x + ev y.
Proof. unfold ev, sadd. cbn [fst snd]. rewrite !Q2R_red, !Q2R_plus. ring. Qed.
Lemma ev_mul x y : ev (smul x y) = ev x * ev y.
Proof.
  unfold ev, smul. cbn [fst snd]. rewrite !Q2R_red, !Q2R_plus, !Q2R_mult.
  replace (Q2R (7 # 8)) with (sq * sq) by (rewrite Hsq; unfold Q2R; cbn; lra). ring.
Qed.
Lemma ev_0 : ev (0, 0)%Q = 0. Proof. unfold ev. cbn [fst snd]. rewrite Q2R_0'. ring. Qed.
Lemma ev_1 : ev (1, 0)%Q = 1. Proof. unfold ev. cbn [fst snd]. rewrite Q2R_0', Q2R_1'. ring. Qed.
Lemma ev_sum n u : ev (ssum n u) = sumn n (fun m => ev (u m)).
Proof. induction n as [|n IH]; [apply ev_0|]. cbn [ssum]. rewrite ev_add, IH. symmetry. apply sumn_S. Qed.

Variable abs : list (qs * qs).
Definition wqS (m : nat) : qs := if Nat.even m then fst (nth (m / 2) abs ((0, 0), (0, 0))%Q) else (0, 0)%Q.
Definition wpS (m : nat) : qs := if Nat.even m then (0, 0)%Q else snd (nth (m / 2) abs ((0, 0), (0, 0))%Q).
Definition aaS (i m : nat) : qs := if Nat.even i then wpS m else wqS m.
Fixpoint phS (t : tree) (i : nat) : qs :=
  match t with Node cs => fold_right (fun c z => smul (ssum i (fun m => smul (aaS i m) (phS c m))) z) (1, 0)%Q cs end.
Definition rabs : list (R * R) := map (fun ab => (ev (fst ab), ev (snd ab))) abs.
Lemma nth_rabs l : nth l rabs (0, 0) = (ev (fst (nth l abs ((0, 0), (0, 0))%Q)), ev (snd (nth l abs ((0, 0), (0, 0))%Q))).
Proof.
  unfold rabs. rewrite <- (map_nth (fun ab : qs * qs => (ev (fst ab), ev (snd ab)))). f_equal. cbn [fst snd]. now rewrite ev_0.
Qed.
Lemma ev_wq m : ev (wqS m) = wq rabs m.
Proof. unfold wqS, wq, ca. rewrite nth_rabs. destruct (Nat.even m); [reflexivity|apply ev_0]. Qed.
Lemma ev_wp m : ev (wpS m) = wp rabs m.
Proof. unfold wpS, wp, cb. rewrite nth_rabs. destruct (Nat.even m); [apply ev_0|reflexivity]. Qed.
Lemma ev_aa i m : ev (aaS i m) = aa rabs i m.
Proof. unfold aaS, aa. destruct (Nat.even i); [apply ev_wp|apply ev_wq]. Qed.
Lemma ev_ph : forall n t, (tsize t <= n)%nat -> forall i, ev (phS t i) = ph (aa rabs) t i.
Proof.
  induction n as [|n IH]; intros [cs] L i; rewrite tsize_node in L; [lia|]. cbn [phS ph].
  assert (L2 : forall c, In c cs -> (tsize c <= n)%nat) by (intros c Hc; pose proof (tsum_child cs c Hc); lia).
  clear L. induction cs as [|c cs IHc]; [apply ev_1|]. cbn [fold_right]. rewrite ev_mul, ev_sum, IHc by (intros d Hd; apply L2; now right).
  f_equal. apply sumn_ext. intros m _. rewrite ev_mul, ev_aa. f_equal. apply IH. apply L2. now left.
Qed.

(** The weights miss 1/gamma by at most [d]. *)
Definition within_q (d : Q) (x : qs) (t : tree) : bool :=
  Qeq_bool (snd x) 0 && Qle_bool (Qabs (Qred (fst x - 1 / inject_Z (gamma t)))) d.
Definition check (p : nat) (d : tree -> Q) : bool :=
  forallb (fun t => within_q (d t) (ssum (2 * length abs) (fun m => smul (wqS m) (phS t m))) t
                 && within_q (d t) (ssum (2 * length abs) (fun m => smul (wpS m) (phS t m))) t) (trees p).
Lemma Q2R_abs q : Q2R (Qabs q) = Rabs (Q2R q).
Proof.
  destruct (Qlt_le_dec q 0) as [C|C].
  - rewrite (Qeq_eqR _ _ (Qabs_neg q (Qlt_le_weak _ _ C))), Q2R_opp. apply Qlt_Rlt in C. rewrite Q2R_0' in C. rewrite Rabs_left; lra.
  - rewrite (Qeq_eqR _ _ (Qabs_pos q C)). apply Qle_Rle in C. rewrite Q2R_0' in C. rewrite Rabs_pos_eq; lra.
Qed.
Lemma within_ok d x t : within_q d x t = true -> Rabs (ev x - / IZR (gamma t)) <= Q2R d.
Proof.
  unfold within_q. intro E. apply andb_prop in E as [E1 E2]. apply Qeq_bool_eq in E1. apply Qeq_eqR in E1. rewrite Q2R_0' in E1.
  apply Qle_bool_iff in E2. apply Qle_Rle in E2. rewrite Q2R_abs, Q2R_red, Q2R_minus in E2.
  assert (P : (0 < gamma t)%Z) by exact (gamma_pos _ t (le_n _)).
  rewrite (Q2R_inv_Z (gamma t) P) in E2. unfold ev. rewrite E1, Rmult_0_l, Rplus_0_r. exact E2.
Qed.
Lemma rabs_len : length rabs = length abs. Proof. apply map_length. Qed.
Lemma check_ok p d : check p d = true -> 
  (forall t, In t (trees p) -> Rabs (sumn (2 * length rabs) (fun m => wq rabs m * ph (aa rabs) t m) - / IZR (gamma t)) <= Q2R (d t)) /\
  (forall t, In t (trees p) -> Rabs (sumn (2 * length rabs) (fun m => wp rabs m * ph (aa rabs) t m) - / IZR (gamma t)) <= Q2R (d t)).
Proof.
  intro E. unfold check in E. rewrite forallb_forall in E.
  split; intros t Ht; specialize (E t Ht); apply andb_prop in E as [E1 E2]; rewrite rabs_len.
  - replace (sumn _ _) with (ev (ssum (2 * length abs) (fun m => smul (wqS m) (phS t m)))); [now apply within_ok|].
    rewrite ev_sum. apply sumn_ext. intros m _. now rewrite ev_mul, ev_wq, (ev_ph _ t (le_n _)).
  - replace (sumn _ _) with (ev (ssum (2 * length abs) (fun m => smul (wpS m) (phS t m)))); [now apply within_ok|].
    rewrite ev_sum. apply sumn_ext. intros m _. now rewrite ev_mul, ev_wp, (ev_ph _ t (le_n _)).
Qed.
End Ev.

(** The coefficients. *)
Definition qn (q : Q) : qs := (q, 0%Q).
Definition euler_S : list (qs * qs) := [(qn 1, qn 1)].
Definition sb3a_S : list (qs * qs) :=
  let a0 := (40518861839525227722 # 100000000000000000000)%Q in
  let a1 := (- 28714404081652408900 # 100000000000000000000)%Q in
  let a2 := ((1 # 2) - (a0 + a1))%Q in
  let b0 := (- 3 # 73)%Q in
  let b1 := (17 # 59)%Q in
  let b2 := (1 - 2 * (b0 + b1))%Q in
  [(qn a0, qn b0); (qn a1, qn b1); (qn a2, qn b2); (qn a2, qn b1); (qn a1, qn b0); (qn a0, qn 0)].
Definition m4_S : list (qs * qs) :=
  let a0 := (1 # 2, - 1 # 3)%Q in let a1 := (- 1 # 3, 1 # 3)%Q in
  [(a0, qn 1); (a1, qn (- 1 # 2)); (qn (2 # 3), qn (- 1 # 2)); (a1, qn 1); (a0, qn 0)].

Lemma euler_check : check euler_S 1 (fun _ => 0%Q) = true. Proof. vm_compute. reflexivity. Qed.
Lemma m4_check : check m4_S 4 (fun _ => 0%Q) = true. Proof. vm_compute. reflexivity. Qed.
Definition sb3a_dl (t : tree) : Q := if (tsize t <=? 2)%nat then 0%Q else (1 # 100000000000000000000).
Lemma sb3a_check : check sb3a_S 4 sb3a_dl = true. Proof. vm_compute. reflexivity. Qed.
Lemma sb3a_check2 : check sb3a_S 2 (fun _ => 0%Q) = true. Proof. vm_compute. reflexivity. Qed.

(** dense_output_runge_kutta< controlled_runge_kutta< runge_kutta_dopri5 > > over the reals. *)
From Coq Require Import ZArith List Bool Lia Arith Reals Lra.
From Verif Require Import M_Num M_Sign M_Run M_Checker M_RK S_RK P_RK M_CtrlRK M_Dense M_DenseRK S_DenseRK P_Det
  S_Real S_Dense S_Ctrl S_CtrlRK P_R P_CtrlRK P_CtrlRKR P_CtrlRKT P_RKDense P_DenseRK P_DenseRef.
Import ListNotations.
Local Open Scope R_scope.

Section R.
Variable eps : R.
Hypothesis eps0 : 0 <= eps.
Notation NN := (RNum eps).
Context {I : Type}.
Variable idx : list I.
Variable sys : vec NN I -> NN -> vec NN I.
Variable eo so : Z.
Hypothesis Heo : (2 <= eo)%Z.
Hypothesis Hso : (1 <= so)%Z.
Variable cfg : err_cfg NN.
Variable max_dt : NN.
Notation ftry := (dopri5_ftry (N := NN) sys idx (rpow : NN -> NN -> NN) eo so cfg max_dt).
Notation obj := (fv NN I (rkmem NN I * vec NN I)).
Notation AL := (mkAlias false false).

(** One attempt. *)
Lemma try_R : forall (v : obj), (f_dt v : R) <> 0 -> agrees (f_dt v) max_dt ->
  let v1 := fst (a_try ftry v) in let ok := snd (a_try ftry v) in
  f_x v1 = f_x v /\ f_d v1 = f_d v /\ f_told v1 = f_told v /\ f_der v1 = f_der v
  /\ 0 < dir (f_dt v) * f_dt v1
  /\ (ok = false -> f_t v1 = f_t v /\ Rabs (f_dt v1) < Rabs (f_dt v))
  /\ (ok = true -> @eq R (f_t v1) ((f_t v : R) + f_dt v)
      /\ exists m : rkmem NN I, m LIn = f_x v /\ m LDx = f_d v
         /\ let m' := fst (exec (N := NN) sys AL (dopri5_err_prog (N := NN) AL (f_t v) (f_dt v)) m) in
            fst (f_st v1) = m' /\ f_ox v1 = m' LOut /\ f_od v1 = m' LDxOut).
Proof.
  intros [st x d ox od t told dt der] Hdt Ha. cbn [f_st f_x f_d f_ox f_od f_t f_told f_dt f_der] in *.
  destruct (a_try_cases (N := NN) sys idx (rpow : NN -> NN -> NN) eo so cfg max_dt st x d ox od t told dt der)
    as [(E & ->)|[(E & El & ->)|(E & El & ->)]];
    cbn [fst snd f_st f_x f_d f_ox f_od f_t f_told f_dt f_der].
  - apply check_R_false in E.
    destruct (outcome_dt eps idx eo so cfg max_dt x d x dt max_dt false Hdt Heo Hso eps0 Ha) as (O1 & O2 & _);
      [left; tauto|].
    repeat (split; [first [reflexivity|exact O1]|]). split; [|discriminate]. intros _. split; [reflexivity|exact (O2 eq_refl)].
  - apply check_R in E. apply Rltb_true in El.
    edestruct (outcome_dt eps idx eo so cfg max_dt x d) as (O1 & O2 & _);
      [exact Hdt|exact Heo|exact Hso|exact eps0|exact Ha
      |right; left; split; [exact E|split; [exact El|split; reflexivity]]|].
    repeat (split; [first [reflexivity|exact O1]|]). split; [|discriminate]. intros _. split; [reflexivity|exact (O2 eq_refl)].
  - apply check_R in E. apply Rltb_false in El.
    edestruct (outcome_dt eps idx eo so cfg max_dt x d) as (O1 & O2 & _);
      [exact Hdt|exact Heo|exact Hso|exact eps0|exact Ha
      |right; right; split; [exact E|split; [exact El|split; reflexivity]]|].
    repeat (split; [first [reflexivity|exact O1]|]). split; [discriminate|]. intros _. split; [reflexivity|].
    exists (upd (upd (fst st) LIn x) LDx d).
    split; [rewrite upd_other by discriminate; apply upd_same|]. split; [apply upd_same|]. repeat split.
Qed.

(** What holds before every attempt of a step begun in [v0]. *)
Definition during (v0 v : obj) : Prop :=
  f_x v = f_x v0 /\ f_d v = f_d v0 /\ f_t v = f_t v0 /\ f_told v = f_told v0 /\ f_der v = f_der v0
  /\ 0 < dir (f_dt v0) * f_dt v /\ Rabs (f_dt v) <= Rabs (f_dt v0).

Lemma nz (a b : R) : 0 < dir a * b -> b <> 0.
Proof. intros H ->. lra. Qed.

Lemma during_ok : forall (v0 v : obj), agrees (f_dt v0) max_dt -> during v0 v -> (f_dt v : R) <> 0 /\ agrees (f_dt v) max_dt /\ dir (f_dt v) = dir (f_dt v0).
Proof.
  intros v0 v Ha (_ & _ & _ & _ & _ & H & _). pose proof (dir_same _ _ H) as Hs.
  split; [exact (nz _ _ H)|]. split; [|exact Hs]. unfold agrees in *. rewrite Hs. exact Ha.
Qed.

Lemma during_refl (v : obj) : (f_dt v : R) <> 0 -> during v v.
Proof.
  intro H. repeat split; [|apply Rle_refl].
  replace (dir (f_dt v) * f_dt v) with (Rabs (f_dt v)) by (symmetry; apply dir_abs). now apply Rabs_pos_lt.
Qed.

Lemma during_try : forall (v0 : obj), agrees (f_dt v0) max_dt ->
  forall v, during v0 v -> snd (a_try ftry v) = false -> during v0 (fst (a_try ftry v)).
Proof.
  intros v0 Ha v Hd Hf. destruct (during_ok v0 v Ha Hd) as (H1 & H2 & H3).
  destruct (try_R v H1 H2) as (A & B & C & D & E & F & _). destruct (F Hf) as [F1 F2].
  destruct Hd as (D1 & D2 & D3 & D4 & D5 & D6 & D7).
  unfold during. rewrite A, B, C, D, F1. rewrite <- H3. repeat split; auto. lra.
Qed.

(** A successful do_step. *)
Theorem step_R : forall (v v' : obj), (f_dt v : R) <> 0 -> agrees (f_dt v) max_dt ->
  a_step sys ftry v = (v', Ok tt) ->
  exists h : R, 0 < dir (f_dt v) * h /\ Rabs h <= Rabs (f_dt v)
  /\ @eq R (f_t v') ((f_t v : R) + h) /\ f_told v' = f_t v /\ f_ox v' = f_x v
  /\ 0 < dir (f_dt v) * f_dt v' /\ f_der v' = true
  /\ exists m : rkmem NN I, m LIn = f_x v /\ m LDx = (if f_der v then f_d v else sys (f_x v) (f_t v))
     /\ f_od v' = m LDx
     /\ let m' := fst (exec (N := NN) sys AL (dopri5_err_prog (N := NN) AL (f_t v) h) m) in
        fst (f_st v') = m' /\ f_x v' = m' LOut /\ f_d v' = m' LDxOut.
Proof.
  intros v v' Hdt Ha Hs.
  destruct (a_step_char sys ftry v) as [(j & _ & Hj & Hi & Hr)|(_ & Hr)]; rewrite Hs in Hr; [|discriminate].
  inversion Hr; subst v'. clear Hr Hs.
  set (v0 := a_save (a_enter sys v)) in *.
  assert (E0 : f_dt v0 = f_dt v /\ f_t v0 = f_t v /\ f_told v0 = f_t v /\ f_x v0 = f_x v /\ f_der v0 = true
               /\ f_d v0 = if f_der v then f_d v else sys (f_x v) (f_t v)).
  { unfold v0, a_save, a_enter. destruct v as [st x d ox od t told dt []]; repeat split. }
  destruct E0 as (E1 & E2 & E3 & E4 & E5 & E6). clearbody v0.
  rewrite <- E1 in Hdt, Ha.
  destruct (attempts_inv (a_try ftry) (during v0) (during_try v0 Ha) j v0 (during_refl v0 Hdt) Hi) as (v1 & Hd & Ev).
  rewrite Ev in *. destruct (during_ok v0 v1 Ha Hd) as (H1 & H2 & H3).
  destruct (try_R v1 H1 H2) as (A & B & C & D & E & _ & G). destruct (G Hj) as (G1 & m & M1 & M2 & M3).
  destruct Hd as (D1 & D2 & D3 & D4 & D5 & D6 & D7).
  exists (f_dt v1). rewrite <- E1.
  unfold a_swap. cbn [f_st f_x f_d f_ox f_od f_t f_told f_dt f_der].
  split; [exact D6|]. split; [exact D7|].
  split; [rewrite G1; rewrite D3, E2; reflexivity|].
  split; [congruence|]. split; [congruence|]. split; [rewrite <- H3; exact E|]. split; [congruence|].
  exists m. rewrite <- E6, <- E4, <- E2, <- D3.
  split; [congruence|]. split; [congruence|]. split; [congruence|]. exact M3.
Qed.

(** Derivative cache and direction over any number of steps. *)
Definition sound (v : obj) : Prop := f_der v = true -> f_d v = sys (f_x v) (f_t v).

Lemma step_sound : forall (v v' : obj), sound v -> (f_dt v : R) <> 0 -> agrees (f_dt v) max_dt ->
  a_step sys ftry v = (v', Ok tt) ->
  sound v' /\ (f_dt v' : R) <> 0 /\ agrees (f_dt v') max_dt /\ dir (f_dt v') = dir (f_dt v)
  /\ f_ox v' = f_x v /\ f_told v' = f_t v
  /\ 0 < dir (f_dt v) * (f_t v' - f_t v) <= Rabs (f_dt v)
  /\ forall i, let D := a_calc (dopri5_fcalc (N := NN)) v' in
     D (f_told v') i = f_ox v' i /\ D (f_t v') i = f_x v' i
     /\ derivable_pt_lim (fun s => D s i) (f_told v') (sys (f_ox v') (f_told v') i)
     /\ derivable_pt_lim (fun s => D s i) (f_t v') (sys (f_x v') (f_t v') i).
Proof.
  intros v v' Hs Hdt Ha E.
  destruct (step_R v v' Hdt Ha E) as (h & H1 & H2 & H3 & H4 & H5 & H6 & H7 & m & M1 & M2 & M3 & M4 & M5 & M6).
  assert (Md : m LDx = sys (m LIn) (f_t v)).
  { rewrite M1, M2. unfold sound in Hs. destruct (f_der v); [now apply Hs|reflexivity]. }
  pose proof (dir_same _ _ H6) as Hd.
  assert (Sn : f_d v' = sys (f_x v') (f_t v')).
  { rewrite M6, M5, H3.
    exact (dopri5_fstep_last (N := NN) sys AL m (m LIn) (m LDx) (f_t v) h). }
  split; [intros _; exact Sn|]. split; [exact (nz _ _ H6)|].
  split; [unfold agrees in *; rewrite Hd; exact Ha|]. split; [exact Hd|]. split; [exact H5|]. split; [exact H4|].
  split.
  { rewrite H3. replace ((f_t v : R) + h - f_t v) with h by (change (carrier NN) with R; ring).
    split; [exact H1|]. rewrite <- (dir_same _ _ H1), dir_abs. exact H2. }
  intros i D.
  pose proof (dopri5_dense eps sys (f_t v) h m (nz _ _ H1) Md i) as P. cbv zeta in P.
  assert (ED : forall s, D s = dense_at eps (f_t v) h m (fst (exec (N := NN) sys AL (dopri5_err_prog (N := NN) AL (f_t v) h) m)) s).
  { intro s. unfold D, a_calc, dopri5_fcalc, dense_at. rewrite M4, M3, H4, H5, M6, <- M1, H3. reflexivity. }
  destruct P as (P1 & P2 & P3 & P4).
  rewrite !ED, H4, H5, <- M1, H3, M5. 
  split; [exact P1|]. split; [exact P2|].
  split.
  - eapply derivable_pt_lim_ext; [|exact P3]. intro s. now rewrite ED.
  - eapply derivable_pt_lim_ext; [|exact P4]. intro s. now rewrite ED.
Qed.
End R.

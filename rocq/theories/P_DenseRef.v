(** A dense output stepper that may throw, and one that agrees with it where it does not: runs that
    return normally are the same. *)
From Coq Require Import List Arith.
From Verif Require Import M_Num M_Sign M_Run M_Dense.
Import ListNotations.
Local Open Scope run_scope.

Definition same_if_ok {V A} (m1 m2 : M V A) : Prop := forall a, result_of m1 = Ok a -> m2 = m1.

Lemma same_refl {V A} (m : M V A) : same_if_ok m m.
Proof. intros a _. reflexivity. Qed.

Lemma same_bind {V A B} (m1 m2 : M V A) (f1 f2 : A -> M V B) :
  same_if_ok m1 m2 -> (forall a, same_if_ok (f1 a) (f2 a)) -> same_if_ok (bind m1 f1) (bind m2 f2).
Proof.
  intros H1 H2 b. destruct m1 as [tr1 r1]. unfold bind at 1, result_of.
  destruct r1 as [a|e| |]; try (intro H; discriminate H).
  rewrite (H1 a eq_refl). unfold bind.
  specialize (H2 a b). destruct (f1 a) as [tr3 r3]. unfold result_of in H2. cbn [fst snd] in *.
  intro Hb. now rewrite (H2 Hb).
Qed.

Section Ref.
Context {N : Num} {S W X : Type}.
Variable init : S -> X -> N -> N -> S.
Variable calc : S -> N -> X.
Variable ct : S -> N.
Variable cx : S -> X.
Variable cdt : S -> N.
Variable st1 st2 : S -> W -> M (ev X (carrier N)) (S * W).
Hypothesis st : forall s w, same_if_ok (st1 s w) (st2 s w).
Let D1 : DenseOps N S W X := {| d_init := init; d_step := st1; d_calc := calc; d_t := ct; d_x := cx; d_dt := cdt |}.
Let D2 : DenseOps N S W X := {| d_init := init; d_step := st2; d_calc := calc; d_t := ct; d_x := cx; d_dt := cdt |}.
Variable obs : W -> X -> N -> M (ev X (carrier N)) W.

Ltac go IH :=
  repeat first
  [ progress unfold reinit_to, call_init, call_calc
  | progress cbn [d_init d_step d_calc d_t d_x d_dt D1 D2]
  | apply same_refl
  | apply st
  | apply IH
  | apply same_bind; [|intro; repeat match goal with p : (_ * _)%type |- _ => destruct p end]
  | match goal with |- context [if ?b then _ else _] => destruct b end ].

Lemma iad_inner_ref : forall fuel tend s w c, same_if_ok (iad_inner D1 obs fuel tend s w c) (iad_inner D2 obs fuel tend s w c).
Proof. induction fuel as [|fuel IH]; intros; cbn [iad_inner]; go IH. Qed.
Lemma iad_outer_ref : forall fuel tend s w c, same_if_ok (iad_outer D1 obs fuel tend s w c) (iad_outer D2 obs fuel tend s w c).
Proof. induction fuel as [|fuel IH]; intros; cbn [iad_outer]; go IH; go iad_inner_ref. Qed.
Theorem adaptive_ref : forall fuel s w x t0 tend dt,
  same_if_ok (integrate_adaptive_dense D1 obs fuel s w x t0 tend dt) (integrate_adaptive_dense D2 obs fuel s w x t0 tend dt).
Proof. intros. unfold integrate_adaptive_dense. go iad_outer_ref. Qed.

Lemma icd_obs_ref : forall fuel t0 dt s w x time k, icd_obs D2 obs fuel t0 dt s w x time k = icd_obs D1 obs fuel t0 dt s w x time k.
Proof. reflexivity. Qed.
Lemma icd_steps_ref : forall fuel dt time s w real, same_if_ok (icd_steps D1 fuel dt time s w real) (icd_steps D2 fuel dt time s w real).
Proof. induction fuel as [|fuel IH]; intros; cbn [icd_steps]; go IH. Qed.
Lemma icd_loop_ref : forall fuel t0 tend dt s w x time k real,
  same_if_ok (icd_loop D1 obs fuel t0 tend dt s w x time k real) (icd_loop D2 obs fuel t0 tend dt s w x time k real).
Proof.
  induction fuel as [|fuel IH]; intros; cbn [icd_loop]; [apply same_refl|].
  rewrite icd_obs_ref. go IH. apply icd_steps_ref.
Qed.
Theorem const_ref : forall fuel s w x t0 tend dt,
  same_if_ok (integrate_const_dense D1 obs fuel s w x t0 tend dt) (integrate_const_dense D2 obs fuel s w x t0 tend dt).
Proof. intros. unfold integrate_const_dense. go icd_loop_ref. Qed.

Lemma insd_obs_ref : forall fuel t0 dt s w x time k, insd_obs D2 obs fuel t0 dt s w x time k = insd_obs D1 obs fuel t0 dt s w x time k.
Proof. reflexivity. Qed.
Lemma insd_loop_ref : forall fuel t0 tend dt n s w x time k,
  same_if_ok (insd_loop D1 obs fuel t0 tend dt n s w x time k) (insd_loop D2 obs fuel t0 tend dt n s w x time k).
Proof.
  induction fuel as [|fuel IH]; intros; cbn [insd_loop]; [apply same_refl|].
  rewrite insd_obs_ref. go IH.
Qed.
Lemma insd_final_ref : forall fuel tend s w, same_if_ok (insd_final D1 fuel tend s w) (insd_final D2 fuel tend s w).
Proof. induction fuel as [|fuel IH]; intros; cbn [insd_final]; go IH. Qed.
Theorem n_steps_ref : forall fuel s w x t0 dt n,
  same_if_ok (integrate_n_steps_dense D1 obs fuel s w x t0 dt n) (integrate_n_steps_dense D2 obs fuel s w x t0 dt n).
Proof. intros. unfold integrate_n_steps_dense. go insd_loop_ref. apply insd_final_ref. Qed.

Lemma itd_obs_ref : forall times s w x, itd_obs D2 obs times s w x = itd_obs D1 obs times s w x.
Proof. reflexivity. Qed.
Lemma itd_loop_ref : forall fuel last times s w x c,
  same_if_ok (itd_loop D1 obs fuel last times s w x c) (itd_loop D2 obs fuel last times s w x c).
Proof.
  induction fuel as [|fuel IH]; intros; cbn [itd_loop]; [apply same_refl|].
  destruct times as [|t times]; [apply same_refl|].
  rewrite itd_obs_ref. go IH.
Qed.
Theorem times_ref : forall fuel s w x times dt,
  same_if_ok (integrate_times_dense D1 obs fuel s w x times dt) (integrate_times_dense D2 obs fuel s w x times dt).
Proof. intros. unfold integrate_times_dense. destruct times; go itd_loop_ref. Qed.
End Ref.

(** Small concrete steppers used by the examples beside the theorems. *)
From Coq Require Import List Arith ZArith QArith.
From Verif Require Import M_Num M_Run M_Dense.
Import ListNotations.

(** Exact rationals with epsilon 0, and with epsilon 1/1000. *)
Definition Q0 : Num := QNum 0.
Definition Qm : Num := QNum (1 # 1000).

(** Explicit Euler for x' = x on rationals; the stepper object counts its steps. *)
Definition euler_exp (s : nat) (x : Q) (t dt : Q) : nat * Q := (S s, Qred (x + dt * x)).

(** A controlled stepper that rejects steps longer than 1/4 (halving them) and accepts others,
    then proposes the same step; state is the number of accepted steps. *)
Definition ctrl_quarter (s : nat) (x : nat) (t dt : Q) : nat * nat * Q * Q * bool :=
  if Qle_bool (Qred (Qmult dt dt)) (1 # 16) then (S s, S x, Qred (t + dt), dt, true)
  else (S s, x, t, Qred (dt / 2), false).

(** The same over the reals: an instance of the try_step contract. *)
From Coq Require Import Reals Lra.
From Verif Require Import S_Real S_Ctrl P_R.
Definition ctrl_quarter_R (s : nat) (x : nat) (t dt : R) : nat * nat * R * R * bool :=
  (if Rle_dec (Rabs dt) (1/4) then (S s, S x, t + dt, dt, true)
   else (S s, x, t, dt / 2, false))%R.
Lemma ctrl_quarter_contract : try_contract ctrl_quarter_R.
Proof.
  intros s x t dt Hdt. unfold ctrl_quarter_R. destruct (Rle_dec (Rabs dt) (1/4)).
  - split; auto. rewrite dir_abs. now apply Rabs_pos_lt.
  - pose proof (Rabs_pos_lt dt Hdt) as H. pose proof (dir_abs dt) as H0.
    repeat split; auto; unfold Rdiv; rewrite <- Rmult_assoc, H0; lra.
Qed.

(** Dense output steppers for x' = 1: the stepper is (current state, current time, step size);
    one do_step advances by [frac] of the announced step and multiplies the step size by [grow];
    the interpolant is exact. *)
Definition lin_init {T} (s : T * T * T) (x t dt : T) : T * T * T := (x, t, dt).
Definition lin_t {T} (s : T * T * T) : T := snd (fst s).
Definition lin_x {T} (s : T * T * T) : T := fst (fst s).
Definition lin_dt {T} (s : T * T * T) : T := snd s.
Definition lin_calc (s : Q * Q * Q) (t : Q) : Q := Qred (lin_x s + (t - lin_t s)).
Definition lin_step (frac grow : Q) (s : Q * Q * Q) : Q * Q * Q :=
  (Qred (lin_x s + frac * lin_dt s), Qred (lin_t s + frac * lin_dt s), Qred (grow * lin_dt s)).
Definition lin_dense (frac grow : Q) : DenseOps Q0 (Q * Q * Q) unit Q :=
  @dense_of Q0 _ _ _ lin_init (lin_step frac grow) lin_calc lin_t lin_x lin_dt.

Lemma lin_contract_Q frac grow : (0 < frac)%Q -> (frac <= 1)%Q -> (0 < grow)%Q ->
  forall s, (0 < lin_dt s)%Q ->
  (lin_t s < lin_t (lin_step frac grow s))%Q /\
  (lin_t (lin_step frac grow s) <= lin_t s + lin_dt s)%Q /\ (0 < lin_dt (lin_step frac grow s))%Q.
Proof.
  intros Hf1 Hf2 Hg [[x t] dt] Hdt. unfold lin_step, lin_t, lin_dt in *. cbn [fst snd] in *.
  rewrite !Qred_correct. repeat split.
  - rewrite <- Qplus_0_r at 1. apply Qplus_lt_r. now apply Qmult_lt_0_compat.
  - apply Qplus_le_r. rewrite <- (Qmult_1_l dt) at 2. apply Qmult_le_compat_r; auto. now apply Qlt_le_weak.
  - now apply Qmult_lt_0_compat.
Qed.

(** The same over the reals. *)
From Verif Require Import S_Dense.
Definition lin_step_R (frac grow : R) (s : R * R * R) : R * R * R :=
  (lin_x s + frac * lin_dt s, lin_t s + frac * lin_dt s, grow * lin_dt s)%R.
Lemma lin_contract_R frac grow : (0 < frac <= 1)%R -> (0 < grow)%R ->
  dense_contract lin_init (lin_step_R frac grow) lin_t lin_x lin_dt.
Proof.
  intros Hf Hg. constructor; try reflexivity.
  - intros [[x t] dt] Hdt. unfold lin_step_R, lin_t, lin_dt in *. cbn [fst snd] in *.
    pose proof (Rabs_pos_lt dt Hdt) as Hp. pose proof (dir_abs dt) as Ha.
    replace (dir dt * (t + frac * dt - t))%R with (frac * (dir dt * dt))%R by ring. rewrite Ha. split.
    + apply Rmult_lt_0_compat; lra.
    + rewrite <- (Rmult_1_l (Rabs dt)) at 2. apply Rmult_le_compat_r; lra.
  - intros [[x t] dt] Hdt. unfold lin_step_R, lin_t, lin_dt in *. cbn [fst snd] in *.
    pose proof (Rabs_pos_lt dt Hdt) as Hp. pose proof (dir_abs dt) as Ha.
    replace (dir dt * (grow * dt))%R with (grow * (dir dt * dt))%R by ring. rewrite Ha.
    apply Rmult_lt_0_compat; lra.
Qed.

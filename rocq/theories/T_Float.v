(** * C62: integrate_const in binary64 *)
From Coq Require Import ZArith List Bool Arith Lia QArith.
From Coq Require Import Floats.SpecFloat.
From Verif Require Import M_Num M_Sign M_Run M_Plain S_Grid X_Inst S_F64 P_Plain P_PlainA P_F64 P_Float.
Import ListNotations.
Local Open Scope nat_scope.

(** The exact value of a finite double. *)
Definition f64_val (x : f64) : Q :=
  match x with
  | S754_finite s m e => inject_Z (if s then Zneg m else Zpos m) * Qpower 2 e
  | _ => 0
  end.

(** start = 1024, dt = 1 + 3 * 2^-43, end = start + 2 * dt exactly: one step, last observation one step before
    the end. *)
Definition w_start : F64 := f64_ofZ 1024.
Definition w_dt : F64 := f64_dyadic (2 ^ 43 + 3) (-43).
Definition w_end : F64 := f64_dyadic (1026 * 2 ^ 42 + 3) (-42).
Definition count_f (s x : nat) (t dt : F64) : nat * nat := (S s, S x).
Lemma w_exact : (f64_val w_end == f64_val w_start + (2 # 1) * f64_val w_dt)%Q.
Proof. vm_compute. reflexivity. Qed.
Lemma w_short : forall fuel, (2 <= fuel)%nat ->
  integrate_const (N := F64) (W := unit) rec_obs (plain_step count_f) fuel 0 tt 0 w_start w_end w_dt
  = ([EObs 0 w_start; EStep 0 w_start w_dt; EObs 1 (w_start + w_dt)%num], Ok (1, tt, 1, 1)).
Proof. intros [|[|fuel]] H; try lia. vm_compute. reflexivity. Qed.
Theorem C62_refuted : exists t0 tend dt : F64, (f64_val tend == f64_val t0 + (2 # 1) * f64_val dt)%Q /\
  forall fuel, (2 <= fuel)%nat -> exists tr,
    integrate_const (N := F64) (W := unit) rec_obs (plain_step count_f) fuel 0 tt 0 t0 tend dt = (tr, Ok (1, tt, 1, 1))
    /\ forall x t, In (EObs x t) tr -> (f64_val t + (1 # 2) * f64_val dt < f64_val tend)%Q.
Proof. 
  exists w_start, w_end, w_dt. split; [exact w_exact|]. intros fuel H. eexists. split; [exact (w_short fuel H)|].
  intros x t [E|[E|[E|[]]]]; try discriminate E; injection E as _ <-; vm_compute; reflexivity.
Qed.
Print Assumptions C62_refuted.

(** If t0 and dt are multiples of one power of two, small enough that all points of the grid are doubles, and dt
    is longer than the machine epsilon, then integrate_const makes exactly the n steps, the observed times are
    exact and the last one is the end time; integrate_adaptive adds no further step. *)
Definition grid_theorem : Prop :=
  forall (S W X : Type) (obs : W -> X -> F64 -> M (ev X F64) W) (do_step : S -> W -> X -> F64 -> F64 -> M (ev X F64) (S * W * X))
         (fuel n : nat) (s : S) (w : W) (x : X) (t0 tend dt : F64) (T0 H k : Z),
  units t0 (T0 * 2 ^ k)%Z -> units dt (H * 2 ^ k)%Z -> units tend ((T0 + Z.of_nat n * H) * 2 ^ k)%Z -> (0 <= k <= 2045)%Z ->
  (Z.abs T0 + (Z.of_nat n + 1) * Z.abs H < 2 ^ 53)%Z -> (2 ^ 1022 < Z.abs H * 2 ^ k)%Z -> (n < fuel)%nat ->
  integrate_const obs do_step fuel s w x t0 tend dt
    = bind (exec obs do_step (grid_schedule t0 dt n) s w x) (fun r => ret (r, n))
  /\ integrate_adaptive_plain obs do_step fuel s w x t0 tend dt
    = bind (exec obs do_step (grid_schedule t0 dt n) s w x) (fun r => ret (s, snd (fst r), snd r, n))
  /\ (forall j, (j <= n)%nat -> units (grid t0 dt j) ((T0 + Z.of_nat j * H) * 2 ^ k)%Z).
Lemma grid_thm : grid_theorem.
Proof.
  intros S W X obs do_step fuel n s w x t0 tend dt T0 H k Ut Ud Ue Hk Hb Hd Hf.
  assert (HH : H <> 0%Z) by (intros ->; cbn in Hd; assert (0 < 2 ^ 1022)%Z by (apply Z.pow_pos_nonneg; lia); lia).
  assert (C := count_first t0 dt T0 H k n Ut Ud Hk Hb HH tend Ue Hd).
  split; [|split].
  - rewrite (integrate_const_exec obs do_step fuel s w x t0 tend dt n C Hf). destruct (exec obs do_step (grid_schedule t0 dt n) s w x) as [tr [[[s1 w1] x1]|e| |]]; reflexivity.
  - rewrite (integrate_adaptive_plain_exec obs do_step fuel s w x t0 tend dt n C Hf).
    cbv zeta. rewrite (no_rest t0 dt T0 H k n Ut Ud Hk Hb HH tend Ue).
    destruct (exec obs do_step (grid_schedule t0 dt n) s w x) as [tr [[[s1 w1] x1]|e| |]]; reflexivity.
  - intros j Hj. apply (grid_units t0 dt T0 H k n); auto. lia.
Qed.
Theorem C62_exact_grid : grid_theorem.
Proof. exact grid_thm. Qed.
Print Assumptions C62_exact_grid.

(** From 0 to -5/2 in steps of -1/4: units of 2^-2, k = 1072. *)
Example C62_ex : units (f64_ofZ 0) (0 * 2 ^ 1072)%Z /\ units (f64_dyadic (-1) (-2)) (-1 * 2 ^ 1072)%Z
  /\ units (f64_dyadic (-5) (-1)) ((0 + Z.of_nat 10 * -1) * 2 ^ 1072)%Z /\ (2 ^ 1022 < Z.abs (-1) * 2 ^ 1072)%Z
  /\ (Z.abs 0 + (Z.of_nat 10 + 1) * Z.abs (-1) < 2 ^ 53)%Z.
Proof.
  split; [reflexivity|]. split; [exact (dyadic_exact (-1) (-2) eq_refl ltac:(lia))|].
  split; [pose proof (dyadic_exact (-5) (-1) eq_refl ltac:(lia)) as U; replace ((0 + Z.of_nat 10 * -1) * 2 ^ 1072)%Z with (-5 * 2 ^ (-1 + 1074))%Z by reflexivity; exact U|].
  split; [vm_compute; reflexivity|lia].
Qed.

(** The exactness of the operations used: for doubles whose exact sum, difference or product is a double. *)
Theorem C62_operations : forall x y V W, units x V -> units y W ->
  (exact_units (V + W) -> units (@nadd F64 x y) (V + W))%Z /\ (exact_units (V - W) -> units (@nsub F64 x y) (V - W))%Z
  /\ (forall U, (V * W = U * 2 ^ 1074)%Z -> exact_units U -> units (@nmul F64 x y) U)
  /\ @nlt F64 x y = (V <? W)%Z /\ @nle F64 x y = (V <=? W)%Z.
Proof.
  exact (fun x y V W Hx Hy => conj (add_exact x y V W Hx Hy) (conj (sub_exact x y V W Hx Hy)
    (conj (fun U => mul_exact x y V W U Hx Hy) (conj (ltb_exact x y V W Hx Hy) (leb_exact x y V W Hx Hy))))).
Qed.
Print Assumptions C62_operations.

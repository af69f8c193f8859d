(** Theorems about the Adams multistep steppers (C38, C43-C45, C78-C80). *)
From Coq Require Import ZArith List Bool Lia Arith Reals Lra QArith.
From Verif Require Import M_Num M_Run M_Plain M_RK M_CtrlRK M_Midpoint M_Adams S_RK S_Inv S_Adams P_R P_RK P_Poly P_RKAll P_RKMem P_Inv
  P_Adams P_AdamsR P_Lin T_RK X_Inst.
Import ListNotations.
Local Open Scope res_scope.

(** ** C45: the history.  After any calls without resizing, made on an object that was reset, slot j of
    the buffer holds the derivative computed j calls ago, in any arithmetic. *)
Theorem C45_history : forall (N : Num) (I IS : Type) steps istep (s s' : ab N I IS) calls,
  (0 < steps)%nat -> rb_wf steps (ab_buf s) -> ab_trace steps istep (ab_reset s) calls s' ->
  forall j c, (j < steps)%nat -> nth_error calls j = Some c -> rb_get steps (ab_buf s') j = Ok (c_dx c).
Proof.
  intros N I IS steps istep s s' calls Hs W T j c Hj Hc.
  pose proof (ab_trace_hist steps Hs istep _ [] calls s' (ab_reset_hist steps Hs s W) T) as (_ & H & _).
  apply (H j (c_dx c) Hj). rewrite app_nil_r. now apply map_nth_error.
Qed.
Print Assumptions C45_history.

(** Once steps-1 calls were made, a step applies the formula to the derivatives of this and of the
    previous steps-1 calls and evaluates the system once. *)
Theorem C45_step : forall (N : Num) (I IS : Type) steps istep (s s' : ab N I IS) calls sys io x t dt,
  (0 < steps)%nat -> rb_wf steps (ab_buf s) -> ab_trace steps istep (ab_reset s) calls s' -> (steps - 1 <= length calls)%nat ->
  exists s2, ab_do_step steps sys (istep sys) false io s' x t dt
    = Ok (s2, lmm dt (ab_coef steps) x (sys x t :: firstn (steps - 1) (map c_dx calls)), [(x, t)]).
Proof.
  intros N I IS steps istep s s' calls sys io x t dt Hs W T L.
  pose proof (ab_trace_hist steps Hs istep _ [] calls s' (ab_reset_hist steps Hs s W) T) as H. rewrite app_nil_r in H.
  pose proof (ab_call steps Hs istep sys io s' _ x t dt H) as C.
  rewrite (ab_init_enough steps Hs s' _ H ltac:(now rewrite map_length)) in C. destruct C as (s2 & E & _). now exists s2.
Qed.
Print Assumptions C45_step.

(** Before that it is a step of the initializing stepper with the derivative just stored. *)
Theorem C45_start : forall (N : Num) (I IS : Type) steps istep (s s' : ab N I IS) calls sys io x t dt,
  (0 < steps)%nat -> rb_wf steps (ab_buf s) -> ab_trace steps istep (ab_reset s) calls s' -> (length calls < steps - 1)%nat ->
  match istep sys (ab_is s') io x (sys x t) t dt with
  | Ok (is', out) => exists s2, ab_do_step steps sys (istep sys) false io s' x t dt = Ok (s2, out, [(x, t)]) /\ ab_is s2 = is'
  | Exc e => ab_do_step steps sys (istep sys) false io s' x t dt = Exc e
  | UB => ab_do_step steps sys (istep sys) false io s' x t dt = UB
  | Fuel => ab_do_step steps sys (istep sys) false io s' x t dt = Fuel
  end.
Proof.
  intros N I IS steps istep s s' calls sys io x t dt Hs W T L.
  pose proof (ab_trace_hist steps Hs istep _ [] calls s' (ab_reset_hist steps Hs s W) T) as H. rewrite app_nil_r in H.
  pose proof (ab_call steps Hs istep sys io s' _ x t dt H) as C. destruct H as (_ & _ & Hc). rewrite map_length in Hc.
  destruct (Nat.ltb (ab_init s' + 1) steps); [|lia].
  destruct (istep sys (ab_is s') io x (sys x t) t dt) as [[is' out]| | |]; try exact C.
  destruct C as (s2 & E & _ & _ & Q). now exists s2.
Qed.
Print Assumptions C45_start.

(** After initialize( stepper , ... ), whatever the object contained, the next step applies the formula
    to the derivatives at the starting points; x and t are those after steps-1 steps of the stepper. *)
Theorem C45_initialize : forall (N : Num) (I IS ES : Type) steps istep estep (s s' : ab N I IS) (e e' : ES) sys io x t dt x' t',
  (0 < steps)%nat -> rb_wf steps (ab_buf s) -> ab_initialize steps sys estep e s x t dt = Ok (e', s', x', t') ->
  exists pts, start_points estep sys dt e x t pts e' x' t' /\ length pts = (steps - 1)%nat /\ ab_is_initialized steps s' = true
  /\ exists s2, ab_do_step steps sys (istep sys) false io s' x' t' dt
       = Ok (s2, lmm dt (ab_coef steps) x' (sys x' t' :: rev (map (fun p => sys (fst p) (snd p)) pts)), [(x', t')]).
Proof.
  intros N I IS ES steps istep estep s s' e e' sys io x t dt x' t' Hs W E.
  destruct (ab_initialize_hist steps Hs estep sys e s x t dt e' s' x' t' W E) as (pts & P1 & P2 & H).
  exists pts. split; [exact P1|]. split; [exact P2|].
  assert (L : (steps - 1 <= length (rev (map (fun p => sys (fst p) (snd p)) pts)))%nat) by (rewrite rev_length, map_length; lia).
  pose proof (ab_init_enough steps Hs s' _ H L) as Q. split.
  - unfold ab_is_initialized. apply Nat.leb_le. apply Nat.ltb_ge in Q. lia.
  - pose proof (ab_call steps Hs istep sys io s' _ x' t' dt H) as C. rewrite Q in C. destruct C as (s2 & E2 & _).
    rewrite firstn_all2 in E2 by (rewrite rev_length, map_length; lia). now exists s2.
Qed.
Print Assumptions C45_initialize.

(** The rotating buffer is a queue of fixed length: writing slot 0 after rotate() shifts all entries. *)
Theorem C45_queue : forall (A : Type) dim (b : rb A) a, (0 < dim)%nat -> rb_wf dim b ->
  exists b', rb_set dim (rb_rotate dim b) 0 a = Ok b' /\ rb_wf dim b' /\ rb_get dim b' 0 = Ok a
   /\ forall i, (S i < dim)%nat -> rb_get dim b' (S i) = rb_get dim b i.
Proof. intros A dim b a Hd. exact (push_ok dim Hd b a). Qed.
Print Assumptions C45_queue.

(** A resize is a reset: the history is not read afterwards. *)
Theorem C45_resize : forall (N : Num) (I IS : Type) steps istep sys io (s : ab N I IS) x t dt,
  ab_do_step steps sys istep true io s x t dt = ab_do_step steps sys istep false io (ab_reset s) x t dt.
Proof. reflexivity. Qed.

(** Four calls of the three-step method; the buffer of an object with old contents. *)
Definition ab_old : ab Q0 unit (rkmem Q0 unit) :=
  mkAb (N := Q0) (mkRb [fun _ => 7%Q; fun _ => 8%Q; fun _ => 9%Q] 1) 5 (fun _ _ => 11%Q).
Definition q_sq (x : unit -> Q) (t : Q) (i : unit) : Q := Qred (t * t + x i)%Q.
Definition q_istep (f : (unit -> Q) -> Q -> (unit -> Q)) := rk_istep (N := Q0) f rk_rk4.
Example C45_example : exists s' calls, ab_trace (N := Q0) 3 q_istep (ab_reset ab_old) calls s' /\ length calls = 4%nat
  /\ rb_wf 3 (ab_buf ab_old)
  /\ match rb_get 3 (ab_buf s') 2 with Ok d => Qeq_bool (d tt) (5 # 1) | _ => false end = true.
Proof.
  eexists.
  exists [mkCall (N := Q0) q_sq (fun _ => 1%Q) 4%Q 1%Q true; mkCall (N := Q0) q_sq (fun _ => 1%Q) 3%Q 1%Q true;
          mkCall (N := Q0) q_sq (fun _ => 1%Q) 2%Q 1%Q true; mkCall (N := Q0) q_sq (fun _ => 1%Q) 1%Q 1%Q true].
  split; [eapply at_cons; [eapply at_cons; [eapply at_cons; [eapply at_cons; [apply at_nil|]|]|]|]; reflexivity|].
  split; [reflexivity|]. split; [split; [reflexivity|cbn; lia]|vm_compute; reflexivity].
Qed.
Example C45_example_start :
  match ab_initialize (N := Q0) 3 q_sq (fun m => rk_istep (N := Q0) q_sq rk_rk4 m true) (fun _ _ => 0%Q) ab_old (fun _ => 0%Q) 0%Q 1%Q with
  | Ok (_, s', x', t') => Qeq_bool t' 2 && negb (Qeq_bool (x' tt) 0) | _ => false end = true.
Proof. vm_compute. reflexivity. Qed.

(** ** C43: exactness for polynomials of degree <= k, k = 1..8.

    One step.  [P i] is the solution (degree <= k, its derivative has degree < k); the derivatives of the
    previous calls are samples of P' on the grid t-dt, t-2dt, ... *)
Theorem C43_adams_bashforth : forall (eps : R) (I IS : Type) k istep (s s' : ab (RNum eps) I IS) calls (P : I -> list R) sys io
    (x : I -> R) (t dt : R),
  (1 <= k <= 8)%nat -> rb_wf k (ab_buf s) -> ab_trace (N := RNum eps) k istep (ab_reset s) calls s' -> (k - 1 <= length calls)%nat ->
  (forall i, (length (P i) <= S k)%nat) ->
  (forall j c, (j < k - 1)%nat -> nth_error calls j = Some c ->
     forall i, c_dx (N := RNum eps) c i = peval (pder (P i)) (t - INR (S j) * dt)%R) ->
  (forall i, sys x t i = peval (pder (P i)) t) ->
  exists s2 out, ab_do_step (N := RNum eps) k sys (istep sys) false io s' x t dt = Ok (s2, out, [(x, t)])
    /\ forall i, out i = (x i + (peval (P i) (t + dt) - peval (P i) t))%R.
Proof.
  intros eps I IS k istep s s' calls P sys io x t dt Hk W T L HP Hc Hd.
  destruct (C45_step (RNum eps) I IS k istep s s' calls sys io x t dt ltac:(lia) W T L) as (s2 & E).
  exists s2. eexists. split; [exact E|]. intro i.
  set (l := firstn (k - 1) (map (c_dx (N := RNum eps)) calls) : list (I -> R)).
  assert (Ll : length l = (k - 1)%nat) by (unfold l; rewrite firstn_length, map_length; lia).
  refine (eq_trans _ (ab_exact eps k Hk P HP l t dt x (sys x t) i _ (Nat.eq_le_incl _ _ (eq_sym Ll)) (Hd i))).
  - rewrite (firstn_all2 l) by lia. reflexivity.
  - intros j d Hj a. assert (Lj : (j < k - 1)%nat) by (rewrite <- Ll; apply nth_error_Some; congruence).
    unfold l in Hj. rewrite nth_error_firstn_lt in Hj by exact Lj.
    destruct (nth_error calls j) as [c|] eqn:Ec.
    + rewrite (map_nth_error _ _ _ Ec) in Hj. injection Hj as <-. exact (Hc j c Lj Ec a).
    + apply nth_error_None in Ec. lia.
Qed.
Print Assumptions C43_adams_bashforth.

Theorem C43_adams_moulton : forall (eps : R) (I : Type) k (buf : rb (I -> R)) (P : I -> list R) sys (x pred : I -> R) (t dt : R),
  (1 <= k <= 8)%nat -> rb_wf k buf -> (forall i, (length (P i) <= S k)%nat) ->
  (forall j, (j < k - 1)%nat -> exists d, rb_get k buf j = Ok d /\ forall i, d i = peval (pder (P i)) (t - INR (S j) * dt)%R) ->
  (forall i, sys pred t i = peval (pder (P i)) t) ->
  exists d out, am_do_step (N := RNum eps) k sys x pred t dt buf = Ok (d, out, [(pred, t)])
    /\ forall i, out i = (x i + (peval (P i) t - peval (P i) (t - dt)))%R.
Proof.
  intros eps I k buf P sys x pred t dt Hk W HP Hb Hd. unfold am_do_step.
  assert (G : forall n i, (i + n <= k - 1)%nat -> exists ds, rb_gets (N := RNum eps) k buf i n = Ok ds /\ length ds = n
     /\ forall j d, nth_error ds j = Some d -> forall a, d a = peval (pder (P a)) (t - INR (S (i + j)) * dt)%R).
  { induction n as [|n IH]; intros i Hn; cbn [rb_gets].
    - exists []. split; [reflexivity|]. split; [reflexivity|]. intros [|j] d H; discriminate H.
    - destruct (Hb i ltac:(lia)) as (d & Ed & Hv). change (@rb_get (vec (RNum eps) I) k buf i) with (@rb_get (I -> R) k buf i). rewrite Ed. cbn [rbind].
      destruct (IH (S i) ltac:(lia)) as (ds & E & Ln & V). rewrite E. cbn [rbind]. exists (d :: ds). split; [reflexivity|].
      split; [cbn; lia|]. intros [|j] c H a; cbn [nth_error] in H.
      + injection H as <-. rewrite Nat.add_0_r. apply Hv.
      + replace (i + S j)%nat with (S i + j)%nat by lia. now apply V. }
  destruct (G (k - 1)%nat 0%nat ltac:(lia)) as (ds & E & Ln & V). rewrite E. cbn [rbind].
  eexists _, _. split; [reflexivity|]. intro i. rewrite adams_sum_lmm.
  refine (eq_trans (rule_exact eps (am_coef (N := RNum eps) k) (am_nodes k) k (P i) (t - dt) dt (sys pred t :: ds) x i _ (HP i) _ _) _).
  - now apply am_moments.
  - unfold am_nodes. rewrite map_length, seq_length. refine (eq_trans (f_equal S Ln) _). lia.
  - intros j z d Hz Hj. apply nth_error_nodes in Hz. destruct Hz as [Lj ->]. destruct j as [|j]; cbn [nth_error] in Hj.
    + injection Hj as <-. rewrite Hd. f_equal. cbn [INR]. ring.
    + rewrite (V j d Hj i). f_equal. cbn [Nat.add]. ring.
  - replace (t - dt + dt)%R with t by ring. reflexivity.
Qed.
Print Assumptions C43_adams_moulton.

(** Whole runs from a fresh (reset) object: if the starting steps are exact, every step of
    adams_bashforth and of adams_bashforth_moulton is.  The right-hand side need only equal P' along
    the solution. *)
Theorem C43_run : forall (eps : R) (I IS : Type) k istep (s : ab (RNum eps) I IS) (P : I -> list R) sys io (x : I -> R) (t dt : R) n,
  (1 <= k <= 8)%nat -> rb_wf k (ab_buf s) -> (forall i, (length (P i) <= S k)%nat) ->
  (forall y u, (forall i, y i = peval (P i) u) -> forall i, sys y u i = peval (pder (P i)) u) ->
  (forall is io y u, (forall i, y i = peval (P i) u) -> exists is' out,
     istep sys is io y (sys y u) u dt = Ok (is', out) /\ forall i, out i = peval (P i) (u + dt)%R) ->
  (forall i, x i = peval (P i) t) ->
  exists s' x', iterate (N := RNum eps) (ab_do_step (N := RNum eps) k sys (istep sys) false io) n (ab_reset s) x t dt = Ok (s', x')
    /\ forall i, x' i = peval (P i) (t + INR n * dt)%R.
Proof.
  intros eps I IS k istep s P sys io x t dt n Hk W HP Hsol Hist Hx.
  apply (ab_run_exact eps k Hk P HP sys Hsol istep dt Hist io n (ab_reset s) []); [apply ab_reset_hist; [lia|exact W]| |exact Hx].
  intros [|j] d H; discriminate H.
Qed.
Print Assumptions C43_run.
Theorem C43_moulton_run : forall (eps : R) (I IS : Type) k istep (s : abm (RNum eps) I IS) (P : I -> list R) sys io (x : I -> R) (t dt : R) n,
  (1 <= k <= 8)%nat -> rb_wf k (ab_buf (abm_ab s)) -> ab_init (abm_ab s) = 0%nat -> (forall i, (length (P i) <= S k)%nat) ->
  (forall y u, (forall i, y i = peval (P i) u) -> forall i, sys y u i = peval (pder (P i)) u) ->
  (forall is io y u, (forall i, y i = peval (P i) u) -> exists is' out,
     istep sys is io y (sys y u) u dt = Ok (is', out) /\ forall i, out i = peval (P i) (u + dt)%R) ->
  (forall i, x i = peval (P i) t) ->
  exists s' x', iterate (N := RNum eps) (abm_do_step (N := RNum eps) k sys (istep sys) false io) n s x t dt = Ok (s', x')
    /\ forall i, x' i = peval (P i) (t + INR n * dt)%R.
Proof.
  intros eps I IS k istep s P sys io x t dt n Hk W H0 HP Hsol Hist Hx.
  assert (Hh : ab_hist k (abm_ab s) []).
  { pose proof (ab_reset_hist k ltac:(lia) (abm_ab s) W) as H. unfold ab_reset in H. destruct (abm_ab s) as [b i0 is0]. cbn in *. subst i0. exact H. }
  apply (abm_run_exact eps k Hk P HP sys Hsol istep dt Hist io n s []); [exact Hh| |exact Hx].
  intros [|j] d H; discriminate H.
Qed.
Print Assumptions C43_moulton_run.

(** The starting steps are exact if the initializing stepper is an explicit Runge-Kutta stepper of at
    least the degree of P, for x' = P'(t): runge_kutta4, the default of
    adams_bashforth_moulton, for k <= 4. *)
Theorem C43_start : forall (eps : R) (I : Type) n (P : I -> list R) (m : rkmem (RNum eps) I) io (x : I -> R) (t dt : R),
  (forall i, (length (P i) <= S (rk_order n))%nat) -> (forall i, x i = peval (P i) t) ->
  let sys := fun (_ : I -> R) s i => peval (pder (P i)) s in
  exists m' out, rk_istep (N := RNum eps) sys n m io x (sys x t) t dt = Ok (m', out) /\ forall i, out i = peval (P i) (t + dt)%R.
Proof.
  intros eps I n P m io x t dt HP Hx sys. unfold rk_istep. eexists _, _. split; [reflexivity|]. intro i.
  pose proof (C36_polynomial eps I n P (mkAlias io false) t dt (upd (upd m LIn x) LDx (sys x t)) HP) as C.
  specialize (C Hx i). rewrite run_step_exec in C. refine (eq_trans _ C).
  refine (f_equal (fun v => v i) (proj1 (named_memory (RNum eps) I sys (mkAlias io false) n t dt _ _ _ _))); reflexivity.
Qed.
Print Assumptions C43_start.

(** x' = 4 t^3 + 1 with the four-step methods and runge_kutta4: 5 steps of 1/2 from 0 give t^4 + t. *)
Example C43_example :
  let f := fun (_ : unit -> Q) (t : Q) (_ : unit) => Qred (4 * t * t * t + 1)%Q in
  let z := fun _ : unit => 0%Q in
  let b := mkRb [z; z; z; z] 0 in
  match iterate (N := Q0) (ab_do_step (N := Q0) 4 f (rk_istep (N := Q0) f rk_rk4) false true) 5 (mkAb (N := Q0) b 0 (fun _ _ => 0%Q)) z 0%Q (1 # 2)%Q with
  | Ok (_, x) => Qeq_bool (x tt) ((5 # 2) ^ 4 + (5 # 2)) | _ => false end = true
  /\ match iterate (N := Q0) (abm_do_step (N := Q0) 4 f (rk_istep (N := Q0) f rk_rk4) false true) 5 (mkAbm (N := Q0) (mkAb (N := Q0) b 0 (fun _ _ => 0%Q)) z z) z 0%Q (1 # 2)%Q with
  | Ok (_, x) => Qeq_bool (x tt) ((5 # 2) ^ 4 + (5 # 2)) | _ => false end = true.
Proof. vm_compute. split; reflexivity. Qed.

(** ** C44.  The property is false for every k: adams_moulton< k > reports order k+1, but is not exact
    for some polynomial of degree k (its solution has degree k+1), although all samples are exact.
    (It is exact for degree < k by C43, so its order is k.) *)
Lemma pder_from_mono a : forall n m z, peval (pder_from (S m) (repeat 0%R n ++ [a])) z = (INR (S (m + n)) * a * z ^ n)%R.
Proof.
  induction n as [|n IH]; intros m z.
  - cbn [repeat app pder_from peval pow]. rewrite Nat.add_0_r. ring.
  - cbn [repeat app]. change (pder_from (S m) (0%R :: ?p)) with (INR (S m) * 0 :: pder_from (S (S m)) p)%R.
    cbn [peval]. rewrite IH. replace (S m + n)%nat with (m + S n)%nat by lia. cbn [pow]. ring.
Qed.
Lemma peval_mono a : forall n z, peval (repeat 0%R n ++ [a]) z = (a * z ^ n)%R.
Proof. induction n as [|n IH]; intro z; cbn [repeat app peval pow]; [ring|]. rewrite IH. ring. Qed.

Theorem C44_refuted : forall (eps : R) k, (1 <= k <= 8)%nat ->
  exists (P : list R) (buf : rb (unit -> R)) sys (x pred : unit -> R) t dt d out,
  (length P <= S (am_order k))%nat /\ rb_wf k buf
  /\ (forall j, (j < k - 1)%nat -> exists d, rb_get k buf j = Ok d /\ forall i, d i = peval (pder P) (t - INR (S j) * dt)%R)
  /\ (forall u s i, sys u s i = peval (pder P) s)
  /\ am_do_step (N := RNum eps) k sys x pred t dt buf = Ok (d, out, [(pred, t)])
  /\ out tt <> (x tt + (peval P t - peval P (t - dt)))%R.
Proof.
  intros eps k Hk.
  set (P := (repeat 0%R (S k) ++ [/ INR (S k)])%R).
  assert (HP : forall z, peval (pder P) z = (z ^ k)%R).
  { intro z. unfold P. change (pder (repeat 0%R (S k) ++ [(/ INR (S k))%R])) with (pder_from 1 (repeat 0%R k ++ [(/ INR (S k))%R])).
    rewrite pder_from_mono. cbn [Nat.add]. rewrite Rinv_r by (apply not_0_INR; lia). ring. }
  set (sys := fun (_ : unit -> R) (s : R) (_ : unit) => peval (pder P) s).
  set (vals := map (fun j => fun _ : unit => peval (pder P) (1 - INR (S j) * 1)%R) (seq 0 k)).
  assert (W : rb_wf k (mkRb vals 0)) by (split; [unfold vals; cbn [rb_data]; now rewrite map_length, seq_length|cbn; lia]).
  assert (G : forall j, (j < k)%nat -> rb_get k (mkRb vals 0) j = Ok (fun _ : unit => peval (pder P) (1 - INR (S j) * 1)%R)).
  { intros j Hj. unfold rb_get, rb_index, vget. cbn [rb_data rb_first]. rewrite Nat.add_0_r, Nat.mod_small by exact Hj.
    unfold vals. rewrite (map_nth_error _ j (seq 0 k) (d := j)); [reflexivity|].
    rewrite (nth_error_nth' _ 0%nat) by (now rewrite seq_length). f_equal. now apply seq_nth. }
  assert (GS : forall n i, (i + n <= k)%nat -> rb_gets (N := RNum eps) k (mkRb vals 0) i n
     = Ok (map (fun j => fun _ : unit => peval (pder P) (1 - INR (S j) * 1)%R) (seq i n))).
  { induction n as [|n IH]; intros i Hn; cbn [rb_gets seq map]; [reflexivity|].
    change (@rb_get (vec (RNum eps) unit) k (mkRb vals 0) i) with (@rb_get (unit -> R) k (mkRb vals 0) i).
    rewrite G by lia. cbn [rbind]. rewrite IH by lia. reflexivity. }
  exists P, (mkRb vals 0), sys, (fun _ => 0%R), (fun _ => 0%R), 1%R, 1%R.
  set (ds := map (fun j => fun _ : unit => peval (pder P) (1 - INR (S j) * 1)%R) (seq 0 (k - 1))).
  exists (sys (fun _ => 0%R) 1%R), (lmm (N := RNum eps) 1%R (am_coef (N := RNum eps) k) (fun _ => 0%R) (sys (fun _ => 0%R) 1%R :: ds)).
  split; [unfold P; rewrite app_length, repeat_length; cbn; unfold am_order; lia|]. split; [exact W|].
  split; [intros j Hj; eexists; split; [apply G; lia|reflexivity]|]. split; [reflexivity|]. split.
  - unfold am_do_step. rewrite (GS (k - 1)%nat 0%nat) by lia. cbn [rbind]. now rewrite adams_sum_lmm.
  - intro Q. apply (am_moment_k eps k Hk).
    assert (E : lmm (N := RNum eps) 1%R (am_coef (N := RNum eps) k) (fun _ => 0%R) (sys (fun _ => 0%R) 1%R :: ds) tt
       = (0 + 1 * qsum (am_coef (N := RNum eps) k) (am_nodes k) (fun z => z ^ k))%R).
    { refine (eq_trans (lmm_R eps 1%R _ _ _ tt) _). apply f_equal. apply (f_equal (Rmult 1)). apply rule_samples.
      - unfold am_nodes, ds. cbn [length]. rewrite !map_length, !seq_length. lia.
      - intros j z d Hz Hj. apply nth_error_nodes in Hz. destruct Hz as [Lj ->]. destruct j as [|j]; cbn [nth_error] in Hj.
        + injection Hj as <-. unfold sys. rewrite HP. cbn [INR]. f_equal. ring.
        + assert (Hj2 : nth_error (seq 0 (k - 1)) j = Some j).
          { rewrite (nth_error_nth' _ 0%nat) by (rewrite seq_length; lia). f_equal. apply seq_nth. lia. }
          unfold ds in Hj. rewrite (map_nth_error _ _ _ Hj2) in Hj. injection Hj as <-. rewrite HP, Rmult_1_r. reflexivity. }
    rewrite E in Q. unfold P in Q. rewrite !peval_mono in Q. rewrite pow1 in Q. replace (1 - 1)%R with 0%R in Q by ring.
    rewrite pow_ne_zero in Q by lia. lra.
Qed.
Print Assumptions C44_refuted.

(** ** C38 for the multistep steppers and dopri5: whole runs keep every linear invariant. *)
Lemma runs_keep : forall (eps : R) (I S W : Type) (l : (I -> R) -> R) (PS : S -> Prop) (obs : W -> (I -> R) -> R -> res W) st (x : I -> R) (s : S) fuel w,
  step_keeps (N := RNum eps) (W := W) PS (fun y => l y = l x) st -> PS s ->
  let same := fun y : I -> R => l y = l x in
  (forall t0 tend dt, run_inv (obs_inv same) (fun '(_, _, y, _) => same y)
     (integrate_const (N := RNum eps) (user_obs obs) st fuel s w x t0 tend dt))
  /\ (forall t0 dt k, run_inv (obs_inv same) (fun '(_, _, y, _) => same y)
     (integrate_n_steps (N := RNum eps) (user_obs obs) st s w x t0 dt k))
  /\ (forall t0 tend dt, run_inv (obs_inv same) (fun '(_, _, y, _) => same y)
     (integrate_adaptive_plain (N := RNum eps) (user_obs obs) st fuel s w x t0 tend dt))
  /\ (forall times dt, run_inv (obs_inv same) (fun '(_, _, y, _) => same y)
     (integrate_times_plain (N := RNum eps) (user_obs obs) st fuel s w x times dt)).
Proof.
  intros eps I S W l PS obs st x s fuel w K Hs same.
  pose proof (user_obs_shows (N := RNum eps) same obs) as O.
  assert (Wk : forall D F V (E : V -> Prop) (r : M V (S * D * (I -> R) * F)),
     run_inv E (fun '(s', _, y, _) => PS s' /\ same y) r -> run_inv E (fun '(_, _, y, _) => same y) r).
  { intros D F V E r [A B]. split; auto. intros [[[s' w'] y] k] H. exact (proj2 (B _ H)). }
  destruct (C69_plain (RNum eps) S W (I -> R) PS same (user_obs obs) st O K fuel s w x Hs eq_refl) as (A & B & C & D).
  split; [|split; [|split]]; intros; apply Wk; [apply A|apply B|apply C|apply D].
Qed.

Lemma res_step_keeps : forall (eps : R) (I S W : Type) (PS : S -> Prop) (PX : (I -> R) -> Prop) L (f : S -> (I -> R) -> R -> R -> res (S * (I -> R) * L)),
  (forall s y t dt s' y' lg, PS s -> PX y -> f s y t dt = Ok (s', y', lg) -> PS s' /\ PX y') ->
  step_keeps (N := RNum eps) (W := W) PS PX (res_step f).
Proof.
  intros eps I S W PS PX L f H s w x t dt Hs Hx. unfold res_step. split; cbn [fst snd]; [repeat constructor|].
  intros [[s' w'] x'] E. destruct (f s x t dt) as [[[s1 y1] lg]| | |] eqn:Ef; try discriminate E. injection E as <- _ <-. exact (H _ _ _ _ _ _ _ Hs Hx Ef).
Qed.

(** The initializing stepper may be any of the named Runge-Kutta steppers ([inl]) or an extrapolation
    stepper ([inr], with the order chosen by order_helper). *)
Definition any_istep {N : Num} {I} (n : rk_name) (use_es : bool) (steps : nat) (f : vec N I -> N -> vec N I)
    (s : rkmem N I * es N I) (io : bool) (x dx : vec N I) (t dt : N) : res ((rkmem N I * es N I) * vec N I) :=
  if use_es then let! (e, out) := es_istep f steps (snd s) io x dx t dt in Ok ((fst s, e), out)
  else let! (m, out) := rk_istep f n (fst s) io x dx t dt in Ok ((m, snd s), out).

Lemma any_istep_lin eps I (l : (I -> R) -> R) f n ue steps :
  linear_functional l -> (forall u s, l (f u s) = 0%R) ->
  forall is io x t dt is' out, any_istep (N := RNum eps) n ue steps f is io x (f x t) t dt = Ok (is', out) -> l out = l x.
Proof.
  intros Hl Hf is io x t dt is' out E. unfold any_istep in E. destruct ue.
  - destruct (es_istep (N := RNum eps) f steps (snd is) io x (f x t) t dt) as [[e o]| | |] eqn:Ee; cbn [rbind] in E; try discriminate E.
    injection E as _ <-. exact (es_lin eps l Hl f Hf _ _ _ _ _ _ _ _ _ (Hf x t) Ee).
  - unfold rk_istep in E. cbn [rbind] in E. injection E as _ <-.
    pose proof (named_invariant eps I n l f (mkAlias io false) t dt (upd (upd (fst is) LIn x) LDx (f x t)) Hl Hf) as C.
    rewrite run_step_exec in C. refine (eq_trans _ C). apply f_equal.
    refine (proj1 (named_memory (RNum eps) I f (mkAlias io false) n t dt _ _ _ _)); reflexivity.
Qed.

Theorem C38_adams_bashforth : forall (eps : R) I W k n ue (l : (I -> R) -> R) f (obs : W -> (I -> R) -> R -> res W)
    (s : ab (RNum eps) I _) (x : I -> R) fuel w,
  (0 < k)%nat -> linear_functional l -> (forall u s, l (f u s) = 0%R) -> rb_wf k (ab_buf s) ->
  let st := res_step (ab_do_step (N := RNum eps) k f (any_istep (N := RNum eps) n ue k f) false true) in
  let same := fun y : I -> R => l y = l x in
  (forall t0 tend dt, run_inv (obs_inv same) (fun '(_, _, y, _) => same y)
     (integrate_const (N := RNum eps) (user_obs obs) st fuel (ab_reset s) w x t0 tend dt))
  /\ (forall t0 dt k, run_inv (obs_inv same) (fun '(_, _, y, _) => same y)
     (integrate_n_steps (N := RNum eps) (user_obs obs) st (ab_reset s) w x t0 dt k))
  /\ (forall t0 tend dt, run_inv (obs_inv same) (fun '(_, _, y, _) => same y)
     (integrate_adaptive_plain (N := RNum eps) (user_obs obs) st fuel (ab_reset s) w x t0 tend dt))
  /\ (forall times dt, run_inv (obs_inv same) (fun '(_, _, y, _) => same y)
     (integrate_times_plain (N := RNum eps) (user_obs obs) st fuel (ab_reset s) w x times dt)).
Proof.
  intros eps I W k n ue l f obs s x fuel w Hk Hl Hf Hw st same.
  apply (runs_keep eps I _ W l (lin_hist eps l k) obs st x (ab_reset s) fuel w).
  - apply res_step_keeps. intros s0 y t dt s' y' lg Hs Hy E.
    destruct (ab_step_lin eps l Hl f Hf (any_istep (N := RNum eps) n ue k) (any_istep_lin eps I l f n ue k Hl Hf) k Hk _ _ _ _ _ _ _ _ Hs E) as [A B].
    split; [exact A|congruence].
  - exists []. split; [now apply ab_reset_hist|constructor].
Qed.
Print Assumptions C38_adams_bashforth.

Theorem C38_adams_bashforth_moulton : forall (eps : R) I W k n ue (l : (I -> R) -> R) f (obs : W -> (I -> R) -> R -> res W)
    (s : abm (RNum eps) I _) (x : I -> R) fuel w,
  (0 < k)%nat -> linear_functional l -> (forall u s, l (f u s) = 0%R) -> rb_wf k (ab_buf (abm_ab s)) -> ab_init (abm_ab s) = 0%nat ->
  let st := res_step (abm_do_step (N := RNum eps) k f (any_istep (N := RNum eps) n ue k f) false true) in
  let same := fun y : I -> R => l y = l x in
  (forall t0 tend dt, run_inv (obs_inv same) (fun '(_, _, y, _) => same y)
     (integrate_const (N := RNum eps) (user_obs obs) st fuel s w x t0 tend dt))
  /\ (forall t0 dt k, run_inv (obs_inv same) (fun '(_, _, y, _) => same y)
     (integrate_n_steps (N := RNum eps) (user_obs obs) st s w x t0 dt k))
  /\ (forall t0 tend dt, run_inv (obs_inv same) (fun '(_, _, y, _) => same y)
     (integrate_adaptive_plain (N := RNum eps) (user_obs obs) st fuel s w x t0 tend dt))
  /\ (forall times dt, run_inv (obs_inv same) (fun '(_, _, y, _) => same y)
     (integrate_times_plain (N := RNum eps) (user_obs obs) st fuel s w x times dt)).
Proof.
  intros eps I W k n ue l f obs s x fuel w Hk Hl Hf Hw H0 st same.
  apply (runs_keep eps I _ W l (fun s => lin_hist eps l k (abm_ab s)) obs st x s fuel w).
  - apply res_step_keeps. intros s0 y t dt s' y' lg Hs Hy E.
    destruct (abm_step_lin eps l Hl f Hf (any_istep (N := RNum eps) n ue k) (any_istep_lin eps I l f n ue k Hl Hf) k Hk _ _ _ _ _ _ _ _ Hs E) as [A B].
    split; [exact A|congruence].
  - exists []. split; [|constructor].
    pose proof (ab_reset_hist k Hk (abm_ab s) Hw) as H. unfold ab_reset in H. destruct (abm_ab s) as [b i0 is0]. cbn in *. subst i0. exact H.
Qed.
Print Assumptions C38_adams_bashforth_moulton.

(** dopri5 keeps the derivative of the last stage; from an object whose first call is still to come
    (m_first_call = true). *)
Theorem C38_dopri5 : forall (eps : R) I W (l : (I -> R) -> R) f (obs : W -> (I -> R) -> R -> res W)
    (s : fsal (RNum eps) I (rkmem (RNum eps) I)) rs (x : I -> R) fuel w,
  linear_functional l -> (forall u s, l (f u s) = 0%R) -> fs_first s = true ->
  let st := plain_step (fun s y t dt => fst (fsal_do_step (N := RNum eps) f (dopri5_fstep_noerr (N := RNum eps) f) true s rs y t dt)) in
  let same := fun y : I -> R => l y = l x in
  (forall t0 tend dt, run_inv (obs_inv same) (fun '(_, _, y, _) => same y)
     (integrate_const (N := RNum eps) (user_obs obs) st fuel s w x t0 tend dt))
  /\ (forall t0 dt k, run_inv (obs_inv same) (fun '(_, _, y, _) => same y)
     (integrate_n_steps (N := RNum eps) (user_obs obs) st s w x t0 dt k))
  /\ (forall t0 tend dt, run_inv (obs_inv same) (fun '(_, _, y, _) => same y)
     (integrate_adaptive_plain (N := RNum eps) (user_obs obs) st fuel s w x t0 tend dt))
  /\ (forall times dt, run_inv (obs_inv same) (fun '(_, _, y, _) => same y)
     (integrate_times_plain (N := RNum eps) (user_obs obs) st fuel s w x times dt)).
Proof.
  intros eps I W l f obs s rs x fuel w Hl Hf H1 st same.
  apply (runs_keep eps I _ W l (fun s : fsal (RNum eps) I (rkmem (RNum eps) I) => fs_first s = true \/ l (fs_dxdt s) = 0%R) obs st x s fuel w); [|now left].
  apply plain_step_keeps. intros s0 y t dt Hs Hy. unfold fsal_do_step.
  set (s1 := fsal_enter f s0 rs y t).
  assert (D : l (fs_dxdt s1) = 0%R).
  { unfold s1, fsal_enter. destruct (rs || fs_first s0) eqn:Q; [apply Hf|]. destruct Hs as [Hs|Hs]; [rewrite Hs, orb_true_r in Q; discriminate Q|exact Hs]. }
  unfold dopri5_fstep_noerr. cbv zeta. cbn [fst snd fs_first fs_dxdt]. unfold rd.
  destruct (dopri5_linear eps I l f (mkAlias true true) t dt (upd (upd (fs_st s1) LIn y) LDx (fs_dxdt s1)) Hl Hf D) as [A B].
  split; [right; exact B|]. refine (eq_trans A _). exact Hy.
Qed.
Print Assumptions C38_dopri5.

(** Mass exchange between two compartments in exact arithmetic: the sum stays 4, the parts change. *)
Definition q_ex (u : bool -> Q) (s : Q) (b : bool) : Q := if b then Qred (u false * s - u true)%Q else Qred (u true - u false * s)%Q.
Definition q_zb : bool -> Q := fun _ => 0%Q.
Example C38_adams_example :
  let s := (mkAb (N := Q0) (mkRb [q_zb; q_zb] 0) 0 ((fun _ => q_zb), mkEs (N := Q0) (fun _ => q_zb) [q_zb] q_zb)) in
  let x := fun b : bool => if b then 1%Q else 3%Q in
  let ok := fun (r : res (_ * (bool -> Q))) => match r with Ok (_, y) => Qeq_bool (y true + y false) 4 && negb (Qeq_bool (y true) 1) | _ => false end in
  ok (iterate (N := Q0) (ab_do_step (N := Q0) 2 q_ex (any_istep (N := Q0) rk_rk4 true 2 q_ex) false true) 3 s x 1%Q (1 # 2)%Q) = true
  /\ ok (let! (a, y) := iterate (N := Q0) (abm_do_step (N := Q0) 2 q_ex (any_istep (N := Q0) rk_rk4 false 2 q_ex) false true) 3
           (mkAbm (N := Q0) s q_zb q_zb) x 1%Q (1 # 2)%Q in Ok (abm_ab a, y)) = true.
Proof. vm_compute. split; reflexivity. Qed.

(** ** C78.  The property is false: adams_bashforth< 2 > with its default initializing stepper, first
    step for x' = 1 from x = 0 with dt = 1, gives 7/3 in place and 1 out of place. *)
Definition ab_new (n : nat) : ab Q0 unit (rkmem Q0 unit * es Q0 unit) :=
  let z := fun _ : unit => 0%Q in
  mkAb (N := Q0) (mkRb (repeat z n) 0) 0 ((fun _ => z), mkEs (N := Q0) (fun _ => z) (repeat z 4) z).
Theorem C78_refuted : exists (f : (unit -> Q) -> Q -> (unit -> Q)) (s : ab Q0 unit _) x t dt s1 s2 o1 o2 l1 l2,
  let istep := any_istep (N := Q0) rk_rk4 true 2 f in
  ab_do_step (N := Q0) 2 f istep true true s x t dt = Ok (s1, o1, l1)
  /\ ab_do_step (N := Q0) 2 f istep true false s x t dt = Ok (s2, o2, l2)
  /\ Qeq_bool (o1 tt) (7 # 3) = true /\ Qeq_bool (o2 tt) 1 = true.
Proof.
  exists (fun _ _ _ => 1%Q), (ab_new 2), (fun _ => 0%Q), 0%Q, 1%Q.
  eexists _, _, _, _, _, _. cbv zeta. split; [reflexivity|]. split; [reflexivity|]. vm_compute. split; reflexivity.
Qed.
Print Assumptions C78_refuted.

(** A whole run: after the wrong start the error stays.  integrate_n_steps over x' = 1 ends at 3 + 4/3. *)
Theorem C78_run_refuted : exists tr s w x t,
  integrate_n_steps (N := Q0) null_obs (res_step (ab_do_step (N := Q0) 2 (fun _ _ _ => 1%Q) (any_istep (N := Q0) rk_rk4 true 2 (fun _ _ _ => 1%Q)) false true))
    (ab_new 2) tt (fun _ : unit => 0%Q) 0%Q 1%Q 3 = (tr, Ok (s, w, x, t)) /\ Qeq_bool (x tt) (13 # 3) = true.
Proof. eexists _, _, _, _, _. split; [reflexivity|]. vm_compute. reflexivity. Qed.

(** It holds with every Runge-Kutta initializing stepper, in any arithmetic, whatever the temporaries of
    the initializing stepper contain: the same result, history and counter. *)
Theorem C78_runge_kutta_init : forall (N : Num) (I : Type) steps n (f : vec N I -> N -> vec N I) rs io1 io2
    (s1 s2 s1' : ab N I (rkmem N I)) x t dt out log,
  ab_buf s1 = ab_buf s2 -> ab_init s1 = ab_init s2 ->
  ab_do_step steps f (rk_istep f n) rs io1 s1 x t dt = Ok (s1', out, log) ->
  exists s2', ab_do_step steps f (rk_istep f n) rs io2 s2 x t dt = Ok (s2', out, log)
    /\ ab_buf s1' = ab_buf s2' /\ ab_init s1' = ab_init s2'.
Proof.
  intros N I steps n f rs io1 io2 s1 s2 s1' x t dt out log Hb Hi E. unfold ab_do_step in *. rewrite Hb, Hi in E.
  destruct (Nat.ltb _ steps).
  - destruct (rb_set steps _ 0 (f x t)) as [b1| | |]; cbn [rbind] in E |- *; try discriminate E.
    unfold rk_istep in *. cbn [rbind] in E |- *. injection E as <- <- <-.
    match goal with |- context [Ok (_, ?a, _) = Ok (_, ?b, _)] => assert (Q : a = b) end.
    2:{ eexists. split; [rewrite Q; reflexivity|]. split; reflexivity. }
    pose proof (named_in_place N I f n (mkAlias io2 false) t dt (upd (upd (ab_is s2) LIn x) LDx (f x t))) as [A2 _].
    pose proof (named_in_place N I f n (mkAlias io1 false) t dt (upd (upd (ab_is s1) LIn x) LDx (f x t))) as [A1 _].
    assert (R : forall al (m : rkmem N I), m LIn = x -> m LDx = f x t ->
      fst (run_step f al (rk_impl n t dt) t m) (resolve al LOut) = fst (exec f al (rk_impl n t dt) m) (resolve al LOut)).
    { intros al m E1 E2. unfold run_step, do_step_prog. cbn [exec exec1]. unfold rd. cbn [resolve]. 
      pose proof (proj1 (named_memory N I f al n t dt (wr al m LDx (f (m LIn) t)) m ltac:(reflexivity) ltac:(unfold wr, upd; cbn; now rewrite E1, E2))) as Q.
      destruct (exec f al (rk_impl n t dt) (wr al m LDx (f (m LIn) t))). exact Q. }
    rewrite R in A1, A2 by reflexivity. refine (eq_trans A2 (eq_sym (eq_trans A1 _))).
    pose proof (R separate (upd (upd (ab_is s1) LIn x) LDx (f x t)) eq_refl eq_refl) as B1.
    pose proof (R separate (upd (upd (ab_is s2) LIn x) LDx (f x t)) eq_refl eq_refl) as B2.
    cbn [resolve al_x separate] in B1, B2. rewrite B1, B2.
    exact (proj1 (named_memory N I f separate n t dt (upd (upd (ab_is s1) LIn x) LDx (f x t)) (upd (upd (ab_is s2) LIn x) LDx (f x t)) eq_refl eq_refl)).
  - destruct (rb_set steps (rb_rotate steps (ab_buf s2)) 0 (f x t)) as [b1| | |]; cbn [rbind] in E |- *; try discriminate E.
    destruct (rb_gets steps b1 0 steps) as [ds| | |]; cbn [rbind] in E |- *; try discriminate E.
    injection E as <- <- <-. eexists. split; [reflexivity|]. split; reflexivity.
Qed.
Print Assumptions C78_runge_kutta_init.

(** ** C79.  The property is false: after a change of the state size adams_bashforth_moulton< 3 > makes a
    step that depends on derivatives stored before it. *)
Theorem C79_refuted : exists (f : (unit -> Q) -> Q -> (unit -> Q)) (s1 s2 : abm Q0 unit _) x t dt r1 r2 o1 o2 l1 l2,
  let istep := any_istep (N := Q0) rk_rk4 false 3 f in
  rb_wf 3 (ab_buf (abm_ab s1)) /\ rb_wf 3 (ab_buf (abm_ab s2))
  /\ abm_do_step (N := Q0) 3 f istep true true s1 x t dt = Ok (r1, o1, l1)
  /\ abm_do_step (N := Q0) 3 f istep true true s2 x t dt = Ok (r2, o2, l2)
  /\ Qeq_bool (o1 tt) 1 = true /\ Qeq_bool (o2 tt) (7 # 6) = true.
Proof.
  set (z := fun _ : unit => 0%Q).
  exists (fun _ _ _ => 1%Q),
    (mkAbm (N := Q0) (mkAb (N := Q0) (mkRb [(fun _ => 1%Q); (fun _ => 1%Q); (fun _ => 1%Q)] 0) 2 (ab_is (ab_new 3))) z z),
    (mkAbm (N := Q0) (mkAb (N := Q0) (mkRb [(fun _ => -(1))%Q; (fun _ => -(1))%Q; (fun _ => -(1))%Q] 0) 2 (ab_is (ab_new 3))) z z), z, 0%Q, 1%Q.
  eexists _, _, _, _, _, _. cbv zeta. split; [split; [reflexivity|cbn; lia]|]. split; [split; [reflexivity|cbn; lia]|].
  split; [reflexivity|]. split; [reflexivity|]. vm_compute. split; reflexivity.
Qed.
Print Assumptions C79_refuted.
(** adams_bashforth alone does restart: C45_resize. *)

(** ** C80.  The property is false: integrate_times at 0, 3/2, 5/2 with dt = 1 and the two-step method on
    x' = 2t (exact start) reports 5/2 instead of 9/4 at t = 3/2. *)
Theorem C80_refuted : exists tr s w x n,
  let f := fun (_ : unit -> Q) (t : Q) (_ : unit) => Qred (2 * t)%Q in
  integrate_times_plain (N := Q0) rec_obs (res_step (ab_do_step (N := Q0) 2 f (any_istep (N := Q0) rk_rk4 false 2 f) false true))
    10 (ab_new 2) tt (fun _ : unit => 0%Q) [0%Q; (3 # 2)%Q; (5 # 2)%Q] 1%Q = (tr, Ok (s, w, x, n))
  /\ existsb (fun e => match e with EObs y t => Qeq_bool t (3 # 2) && Qeq_bool (y tt) (5 # 2) | _ => false end) tr = true.
Proof. eexists _, _, _, _, _. cbv zeta. split; [reflexivity|]. vm_compute. reflexivity. Qed.
Print Assumptions C80_refuted.

(** Theorems about the explicit Runge-Kutta steppers (C34-C39, C41, C42) and
    about invariants of whole runs (C69). *)
From Coq Require Import ZArith List Bool Lia Arith Reals Lra QArith Qreals FunctionalExtensionality.
From Verif Require Import M_Num M_Run M_Plain M_Controlled M_Dense S_Grid M_RK S_RK S_Inv
  P_RK P_RKR P_Trees P_RKLin P_Poly P_RKOrder P_RKNamed P_RKDense P_RKAll P_Inv X_Inst.
Import ListNotations.

(** ** C34: the generic algorithm computes the method of its tableau, in any
    arithmetic (with the operations in the order of the code): the calls of the
    system are exactly the stage points, one per stage, in order. *)
Theorem C34_generic : forall (N : Num) (I : Type) (f : vec N I -> N -> vec N I) tb al t dt (m : rkmem N I),
  wf_tableau tb ->
  exists m' ks,
    run_step f al (generic_prog tb t dt) t m = (m', stage_points tb (m LIn) t dt ks)
    /\ rk_stages tb f (m LIn) (f (m LIn) t) t dt ks
    /\ m' (resolve al LOut) = stage_arg (m LIn) dt (tab_b tb) ks
    /\ (al_x al = false -> m' LIn = m LIn).
Proof. intros N I. exact (@generic_is_butcher N I). Qed.
Print Assumptions C34_generic.

Theorem C34_generic_error : forall (N : Num) (I : Type) (f : vec N I -> N -> vec N I) tb al t dt (m : rkmem N I),
  wf_tableau tb -> length (tab_b2 tb) = length (tab_b tb) ->
  exists m' ks,
    run_step f al (generic_err_prog tb t dt) t m = (m', stage_points tb (m LIn) t dt ks)
    /\ rk_stages tb f (m LIn) (f (m LIn) t) t dt ks
    /\ m' (resolve al LOut) = stage_arg (m LIn) dt (tab_b tb) ks
    /\ m' LErr = err_arg dt (tab_b2 tb) ks
    /\ (al_x al = false -> m' LIn = m LIn).
Proof. intros N I. exact (@generic_err_is_butcher N I). Qed.
Print Assumptions C34_generic_error.

(** The textbook formulas over the reals. *)
Theorem C34_textbook : forall (eps : R) (I : Type) (f : (I -> R) -> R -> (I -> R)) (tb : tableau (RNum eps))
    al t dt (m : rkmem (RNum eps) I),
  wf_tableau tb -> length (tab_b2 tb) = length (tab_b tb) ->
  let m' := fst (run_step (N := RNum eps) f al (generic_err_prog (N := RNum eps) tb t dt) t m) in
  rk_result eps tb f (m LIn) t dt (m' (resolve al LOut)) /\ rk_error eps tb f (m LIn) t dt (m' LErr).
Proof. intros eps I. exact (@generic_err_R I eps). Qed.
Print Assumptions C34_textbook.

(** The hypotheses hold for the library's own tableaux and for e.g. Heun's method; the run of
    Heun's method on x' = x from 1 with dt = 1/2 calls the system at (1,0) and (3/2,1/2). *)
Definition heun_tab : tableau (QNum 0) := mkTableau (N := QNum 0) [[1%Q]] [1 # 2; 1 # 2] [0%Q; 1%Q] [1 # 2; - (1 # 2)]%Q.
Example C34_example :
  wf_tableau heun_tab /\ length (tab_b2 heun_tab) = length (tab_b heun_tab)
  /\ wf_tableau (f78_tab (N := F64)) /\ length (tab_b2 (f78_tab (N := F64))) = length (tab_b (f78_tab (N := F64)))
  /\ let r := run_step (N := QNum 0) (I := unit) (fun x _ => x) separate (generic_err_prog (N := QNum 0) heun_tab 0%Q (1 # 2)%Q) 0%Q
                (fun _ _ => 1%Q) in
     fst r LOut tt = (13 # 8)%Q /\ fst r LErr tt = (-1 # 8)%Q
     /\ map (fun p => (fst p tt, snd p)) (snd r) = [(1, 0); (3 # 2, 1 # 2)]%Q.
Proof.
  split; [wf_tab|]. split; [reflexivity|]. split; [apply wf_f78|]. split; [reflexivity|].
  vm_compute. repeat split; reflexivity.
Qed.

(** ** C35: the classic steppers equal their generic counterparts in exact arithmetic: the whole
    memory, error estimate included, and the points of the system calls. *)
Theorem C35_rk4 : forall (eps : R) (I : Type) f al t dt (m : rkmem (RNum eps) I),
  run_step (N := RNum eps) f al (rk4_classic_prog (N := RNum eps) t dt) t m
  = run_step (N := RNum eps) f al (generic_prog (N := RNum eps) rk4_tab t dt) t m.
Proof. intros eps I. exact (@rk4_classic_generic I eps). Qed.
Print Assumptions C35_rk4.
Theorem C35_cash_karp : forall (eps : R) (I : Type) f al t dt (m : rkmem (RNum eps) I),
  run_step (N := RNum eps) f al (ck54_classic_err_prog (N := RNum eps) t dt) t m
  = run_step (N := RNum eps) f al (generic_err_prog (N := RNum eps) ck54_tab t dt) t m.
Proof. intros eps I. exact (@ck54_classic_generic I eps). Qed.
Print Assumptions C35_cash_karp.
Theorem C35_cash_karp_noerror : forall (eps : R) (I : Type) f al t dt (m : rkmem (RNum eps) I),
  run_step (N := RNum eps) f al (ck54_classic_prog (N := RNum eps) t dt) t m
  = run_step (N := RNum eps) f al (generic_prog (N := RNum eps) ck54_tab t dt) t m.
Proof. intros eps I. exact (@ck54_classic_generic_noerr I eps). Qed.
Print Assumptions C35_cash_karp_noerror.

(** A concrete run: rk4 on x' = x, dt = 1, gives 1 + 1 + 1/2 + 1/6 + 1/24. *)
Example C35_example :
  fst (run_step (N := QNum 0) (I := unit) (fun x _ => x) separate (rk4_classic_prog (N := QNum 0) 0%Q 1%Q) 0%Q (fun _ _ => 1%Q)) LOut tt
  = (65 # 24)%Q
  /\ fst (run_step (N := QNum 0) (I := unit) (fun x _ => x) separate (generic_prog (N := QNum 0) rk4_tab 0%Q 1%Q) 0%Q (fun _ _ => 1%Q)) LOut tt
  = (65 # 24)%Q.
Proof. split; vm_compute; reflexivity. Qed.

(** ** C36: the steppers have the order they report: every step is a step of the Runge-Kutta method
    with the tableau [tab_of n], and that tableau satisfies all order conditions of all rooted trees
    with at most order() vertices. *)
Theorem C36_order : forall n,
  (forall (eps : R) (I : Type) (f : (I -> R) -> R -> (I -> R)) al t dt (m : rkmem (RNum eps) I),
     rk_result eps (tab_of n) f (m LIn) t dt
       (fst (run_step (N := RNum eps) f al (rk_impl (N := RNum eps) n t dt) t m) (resolve al LOut)))
  /\ (forall eps, twin eps (tab_of n) (tab_of n))
  /\ has_order ([] :: tab_a (tab_of (N := QNum 0) n)) (tab_b (tab_of (N := QNum 0) n))
               (tab_c (tab_of (N := QNum 0) n)) (rk_order n).
Proof.
  intro n. split; [|split].
  - intros eps I f. exact (named_step eps f n).
  - intro eps. exact (twin_tab_of eps n).
  - exact (named_order n).
Qed.
Print Assumptions C36_order.

(** Polynomial right-hand sides of degree < order() are integrated exactly ([P i] has at most
    order()+1 coefficients). *)
Theorem C36_polynomial : forall (eps : R) (I : Type) n (P : I -> list R) al t dt (m : rkmem (RNum eps) I),
  (forall i, (length (P i) <= S (rk_order n))%nat) ->
  (forall i, m LIn i = peval (P i) t) ->
  forall i,
  fst (run_step (N := RNum eps) (fun (_ : I -> R) s i => peval (pder (P i)) s) al
         (rk_impl (N := RNum eps) n t dt) t m) (resolve al LOut) i
  = peval (P i) (t + dt)%R.
Proof. exact named_polynomial. Qed.
Print Assumptions C36_polynomial.

(** On linear systems the step is the Taylor polynomial of the exponential up to order(), plus
    terms of higher order in dt with coefficients that depend on the method only. *)
Theorem C36_linear_system : forall (eps : R) n, exists (s : nat) (r : nat -> R),
  forall I (A : (I -> R) -> (I -> R)) al t dt (m : rkmem (RNum eps) I), linear_map A ->
  forall j,
  fst (run_step (N := RNum eps) (fun u _ => A u) al (rk_impl (N := RNum eps) n t dt) t m) (resolve al LOut) j
  = (sumn (S (rk_order n)) (fun k => (dt : R) ^ k / INR (fact k) * mpow A k (m LIn) j)
    + sumn s (fun k => r k * (dt : R) ^ (S (rk_order n) + k) * mpow A (S (rk_order n) + k) (m LIn) j))%R.
Proof. exact named_linear_system. Qed.
Print Assumptions C36_linear_system.

(** The reported order of the Cash-Karp and Dormand-Prince steppers is also the largest one. *)
Theorem C36_sharp :
  ~ has_order ([] :: tab_a (ck54_tab (N := QNum 0))) (tab_b (ck54_tab (N := QNum 0))) (tab_c (ck54_tab (N := QNum 0))) 6
  /\ ~ has_order ([] :: tab_a (dopri5_tab7 (N := QNum 0))) (tab_b (dopri5_tab7 (N := QNum 0))) (tab_c (dopri5_tab7 (N := QNum 0))) 6.
Proof. exact (conj ck54_not6 dopri5_not6). Qed.
Print Assumptions C36_sharp.

(** x = 1 + t^4 with euler fails, with rk4 it is exact: the hypotheses are met by a polynomial of
    degree 4 for rk4 (and by degree 8 for fehlberg78). *)
Example C36_example :
  (forall i : unit, (length [1; 0; 0; 0; 1]%R <= S (rk_order rk_rk4))%nat)
  /\ (forall i : unit, (length [1; 0; 0; 0; 0; 0; 0; 0; 1]%R <= S (rk_order rk_f78))%nat)
  /\ linear_map (fun (u : bool -> R) (b : bool) => if b then - u false else u true)%R
  /\ fst (run_step (N := QNum 0) (I := unit) (fun _ s _ => Qred (4 * s * s * s)) separate
        (generic_prog (N := QNum 0) rk4_tab 1%Q 1%Q) 1%Q (fun _ _ => 2%Q)) LOut tt = 17%Q.
Proof.
  split; [simpl; auto|]. split; [simpl; auto 20|]. split.
  - intros a b u v [|]; ring.
  - vm_compute. reflexivity.
Qed.

(** ** C37: the error estimate is the difference of the result and the result of a second method
    on the same stages, which has order error_order(). *)
Theorem C37_error : forall (eps : R) I n (f : (I -> R) -> R -> (I -> R)) al t dt (m : rkmem (RNum eps) I) p,
  rk_err_impl (N := RNum eps) n al t dt = Some p ->
  let m' := fst (run_step (N := RNum eps) f al p t m) in
  let y := m' (resolve al LOut) in
  let e := m' LErr in
  rk_result eps (tab_of n) f (m LIn) t dt y
  /\ has_order ([] :: tab_a (tab_of (N := QNum 0) n)) (embedded (tab_of n)) (tab_c (tab_of (N := QNum 0) n)) (rk_error_order n)
  /\ rk_result eps (second eps (tab_of n) (map Q2R (embedded (tab_of n)))) f (m LIn) t dt
       (fun i => y i - e i)%R
  /\ (dt = 0%R -> forall i, e i = 0%R).
Proof.
  intros eps I n f al t dt m p Hp.
  exact (conj (proj1 (named_err_step eps f n al t dt m p Hp)) (named_error eps I n f al t dt m p Hp)).
Qed.
Print Assumptions C37_error.

(** It vanishes for polynomial right-hand sides of degree < error_order(). *)
Theorem C37_polynomial : forall (eps : R) I n (P : I -> list R) al t dt (m : rkmem (RNum eps) I) p,
  rk_err_impl (N := RNum eps) n al t dt = Some p ->
  (forall i, (length (P i) <= S (rk_error_order n))%nat) ->
  (forall i, m LIn i = peval (P i) t) ->
  forall i, fst (run_step (N := RNum eps) (fun (_ : I -> R) s i => peval (pder (P i)) s) al p t m) LErr i = 0%R.
Proof. exact named_error_polynomial. Qed.
Print Assumptions C37_polynomial.

(** Cash-Karp on x' = 5 t^4 from 0 to 1: exact result, error estimate not zero; on x' = 4 t^3 it is. *)
Example C37_example :
  (exists p, rk_err_impl (N := RNum 0) rk_dopri5 separate 0%R 1%R = Some p)
  /\ (forall i : unit, (length [0; 0; 0; 0; 1]%R <= S (rk_error_order rk_dopri5))%nat)
  /\ fst (run_step (N := QNum 0) (I := unit) (fun _ s _ => Qred (4 * s * s * s)) separate
        (generic_err_prog (N := QNum 0) ck54_tab 0%Q 1%Q) 0%Q (fun _ _ => 0%Q)) LErr tt = 0%Q
  /\ Qeq_bool (fst (run_step (N := QNum 0) (I := unit) (fun _ s _ => Qred (5 * s * s * s * s)) separate
        (generic_err_prog (N := QNum 0) ck54_tab 0%Q 1%Q) 0%Q (fun _ _ => 0%Q)) LErr tt) 0 = false.
Proof.
  split; [eexists; reflexivity|]. split; [simpl; auto|].
  split; vm_compute; reflexivity.
Qed.

(** ** C38: linear changes of variables and linear invariants. *)
Theorem C38_linear_map : forall (eps : R) I J n (T : (I -> R) -> (J -> R)) f g al t dt
    (m : rkmem (RNum eps) I) (m2 : rkmem (RNum eps) J),
  linear_map T -> (forall u s, g (T u) s = T (f u s)) -> m2 LIn = T (m LIn) ->
  forall j,
  fst (run_step (N := RNum eps) g al (rk_impl (N := RNum eps) n t dt) t m2) (resolve al LOut) j
  = T (fst (run_step (N := RNum eps) f al (rk_impl (N := RNum eps) n t dt) t m) (resolve al LOut)) j.
Proof. exact named_linear_map. Qed.
Print Assumptions C38_linear_map.

Theorem C38_invariant : forall (eps : R) I n (l : (I -> R) -> R) f al t dt (m : rkmem (RNum eps) I),
  linear_functional l -> (forall u s, l (f u s) = 0%R) ->
  l (fst (run_step (N := RNum eps) f al (rk_impl (N := RNum eps) n t dt) t m) (resolve al LOut)) = l (m LIn).
Proof. exact named_invariant. Qed.
Print Assumptions C38_invariant.

(** Any tableau: explicit_generic_rk with user coefficients. *)
Theorem C38_invariant_generic : forall (eps : R) I (tb : tableau (RNum eps)) (l : (I -> R) -> R) f al t dt
    (m : rkmem (RNum eps) I),
  wf_tableau tb -> linear_functional l -> (forall u s, l (f u s) = 0%R) ->
  l (fst (run_step (N := RNum eps) f al (generic_prog (N := RNum eps) tb t dt) t m) (resolve al LOut)) = l (m LIn).
Proof.
  intros eps I tb l f al t dt m Hwf Hl Hf.
  exact (rk_linear_invariant eps tb l f (m LIn) t dt _ Hwf Hl Hf (generic_R eps f tb al t dt m Hwf)).
Qed.
Print Assumptions C38_invariant_generic.

(** Whole runs: every observed state and the final state have the value of the initial state;
    integrate_const, integrate_n_steps, integrate_adaptive and integrate_times, any observer
    (which may throw). *)
Theorem C38_integrate : forall (eps : R) I W n (l : (I -> R) -> R) f (obs : W -> (I -> R) -> R -> res W)
    (tmp : rkmem (RNum eps) I) (x : I -> R) fuel w,
  linear_functional l -> (forall u s, l (f u s) = 0%R) ->
  let st := plain_step (rk_do_step (N := RNum eps) f n) in
  let same := fun y : I -> R => l y = l x in
  (forall t0 tend dt, run_inv (obs_inv same) (fun '(_, _, y, _) => same y)
     (integrate_const (N := RNum eps) (user_obs obs) st fuel tmp w x t0 tend dt))
  /\ (forall t0 dt k, run_inv (obs_inv same) (fun '(_, _, y, _) => same y)
     (integrate_n_steps (N := RNum eps) (user_obs obs) st tmp w x t0 dt k))
  /\ (forall t0 tend dt, run_inv (obs_inv same) (fun '(_, _, y, _) => same y)
     (integrate_adaptive_plain (N := RNum eps) (user_obs obs) st fuel tmp w x t0 tend dt))
  /\ (forall times dt, run_inv (obs_inv same) (fun '(_, _, y, _) => same y)
     (integrate_times_plain (N := RNum eps) (user_obs obs) st fuel tmp w x times dt)).
Proof.
  intros eps I W n l f obs tmp x fuel w Hl Hf st same.
  assert (K : step_keeps (N := RNum eps) (W := W) (fun _ => True) same st).
  { apply plain_step_keeps. intros s y t dt _ Hy. split; [exact Logic.I|].
    unfold rk_do_step. cbn [snd]. unfold same in *. rewrite <- Hy.
    exact (named_invariant eps I n l f (mkAlias true false) t dt (upd s LIn y) Hl Hf). }
  pose proof (user_obs_shows (N := RNum eps) same obs) as O.
  assert (Wk : forall A B C D (r : M (ev A B) (C * D * (I -> R) * nat)), 
     run_inv (fun _ => True) (fun '(s', _, y, _) => True /\ same y) r -> True) by auto. clear Wk.
  assert (Wk : forall C D F V (E : V -> Prop) (r : M V (C * D * (I -> R) * F)),
     run_inv E (fun '(s', _, y, _) => True /\ same y) r -> run_inv E (fun '(_, _, y, _) => same y) r).
  { intros C D F V E r [A B]. split; auto. intros [[[s' w'] y] k] H. exact (proj2 (B _ H)). }
  split; [|split; [|split]]; intros; apply Wk.
  - apply (integrate_const_inv (fun _ => True) same _ O _ K); [exact Logic.I|reflexivity].
  - apply (integrate_n_steps_inv (fun _ => True) same _ O _ K); [exact Logic.I|reflexivity].
  - apply (integrate_adaptive_plain_inv (fun _ => True) same _ O _ K); [exact Logic.I|reflexivity].
  - apply (integrate_times_plain_inv (fun _ => True) same _ O _ K); [exact Logic.I|reflexivity].
Qed.
Print Assumptions C38_integrate.

(** Mass exchange between two compartments keeps the sum. *)
Example C38_example :
  let f := fun (u : bool -> R) (s : R) (b : bool) => (if b then u false * s - u true else u true - u false * s)%R in
  let l := fun u : bool -> R => (u true + u false)%R in
  linear_functional l /\ (forall u s, l (f u s) = 0%R)
  /\ (let fq := fun (u : bool -> Q) (s : Q) (b : bool) => (if b then Qred (u false * s - u true) else Qred (u true - u false * s))%Q in
      let y := fst (run_step (N := QNum 0) fq separate (generic_prog (N := QNum 0) rk4_tab 1%Q (1 # 2)%Q) 1%Q
                (fun _ (b : bool) => if b then 1%Q else 3%Q)) LOut in
      Qred (y true + y false) = 4%Q /\ Qeq_bool (y true) 1 = false).
Proof.
  cbv zeta. split; [intros a b u v; ring|]. split; [intros u s; ring|].
  vm_compute. split; reflexivity.
Qed.

(** ** C39: in-place and out-of-place steps agree, in any arithmetic. *)
Theorem C39_in_place_partial : forall (N : Num) I (f : vec N I -> N -> vec N I) n al t dt (m : rkmem N I),
  let r := run_step f al (rk_impl n t dt) t m in
  let r0 := run_step f separate (rk_impl n t dt) t m in
  fst r (resolve al LOut) = fst r0 LOut /\ snd r = snd r0.
Proof. exact named_in_place. Qed.
Print Assumptions C39_in_place_partial.

(** With error estimate; dopri5 also with dxdt_in and dxdt_out the same object (its own use of
    them in do_step with in-place FSAL derivative). *)
Theorem C39_in_place_error_partial : forall (N : Num) I (f : vec N I -> N -> vec N I) al t dt (m : rkmem N I),
  (forall tb, wf_tableau tb -> length (tab_b2 tb) = length (tab_b tb) ->
    let r := run_step f al (generic_err_prog tb t dt) t m in
    let r0 := run_step f separate (generic_err_prog tb t dt) t m in
    fst r (resolve al LOut) = fst r0 LOut /\ fst r LErr = fst r0 LErr /\ snd r = snd r0)
  /\ (let r := run_step f al (ck54_classic_err_prog t dt) t m in
      let r0 := run_step f separate (ck54_classic_err_prog t dt) t m in
      fst r (resolve al LOut) = fst r0 LOut /\ fst r LErr = fst r0 LErr /\ snd r = snd r0)
  /\ (let r := exec f al (dopri5_err_prog al t dt) m in
      let r0 := exec f separate (dopri5_err_prog separate t dt) m in
      fst r (resolve al LOut) = fst r0 LOut /\ fst r (resolve al LDxOut) = fst r0 LDxOut
      /\ fst r LErr = fst r0 LErr /\ snd r = snd r0).
Proof.
  intros N I f al t dt m.
  exact (conj (fun tb H1 H2 => generic_alias f tb al t dt m H1 H2)
        (conj (ck54_classic_alias f al t dt m) (dopri5_alias f al t dt m))).
Qed.
Print Assumptions C39_in_place_error_partial.

(** The aliasing of the model is real: a program that writes [out] too early gives a different
    result in place, so the theorem is not true of every program. *)
Example C39_example :
  let f := fun (x : unit -> Q) (_ : Q) => x in
  let bad := [ISum (N := QNum 0) LOut [(1%Q, LIn); (1%Q, LDx)]; ISum (N := QNum 0) LOut [(1%Q, LIn); (1%Q, LOut)]] in
  fst (run_step (N := QNum 0) f separate bad 0%Q (fun _ _ => 1%Q)) LOut tt = 3%Q
  /\ fst (run_step (N := QNum 0) f (mkAlias true false) bad 0%Q (fun _ _ => 1%Q)) LIn tt = 4%Q
  /\ fst (run_step (N := QNum 0) f (mkAlias true false) (dopri5_prog (N := QNum 0) 0%Q (1 # 2)%Q) 0%Q (fun _ _ => 1%Q)) LIn tt
   = fst (run_step (N := QNum 0) f separate (dopri5_prog (N := QNum 0) 0%Q (1 # 2)%Q) 0%Q (fun _ _ => 1%Q)) LOut tt.
Proof. vm_compute. repeat split; reflexivity. Qed.

(** ** C41: the dense output of dopri5 after a step from t to t+dt. *)
Theorem C41_dopri5_dense : forall (eps : R) I (f : (I -> R) -> R -> (I -> R)) t dt (m : rkmem (RNum eps) I),
  dt <> 0%R -> m LDx = f (m LIn) t ->
  let m' := fst (exec (N := RNum eps) f separate (dopri5_err_prog (N := RNum eps) separate t dt) m) in
  let D := dense_at eps t dt m m' in
  forall i,
  D t i = m LIn i
  /\ D (t + dt)%R i = m' LOut i
  /\ derivable_pt_lim (fun s => D s i) t (f (m LIn) t i)
  /\ derivable_pt_lim (fun s => D s i) (t + dt)%R (f (m' LOut) (t + dt)%R i).
Proof. intros eps I. exact (@dopri5_dense eps I). Qed.
Print Assumptions C41_dopri5_dense.

(** It has order 4 at every theta: all order conditions of trees with up to 4 vertices, hence exact
    for right-hand sides that are polynomials in t of degree 3. *)
Theorem C41_dense_order : forall tr (th : R), (tsize tr <= 4)%nat ->
  rsum (map (fun p => fst p * snd p)%R
         (combine (dense_weights th) (map Q2R (phi ([] :: tab_a (dopri5_tab7 (N := QNum 0))) tr))))
  = (th ^ tsize tr / IZR (gamma tr))%R.
Proof. exact dense_order4. Qed.
Print Assumptions C41_dense_order.

Theorem C41_dense_polynomial : forall (eps : R) I (f : (I -> R) -> R -> (I -> R)) (P : I -> list R) t dt
    (m : rkmem (RNum eps) I), dt <> 0%R ->
  (forall x s i, f x s i = peval (pder (P i)) s) -> (forall i, (length (P i) <= 5)%nat) ->
  m LDx = f (m LIn) t -> (forall i, m LIn i = peval (P i) t) ->
  let m' := fst (exec (N := RNum eps) f separate (dopri5_err_prog (N := RNum eps) separate t dt) m) in
  forall s i, dense_at eps t dt m m' s i = peval (P i) s.
Proof. intros eps I. exact (@dopri5_dense_polynomial eps I). Qed.
Print Assumptions C41_dense_polynomial.

(** x' = x from 1 over dt = 1: half way the interpolant gives a value near exp(1/2). *)
Example C41_example :
  let f := fun (x : unit -> Q) (_ : Q) => x in
  let m := fun (_ : loc) (_ : unit) => 1%Q in
  let m' := fst (exec (N := QNum 0) f separate (dopri5_err_prog (N := QNum 0) separate 0%Q 1%Q) m) in
  let D := fun s => dopri5_calc_state (N := QNum 0) s (m LIn) (m LDx) 0%Q (m' (LK 1)) (m' (LK 2)) (m' (LK 3)) (m' (LK 4))
             (m' LDxOut) 1%Q tt in
  m LDx = f (m LIn) 0%Q /\ D 0%Q = 1%Q /\ D 1%Q = m' LOut tt
  /\ Qle_bool (164 # 100) (D (1 # 2)%Q) = true /\ Qle_bool (D (1 # 2)%Q) (165 # 100) = true.
Proof. vm_compute. repeat split; reflexivity. Qed.

(** ** C42 (euler): the interpolant is the straight line between both ends. *)
Theorem C42_euler_partial : forall (eps : R) I (f : (I -> R) -> R -> (I -> R)) t dt (m : rkmem (RNum eps) I),
  let m' := fst (run_step (N := RNum eps) f separate (euler_prog (N := RNum eps) t dt) t m) in
  let D s := fst (exec (N := RNum eps) f separate (euler_calc_prog (N := RNum eps) s t) m') LOut in
  (forall s i, D s i = m LIn i + (s - t) * f (m LIn) t i)%R
  /\ (forall i, D t i = m LIn i) /\ (forall i, D (t + dt)%R i = m' LOut i).
Proof. intros eps I. exact (@euler_dense eps I). Qed.
Print Assumptions C42_euler_partial.

Example C42_euler_example :
  let f := fun (x : unit -> Q) (_ : Q) => x in
  let m' := fst (run_step (N := QNum 0) f separate (euler_prog (N := QNum 0) 0%Q 1%Q) 0%Q (fun _ _ => 1%Q)) in
  fst (exec (N := QNum 0) f separate (euler_calc_prog (N := QNum 0) (1 # 2)%Q 0%Q) m') LOut tt = (3 # 2)%Q.
Proof. vm_compute. reflexivity. Qed.

(** ** C69: a property of states (and stepper objects) that one step keeps is kept by every
    integrate function, for every observed state and the final state, also when the run ends with
    an exception. *)
Theorem C69_plain : forall (N : Num) (S W X : Type) (PS : S -> Prop) (PX : X -> Prop)
    (obs : W -> X -> N -> M (ev X N) W) do_step,
  obs_shows PX obs -> step_keeps PS PX do_step ->
  forall fuel s w x, PS s -> PX x ->
  let post := fun r : S * W * X * nat => let '(s', _, x', _) := r in PS s' /\ PX x' in
  (forall t0 tend dt, run_inv (obs_inv PX) post (integrate_const obs do_step fuel s w x t0 tend dt))
  /\ (forall t0 dt n, run_inv (obs_inv PX) (fun '(s', _, x', _) => PS s' /\ PX x')
        (integrate_n_steps obs do_step s w x t0 dt n))
  /\ (forall t0 tend dt, run_inv (obs_inv PX) post (integrate_adaptive_plain obs do_step fuel s w x t0 tend dt))
  /\ (forall times dt, run_inv (obs_inv PX) post (integrate_times_plain obs do_step fuel s w x times dt)).
Proof.
  intros N S W X PS PX obs do_step Ho Hst fuel s w x Hs Hx post.
  split; [|split; [|split]]; intros.
  - now apply integrate_const_inv.
  - now apply integrate_n_steps_inv.
  - now apply integrate_adaptive_plain_inv.
  - now apply integrate_times_plain_inv.
Qed.
Print Assumptions C69_plain.

Theorem C69_controlled : forall (N : Num) (S W X : Type) (PS : S -> Prop) (PX : X -> Prop)
    (obs : W -> X -> N -> M (ev X N) W) try_step,
  obs_shows PX obs -> try_keeps PS PX try_step ->
  forall fuel s w x, PS s -> PX x ->
  (forall t0 tend dt, run_inv (obs_inv PX) (fun '(_, x', _) => PX x')
     (integrate_const_ctrl try_step obs fuel s w x t0 tend dt))
  /\ (forall t0 dt n, run_inv (obs_inv PX) (fun '(_, x', _) => PX x')
        (integrate_n_steps_ctrl try_step obs fuel s w x t0 dt n))
  /\ (forall t0 tend dt, run_inv (obs_inv PX) (fun '(s', _, x', _, _, _) => PS s' /\ PX x')
        (integrate_adaptive_ctrl try_step obs fuel s w x t0 tend dt))
  /\ (forall times dt, run_inv (obs_inv PX) (fun '(s', _, x', _) => PS s' /\ PX x')
        (integrate_times_ctrl try_step obs fuel s w x times dt)).
Proof.
  intros N S W X PS PX obs try_step Ho Hst fuel s w x Hs Hx.
  split; [|split; [|split]]; intros.
  - now apply (integrate_const_ctrl_inv PS PX).
  - now apply (integrate_n_steps_ctrl_inv PS PX).
  - now apply integrate_adaptive_ctrl_inv.
  - now apply integrate_times_ctrl_inv.
Qed.
Print Assumptions C69_controlled.

Theorem C69_dense : forall (N : Num) (S W X : Type) (PS : S -> Prop) (PX : X -> Prop)
    (obs : W -> X -> N -> M (ev X N) W) (D : DenseOps N S W X),
  obs_shows PX obs -> dense_keeps PS PX D ->
  forall fuel s w x, PS s -> PX x ->
  let post := fun r : S * W * X * nat => let '(s', _, x', _) := r in PS s' /\ PX x' in
  (forall t0 tend dt, run_inv (obs_inv PX) post (integrate_const_dense D obs fuel s w x t0 tend dt))
  /\ (forall t0 dt n, run_inv (obs_inv PX) (fun '(s', _, x', _) => PS s' /\ PX x')
        (integrate_n_steps_dense D obs fuel s w x t0 dt n))
  /\ (forall t0 tend dt, run_inv (obs_inv PX) post (integrate_adaptive_dense D obs fuel s w x t0 tend dt))
  /\ (forall times dt, run_inv (obs_inv PX) post (integrate_times_dense D obs fuel s w x times dt)).
Proof.
  intros N S W X PS PX obs D Ho Hd fuel s w x Hs Hx post.
  split; [|split; [|split]]; intros.
  - now apply integrate_const_dense_inv.
  - now apply integrate_n_steps_dense_inv.
  - now apply integrate_adaptive_dense_inv.
  - now apply integrate_times_dense_inv.
Qed.
Print Assumptions C69_dense.

(** The hypotheses hold e.g. for the counting Euler stepper of X_Inst with "the state is positive"
    restricted to positive step sizes built into the stepper object's predicate, and for dense
    output with an exact interpolant and the trivial stepper predicate. *)
Example C69_example :
  obs_shows (N := Q0) (W := unit) (fun x : Q => 0 < x)%Q rec_obs
  /\ step_keeps (N := Q0) (W := unit) (fun _ => True) (fun x => 0 < x)%Q
       (plain_step (fun (s : nat) x t dt => (s, Qred (x + Qabs.Qabs dt * x))))
  /\ obs_of (fst (integrate_const (N := Q0) (W := unit) rec_obs
        (plain_step (fun (s : nat) x t dt => (s, Qred (x + Qabs.Qabs dt * x)))) 9 0%nat tt 1%Q 0%Q (1)%Q (1 # 2)%Q))
     = [(1, 0); (3 # 2, 1 # 2); (9 # 4, 1)]%Q.
Proof.
  split; [apply rec_obs_shows|]. split.
  - apply (plain_step_keeps (N := Q0) (fun _ : nat => True) (fun x : Q => 0 < x)%Q).
    intros s x t dt _ Hx. split; [exact I|]. cbn [snd].
    rewrite Qred_correct. apply Qlt_le_trans with x; auto.
    rewrite <- (Qplus_0_r x) at 1. apply Qplus_le_r. apply Qmult_le_0_compat.
    + apply Qabs.Qabs_nonneg.
    + now apply Qlt_le_weak.
  - vm_compute. reflexivity.
Qed.

(** C131: adams_bashforth with the initializing stepper it has by default, extrapolation_stepper< order_helper< Steps >::value >. *)
From Coq Require Import List Arith Bool ZArith QArith Reals Lia Lra FunctionalExtensionality.
From Verif Require Import M_Num M_Sign M_Run M_Plain M_RK M_Midpoint M_Adams S_Grid S_Real S_RK S_Conv S_BSeries S_Adams S_Taylor S_AdamsConv S_Midpoint S_BS X_Inst
  P_Run P_R P_Plain P_PlainR P_Poly P_RK P_RKOrder P_RKNamed P_RKAll P_RKMem P_Midpoint P_Adams P_AdamsR P_Conv P_ConvRun P_ConvOrd P_Taylor P_AdamsConv
  P_BS P_BSInd P_BSR P_Neville P_Extrap P_Gragg P_GraggConv P_GraggStab T_Butcher T_BSPoly T_BS T_AdamsConv T_Gragg.
Import ListNotations.
Local Open Scope res_scope.
Local Open Scope R_scope.

(** order_helper: the smallest order extrapolation_stepper has that is at least Steps. *)
Lemma helper_even K : exists o, order_helper K = (2 * o)%nat /\ (2 <= o)%nat /\ (K <= order_helper K)%nat.
Proof.
  unfold order_helper. destruct (Nat.even K) eqn:E.
  - apply Nat.even_spec in E. destruct E as [m ->]. destruct (Nat.max_spec (2 * m) 4) as [[A ->]|[A ->]]; [exists 2%nat; lia|exists m; lia].
  - assert (O : Nat.odd K = true) by (unfold Nat.odd; now rewrite E). apply Nat.odd_spec in O. destruct O as [m ->].
    destruct (Nat.max_spec (S (2 * m + 1)) 4) as [[A ->]|[A ->]]; [exists 2%nat; lia|exists (m + 1)%nat; lia].
Qed.

(** [n] steps do_step( system , in , t , out , dt ) into a second state that is the input of the next one. *)
Fixpoint steps_out eps {I : Type} (K : nat) (f : (I -> R) -> R -> (I -> R)) (n : nat) (s : ab (RNum eps) I (es (RNum eps) I)) (x : I -> R) (t dt : R)
  : res (ab (RNum eps) I (es (RNum eps) I) * (I -> R)) :=
  match n with
  | O => Ok (s, x)
  | S n' => let! (s1, x1, _) := ab_do_step (N := RNum eps) K f (es_istep (N := RNum eps) f K) false false s x t dt in steps_out eps K f n' s1 x1 (t + dt) dt
  end.

Section Default.
Variable eps : R.
Notation NN := (RNum eps).
Context {I : Type}.
Variable K : nat.
Hypothesis HK : (1 <= K <= 8)%nat.
Notation p := (order_helper K).
Notation kmax := (es_kmax (order_helper K)).
(** The two entries of extrapolation_stepper the Adams steppers use, on an object whose table is long enough. *)
Definition guarded (est : ((I -> R) -> R -> (I -> R)) -> es NN I -> (I -> R) -> (I -> R) -> R -> R -> res (es NN I * (I -> R)))
  (g : (I -> R) -> R -> (I -> R)) (e : es NN I) (io : bool) (x dx : I -> R) (t dt : R) : res (es NN I * (I -> R)) :=
  if (kmax <=? length (es_table e))%nat then est g e x dx t dt else UB.
Definition extra (g : (I -> R) -> R -> (I -> R)) (x dx : I -> R) (t dt : R) : I -> R :=
  nev (N := NN) es_seq (fun l => mm_val (N := NN) g (es_seq l) x dx t dt) kmax kmax.
Definition good (est : ((I -> R) -> R -> (I -> R)) -> es NN I -> (I -> R) -> (I -> R) -> R -> R -> res (es NN I * (I -> R))) : Prop :=
  forall g e x dx t dt, (kmax <= length (es_table e))%nat -> exists e', est g e x dx t dt = Ok (e', extra g x dx t dt) /\ (kmax <= length (es_table e'))%nat.
Definition est_out (g : (I -> R) -> R -> (I -> R)) (e : es NN I) (x dx : I -> R) (t dt : R) := es_istep (N := NN) g K e false x dx t dt.
Definition est_dx (g : (I -> R) -> R -> (I -> R)) (e : es NN I) (x dx : I -> R) (t dt : R) := es_do_step_dxdt (N := NN) g p e x dx t dt.
Lemma good_out : good est_out.
Proof.
  intros g e x dx t dt Hl. destruct (es_impl_nev (N := NN) g p e x dx t dt Hl) as (e' & E & L & _). exists e'. split; [exact E|]. rewrite L. exact Hl.
Qed.
Lemma good_dx : good est_dx.
Proof.
  intros g e x dx t dt Hl. destruct (es_impl_nev (N := NN) g p e x dx t dt Hl) as (e' & E & L & _). unfold est_dx, es_do_step_dxdt. rewrite E. cbn [rbind].
  eexists. split; [reflexivity|]. cbn [es_table]. rewrite L. exact Hl.
Qed.
Lemma guarded_ok est (G : good est) g e io x dx t dt e' out : guarded est g e io x dx t dt = Ok (e', out) -> out = extra g x dx t dt /\ (kmax <= length (es_table e'))%nat.
Proof.
  unfold guarded. destruct (Nat.leb_spec kmax (length (es_table e))) as [Q|Q]; [|discriminate]. intro E.
  destruct (G g e x dx t dt Q) as (e2 & E2 & L2). rewrite E in E2. injection E2 as <- <-. auto.
Qed.

Variables L M H E : R.
Hypothesis HL : 0 <= L.
Hypothesis HM : 0 <= M.
Hypothesis HE : 0 <= E.
Variable f : (I -> R) -> R -> (I -> R).
Variable Y : nat -> R -> I -> R.
Variables t0 tend dt : R.
Hypothesis He : 0 <= eps.
Notation T := (span eps t0 tend (dir dt)).
Hypothesis Hdir : 0 <= dir dt * (tend - t0).
Hypothesis Hh : Rabs dt <= H.
Hypothesis Lip : lipschitz T L f.
Hypothesis Der : derivatives T (S K) Y.
Hypothesis Sol : forall t i, T t -> Y 1%nat t i = f (Y 0%nat t) t i.
Hypothesis Bnd : deriv_bound T (S K) M Y.
Hypothesis Con : forall t h, T t -> T (t + h) -> Rabs h <= H -> forall i, Rabs (extra f (Y 0%nat t) (f (Y 0%nat t) t) t h i - Y 0%nat (t + h) i) <= E * Rabs h ^ S p.
Definition La : R := ext_growth es_seq kmax kmax kmax L H.
Definition E0 : R := E * Rabs dt ^ S p.
Lemma H_nonneg : 0 <= H. Proof. pose proof (Rabs_pos dt). lra. Qed.
Lemma La_nonneg : 0 <= La. Proof. apply ext_growth_nonneg; [exact HL|exact H_nonneg]. Qed.
Lemma E0_nonneg : 0 <= E0. Proof. apply Rmult_le_pos; [exact HE|apply pow_le, Rabs_pos]. Qed.

Lemma start_ok est (G : good est) : forall is io x t b is' out, 0 <= b -> T t -> T (t + dt) -> (forall j, Rabs (x j - Y 0%nat t j) <= b) ->
  guarded est f is io x (f x t) t dt = Ok (is', out) -> forall i, Rabs (out i - Y 0%nat (t + dt) i) <= (1 + Rabs dt * La) * b + E0.
Proof.
  intros is io x t b is' out Hb Ht Hth Hx Eo i. destruct (guarded_ok est G _ _ _ _ _ _ _ _ _ Eo) as [-> _].
  exact (ext_local eps T (span_conv eps t0 tend (dir dt)) f L H HL Lip (Y 0%nat) E p es_seq kmax kmax kmax x t dt b (es_seq_inc kmax)
    (fun i _ => proj1 (even_of _ (es_even i))) (conj (le_n _) (le_n _)) Hb Ht Hth Hh Hx (Con t dt Ht Hth Hh) i).
Qed.

Notation inv := (ab_inv (IS := es NN I) eps T K L 0 Y t0 dt E0 (g_ab eps K L La) (c_ab eps K M)).
Lemma one_step est (G : good est) io k s x s' x' log : T (t0 + INR k * dt) -> T (t0 + INR (S k) * dt) -> inv k s x ->
  ab_do_step (N := NN) K f (guarded est f) false io s x (t0 + INR k * dt)%R dt = Ok (s', x', log) -> inv (S k) s' x'.
Proof.
  exact (ab_inv_step eps T (span_conv eps t0 tend (dir dt)) f K HK L M 0 HL HM (Rle_refl 0) Lip Y Der Sol Bnd t0 dt (guarded est) La E0 La_nonneg E0_nonneg
    (start_ok est G) io k s x s' x' log).
Qed.

(** A step with the unguarded starter on a good object. *)
Lemma unguard est (G : good est) io s x t : (kmax <= length (es_table (ab_is s)))%nat ->
  ab_do_step (N := NN) K f (fun e (_ : bool) => est f e) false io s x t dt = ab_do_step (N := NN) K f (guarded est f) false io s x t dt
  /\ forall s' x' log, ab_do_step (N := NN) K f (guarded est f) false io s x t dt = Ok (s', x', log) -> (kmax <= length (es_table (ab_is s')))%nat.
Proof.
  intro Hl. unfold ab_do_step. destruct (Nat.ltb (ab_init s + 1) K).
  - assert (Eg : guarded est f (ab_is s) io x (f x t) t dt = est f (ab_is s) x (f x t) t dt).
    { unfold guarded. destruct (Nat.leb_spec kmax (length (es_table (ab_is s)))); [reflexivity|lia]. }
    rewrite Eg. split; [reflexivity|]. intros s' x' log.
    destruct (rb_set _ _ _ _) as [b1| | |]; cbn [rbind]; try discriminate.
    destruct (G f (ab_is s) x (f x t) t dt Hl) as (e' & E1 & L1). rewrite E1. cbn [rbind]. intro Q. injection Q as <- _ _. exact L1.
  - split; [reflexivity|]. intros s' x' log. destruct (rb_set _ _ _ _) as [b1| | |]; cbn [rbind]; try discriminate.
    destruct (rb_gets _ _ _ _) as [ds| | |]; cbn [rbind]; try discriminate. intro Q. injection Q as <- _ _. exact Hl.
Qed.

(** Steps into a second state. *)
Lemma out_inv : forall n k s x, (forall j, (j <= k + n)%nat -> T (t0 + INR j * dt)) -> inv k s x -> (kmax <= length (es_table (ab_is s)))%nat ->
  exists s' x', steps_out eps K f n s x (t0 + INR k * dt)%R dt = Ok (s', x') /\ inv (k + n) s' x'.
Proof.
  induction n as [|n IH]; intros k s x HT Hi Hl; [exists s, x; rewrite Nat.add_0_r; split; [reflexivity|exact Hi]|].
  cbn [steps_out].
  destruct (unguard est_out good_out false s x (t0 + INR k * dt)%R Hl) as [U1 U2].
  assert (Ea : ab_do_step (N := NN) K f (es_istep (N := NN) f K) false false s x (t0 + INR k * dt)%R dt
    = ab_do_step (N := NN) K f (guarded est_out f) false false s x (t0 + INR k * dt)%R dt).
  { rewrite <- U1. unfold ab_do_step, est_out. reflexivity. }
  assert (Ho : exists s1 x1 lg, ab_do_step (N := NN) K f (guarded est_out f) false false s x (t0 + INR k * dt)%R dt = Ok (s1, x1, lg)).
  { destruct Hi as (l & _ & Hh1 & _ & _).
    pose proof (ab_call (N := NN) K ltac:(lia) (guarded est_out) f false s l x (t0 + INR k * dt)%R dt Hh1) as C.
    destruct (Nat.ltb (ab_init s + 1) K).
    - assert (Eg : exists e', guarded est_out f (ab_is s) false x (f x (t0 + INR k * dt)%R) (t0 + INR k * dt)%R dt = Ok (e', extra f x (f x (t0 + INR k * dt)%R) (t0 + INR k * dt)%R dt)).
      { destruct (good_out f (ab_is s) x (f x (t0 + INR k * dt)%R) (t0 + INR k * dt)%R dt Hl) as (e' & E1 & _). exists e'. unfold guarded.
        destruct (Nat.leb_spec kmax (length (es_table (ab_is s)))); [exact E1|lia]. }
      destruct Eg as [e' Eg]. cbv beta in C. rewrite Eg in C. destruct C as (s1 & C & _). eauto.
    - destruct C as (s1 & C & _). eauto. }
  destruct Ho as (s1 & x1 & lg & Eo). rewrite Ea, Eo. cbn [rbind].
  pose proof (one_step est_out good_out false k s x s1 x1 lg (HT k ltac:(lia)) (HT (S k) ltac:(lia)) Hi Eo) as H1.
  replace (t0 + INR k * dt + dt) with (t0 + INR (S k) * dt) by (rewrite S_INR; ring).
  rewrite <- plus_n_Sm. apply (IH (S k)); [|exact H1|exact (U2 _ _ _ Eo)]. intros j Hj. apply HT. lia.
Qed.

(** initialize( system , x , t , dt ). *)
Lemma init_inv : forall n k e b x, (forall j, (j <= k + n)%nat -> T (t0 + INR j * dt)) -> (k + n = K - 1)%nat -> inv k (mkAb (N := NN) b k e) x ->
  (kmax <= length (es_table e))%nat ->
  exists e' b' x', ab_init_loop (N := NN) K f (est_dx f) n k e b x (t0 + INR k * dt)%R dt = Ok (e', b', x', (t0 + INR (k + n) * dt)%R)
    /\ inv (k + n) (mkAb (N := NN) b' (k + n) e') x'.
Proof.
  induction n as [|n IH]; intros k e b x HT Hk Hi Hl; [exists e, b, x; rewrite Nat.add_0_r; split; [reflexivity|exact Hi]|].
  cbn [ab_init_loop].
  assert (Hlt : Nat.ltb (k + 1) K = true) by (apply Nat.ltb_lt; lia).
  destruct (good_dx f e x (f x (t0 + INR k * dt)%R) (t0 + INR k * dt)%R dt Hl) as (e1 & E1 & L1).
  assert (Hb : exists b1, rb_set K (if Nat.eqb k 0 then b else rb_rotate K b) 0 (f x (t0 + INR k * dt)%R) = Ok b1).
  { destruct Hi as (l & _ & Hh1 & _ & _). pose proof (ab_call (N := NN) K ltac:(lia) (guarded est_dx) f false _ l x (t0 + INR k * dt)%R dt Hh1) as C.
    cbn [ab_init ab_is] in C. rewrite Hlt in C. cbv beta in C.
    unfold guarded at 1 in C. destruct (Nat.leb_spec kmax (length (es_table e))) as [Q|Q]; [|lia]. rewrite E1 in C. destruct C as (s1 & C & _).
    unfold ab_do_step in C. cbn [ab_init ab_buf] in C. rewrite Hlt in C.
    destruct (rb_set _ _ _ _) as [b1| | |]; [exists b1; reflexivity|discriminate C|discriminate C|discriminate C]. }
  destruct Hb as [b1 Eb]. rewrite Eb, E1. cbn [rbind].
  assert (Eo : ab_do_step (N := NN) K f (guarded est_dx f) false false (mkAb (N := NN) b k e) x (t0 + INR k * dt)%R dt
    = Ok (mkAb (N := NN) b1 (S k) e1, extra f x (f x (t0 + INR k * dt)%R) (t0 + INR k * dt)%R dt, [(x, (t0 + INR k * dt)%R)])).
  { unfold ab_do_step. cbn [ab_init ab_buf ab_is]. rewrite Hlt, Eb. cbn [rbind]. unfold guarded.
    destruct (Nat.leb_spec kmax (length (es_table e))) as [Q|Q]; [|lia]. rewrite E1. reflexivity. }
  pose proof (one_step est_dx good_dx false k _ x _ _ _ (HT k ltac:(lia)) (HT (S k) ltac:(lia)) Hi Eo) as H1.
  change (nadd (n := NN) (t0 + INR k * dt)%R dt) with (t0 + INR k * dt + dt)%R.
  replace (t0 + INR k * dt + dt) with (t0 + INR (S k) * dt) by (rewrite S_INR; ring).
  rewrite <- plus_n_Sm. apply (IH (S k)); [|lia|exact H1|exact L1]. intros j Hj. apply HT. lia.
Qed.

(** Once there are enough derivatives the initializing stepper is not used. *)
Lemma started ist est io s x t : Nat.ltb (ab_init s + 1) K = false ->
  ab_do_step (N := NN) K f ist false io s x t dt = ab_do_step (N := NN) K f (guarded est f) false io s x t dt.
Proof. intro Q. unfold ab_do_step. rewrite Q. reflexivity. Qed.

Lemma near_final k s x : inv k s x -> forall i, Rabs (x i - Y 0%nat (t0 + INR k * dt) i) <=
  lmm_bound (g_ab eps K L La) 0 (INR (K - 1) * E0) (c_ab eps K M * Rabs dt ^ K) (Rabs (t0 + INR k * dt - t0)).
Proof.
  intros (l & _ & _ & _ & B) i. eapply Rle_trans; [apply B|]. unfold bnd. apply bnd_final; [exact E0_nonneg|]. apply grid_dist.
Qed.

Lemma initialized s x : rb_wf K (ab_buf s) -> (kmax <= length (es_table (ab_is s)))%nat -> (forall i, Rabs (x i - Y 0%nat t0 i) <= 0) ->
  0 <= dir dt * (tend - (t0 + INR (K - 1) * dt)) ->
  exists s1 x1, ab_initialize_own (N := NN) K f (est_dx f) s x t0 dt = Ok (s1, x1, (t0 + INR (K - 1) * dt)%R) /\ inv (K - 1) s1 x1.
Proof.
  intros Wf Hl Hx Ht.
  assert (HT : forall j, (j <= 0 + (K - 1))%nat -> T (t0 + INR j * dt)).
  { intros j Hj. apply (grid_span eps He t0 tend dt Hdir (K - 1)); [right; lra|lia]. }
  assert (H0 : inv 0 (mkAb (N := NN) (ab_buf s) 0 (ab_is s)) x) by (apply (ab_inv_start eps T K HK L 0); [exact Wf|reflexivity|exact Hx]).
  destruct (init_inv (K - 1) 0 (ab_is s) (ab_buf s) x HT eq_refl H0 Hl) as (e' & b' & x' & E1 & H1).
  cbn [INR Nat.add] in E1, H1. assert (Z : t0 + 0 * dt = t0) by ring. rewrite Z in E1.
  exists (mkAb (N := NN) b' K e'), x'. split; [unfold ab_initialize_own, ab_initialize; rewrite E1; reflexivity|].
  destruct H1 as (l & A & (B1 & B2 & B3) & C). exists l. split; [exact A|]. split; [|exact C]. split; [exact B1|]. split; [exact B2|].
  cbn [ab_init] in *. destruct (Nat.ltb_spec (K - 1 + 1) K); [lia|]. destruct (Nat.ltb_spec (K + 1) K); [lia|exact B3].
Qed.

Lemma after_init (W : Type) s1 x1 (w : W) fuel tr : inv (K - 1) s1 x1 -> 0 <= dir dt * (tend - (t0 + INR (K - 1) * dt)) ->
  let t1 := t0 + INR (K - 1) * dt in
  let stp := res_step (ab_do_step (N := NN) K f (es_istep (N := NN) f K) false true) in
  (exists r, integrate_const (N := NN) rec_obs stp fuel s1 w x1 t1 tend dt = (tr, Ok r)) \/
  (exists r n, integrate_n_steps (N := NN) rec_obs stp s1 w x1 t1 dt n = (tr, r) /\ dir dt * (t1 + INR n * dt - tend) <= eps) ->
  forall x' t', In (x', t') (obs_of tr) -> exists k s', t' = t0 + INR k * dt /\ inv k s' x'.
Proof.
  intros H1 Ht t1 stp Hrun x' t' Hin.
  assert (Pj : forall j, t1 + INR j * dt = t0 + INR (j + (K - 1)) * dt) by (intro j; unfold t1; rewrite plus_INR; ring).
  assert (TT : forall j, span eps t1 tend (dir dt) (t1 + INR j * dt) -> T (t0 + INR (j + (K - 1)) * dt)).
  { intros j [A B]. rewrite Pj in A, B. split; [|exact B].
    assert (0 <= dir dt * (t1 - t0)).
    { unfold t1. replace (dir dt * (t0 + INR (K - 1) * dt - t0)) with (INR (K - 1) * (dir dt * dt)) by ring. rewrite dir_abs. apply Rmult_le_pos; [apply pos_INR|apply Rabs_pos]. }
    lra. }
  destruct (drivers eps _ W _ stp (fun k s x => inv (k + (K - 1)) s x) t1 tend dt fuel s1 w x1 tr He Ht Hrun) with (x' := x') (t' := t') as (k & s' & Et & HJ);
    [|exact H1|exact Hin|].
  - intros k s2 w2 x2 T1 T2 H2 tr' r' Es. unfold stp, res_step in Es. injection Es as <- <-. split; [reflexivity|].
    intros s3 w3 x3 E3. rewrite (Pj k) in E3.
    assert (Q : Nat.ltb (ab_init s2 + 1) K = false).
    { destruct H2 as (l & Ll & Hl & _). apply (ab_init_enough (N := NN) K ltac:(lia) s2 l Hl). lia. }
    rewrite (started _ est_out true s2 x2 _ Q) in E3.
    destruct (ab_do_step (N := NN) K f (guarded est_out f) false true s2 x2 (t0 + INR (k + (K - 1)) * dt)%R dt) as [[[s4 x4] lg]| | |] eqn:Ea; cbn in E3; try discriminate E3.
    injection E3 as <- _ <-. exact (one_step est_out good_out true (k + (K - 1)) s2 x2 s4 x4 lg (TT k T1) (TT (S k) T2) H2 Ea).
  - exists (k + (K - 1))%nat, s'. split; [rewrite Et; apply Pj|exact HJ].
Qed.
End Default.

(** Steps into a second state from a fresh or reset object; and initialize( system , x , t , dt ) of any object followed by the runs in place of
    integrate_const and integrate_n_steps (in place without initialize the result is wrong, C78). *)
Theorem C131_default : forall (eps : R) (I : Type) (K : nat) (L M H : R), (1 <= K <= 8)%nat -> 0 <= eps -> 0 <= L -> 0 <= M -> 0 <= H ->
  exists C, 0 <= C /\ forall (W : Type) (f : (I -> R) -> R -> (I -> R)) F (Y : nat -> R -> I -> R) (t0 tend dt : R),
  let T := span eps t0 tend (dir dt) in
  0 <= dir dt * (tend - t0) -> Rabs dt <= H -> lipschitz T L f ->
  derivatives T (S K) Y -> (forall t i, T t -> Y 1%nat t i = f (Y 0%nat t) t i) -> deriv_bound T (S K) M Y ->
  taylor (order_helper K) M (fun v => exists t, T t /\ v = point (Y 0%nat t) t) (autonomous f) F ->
  let near (x : I -> R) t := forall i, Rabs (x i - Y 0%nat t i) <= exp (C * Rabs (t - t0)) * (C * (Rabs dt ^ S K + Rabs (t - t0) * Rabs dt ^ K)) in
  forall s : ab (RNum eps) I (es (RNum eps) I), rb_wf K (ab_buf s) -> (es_kmax (order_helper K) <= length (es_table (ab_is s)))%nat ->
  (ab_init s = O -> forall n, dir dt * (t0 + INR n * dt - tend) <= eps ->
     exists s' x', steps_out eps K f n s (Y 0%nat t0) t0 dt = Ok (s', x') /\ near x' (t0 + INR n * dt))
  /\ (let t1 := t0 + INR (K - 1) * dt in 0 <= dir dt * (tend - t1) ->
     exists s1 x1, ab_initialize_own (N := RNum eps) K f (es_do_step_dxdt (N := RNum eps) f (order_helper K)) s (Y 0%nat t0) t0 dt = Ok (s1, x1, t1)
     /\ forall (w : W) fuel tr,
     let stp := res_step (ab_do_step (N := RNum eps) K f (es_istep (N := RNum eps) f K) false true) in
     (exists r, integrate_const (N := RNum eps) rec_obs stp fuel s1 w x1 t1 tend dt = (tr, Ok r)) \/
     (exists r n, integrate_n_steps (N := RNum eps) rec_obs stp s1 w x1 t1 dt n = (tr, r) /\ dir dt * (t1 + INR n * dt - tend) <= eps) ->
     forall x' t', In (x', t') (obs_of tr) -> near x' t').
Proof.
  intros eps I K L M H HK He HL HM HH.
  destruct (helper_even K) as (o & Eo & Ho & Hp).
  pose proof (es_kmax_even o) as Ek. rewrite <- Eo in Ek.
  destruct (extrapolated eps (order_helper K) ltac:(lia) (I := I) M H HM HH es_seq (o - 1) (o - 1) (o - 1) (es_seq_inc (o - 1))
    (fun i _ => even_of _ (es_even i)) ltac:(lia) ltac:(lia)) as (E & PE & B). rewrite <- Ek in B.
  set (G1 := Rmax (La K L H) (rule_size (ab_coef (N := RNum eps) K) * L)). set (C1 := M * rule_const (ab_coef (N := RNum eps) K) (ab_nodes K) K).
  set (E1 := INR (K - 1) * (E * Rmax 1 H ^ (order_helper K - K))).
  assert (PR : 1 <= Rmax 1 H) by apply Rmax_l.
  assert (P0 : 0 <= E1) by (apply Rmult_le_pos; [apply pos_INR|apply Rmult_le_pos; [exact PE|apply pow_le; lra]]).
  assert (P1 : 0 <= C1) by (apply Rmult_le_pos; [exact HM|apply rule_const_nonneg]).
  exists (Rmax E1 (Rmax G1 C1)). set (C := Rmax E1 _).
  assert (L0 : E1 <= C) by apply Rmax_l.
  assert (L1 : G1 <= C) by (eapply Rle_trans; [|apply Rmax_r]; apply Rmax_l).
  assert (L2 : C1 <= C) by (eapply Rle_trans; [|apply Rmax_r]; apply Rmax_r).
  clearbody C. split; [lra|].
  intros W f F Y t0 tend dt T Hdir Hh Lip Der Sol Bnd Tay near s Wf Hl.
  assert (S1 : solution T f (Y 0%nat)). { intros t j Ht. rewrite <- (Sol t j Ht). apply (Der 0%nat t j); [lia|exact Ht]. }
  pose proof (B f (Y 0%nat) F T (span_conv eps t0 tend (dir dt)) Tay S1) as Con.
  assert (Z : forall j, Rabs (Y 0%nat t0 j - Y 0%nat t0 j) <= 0) by (intro j; rewrite Rminus_diag_eq, Rabs_R0 by reflexivity; lra).
  pose proof (Rabs_pos dt) as Pd.
  assert (Fin : forall k s' x', ab_inv (IS := es (RNum eps) I) eps T K L 0 Y t0 dt (E0 K E dt) (g_ab eps K L (La K L H)) (c_ab eps K M) k s' x' -> near x' (t0 + INR k * dt)).
  { intros k s' x' HJ i. eapply Rle_trans; [exact (near_final eps K L M H E PE Y t0 tend dt k s' x' HJ i)|].
    eapply Rle_trans; [|apply (bound_simple G1 C E1 C1); auto using Rabs_pos; lra].
    unfold lmm_bound. apply Rmult_le_compat_l; [left; apply exp_pos|]. apply Rplus_le_compat_r, Rplus_le_compat_l.
    unfold E1, E0. rewrite !Rmult_assoc. apply Rmult_le_compat_l; [apply pos_INR|]. apply Rmult_le_compat_l; [exact PE|].
    replace (S (order_helper K)) with (order_helper K - K + S K)%nat by lia. rewrite pow_add. apply Rmult_le_compat_r; [now apply pow_le|].
    apply pow_incr. split; [exact Pd|]. eapply Rle_trans; [exact Hh|apply Rmax_r]. }
  split.
  - intros Hi n Hn.
    assert (HT : forall j, (j <= 0 + n)%nat -> T (t0 + INR j * dt)) by (intros j Hj; apply (grid_span eps He t0 tend dt Hdir n); [right; exact Hn|lia]).
    destruct (out_inv eps K HK L M H E HL HM PE f Y t0 tend dt Hh Lip Der Sol Bnd Con n 0 s (Y 0%nat t0) HT (ab_inv_start eps T K HK L 0 Y t0 dt _ _ _ s _ Wf Hi Z) Hl)
      as (s' & x' & E2 & H2).
    exists s', x'. cbn [INR Nat.add] in E2, H2. replace (t0 + 0 * dt) with t0 in E2 by ring. split; [exact E2|exact (Fin _ _ _ H2)].
  - intros t1 Ht1.
    destruct (initialized eps K HK L M H E HL HM PE f Y t0 tend dt He Hdir Hh Lip Der Sol Bnd Con s (Y 0%nat t0) Wf Hl Z Ht1) as (s1 & x1 & E2 & H2).
    exists s1, x1. split; [exact E2|]. intros w fuel tr stp Hrun x' t' Hin.
    destruct (after_init eps K HK L M H E HL HM PE f Y t0 tend dt He Hh Lip Der Sol Bnd Con W s1 x1 w fuel tr H2 Ht1 Hrun x' t' Hin) as (k & s' & -> & HJ).
    exact (Fin _ _ _ HJ).
Qed.
Print Assumptions C131_default.

(** x' = sin x with adams_bashforth< 2 > as constructed: the hypotheses hold for both ways of use. *)
Example C131_example : exists C, 0 <= C /\ forall dt (b : list (unit -> R)) m (tab : list (unit -> R)) xo n, 0 < dt <= 1 -> length b = 2%nat -> length tab = 1%nat ->
  INR n * dt <= 1 -> let s := mkAb (N := RNum 0) (mkRb b 0) 0 (mkEs (N := RNum 0) m tab xo) in
  exists s' x', steps_out 0 2 sin_f n s (sin_y 0) 0 dt = Ok (s', x') /\ Rabs (x' tt - 2 * atan (exp (INR n * dt))) <= C * dt ^ 2
  /\ exists s1 x1, ab_initialize_own (N := RNum 0) 2 sin_f (es_do_step_dxdt (N := RNum 0) sin_f 4) s (sin_y 0) 0%R dt = Ok (s1, x1, (0 + 1 * dt)%R).
Proof.
  destruct (C131_default 0 unit 2 1 1 1 ltac:(lia) (Rle_refl 0) ltac:(lra) ltac:(lra) ltac:(lra)) as (C & PC & B).
  exists (exp C * (C * 2)). split; [apply Rmult_le_pos; [left; apply exp_pos|lra]|].
  intros dt b m tab xo n Hdt Hb Htab Hn s.
  assert (Ed : dir dt = 1) by (destruct (dir_cases dt) as [[_ ->]|[Q _]]; [reflexivity|lra]).
  assert (Ea : Rabs dt = dt) by (apply Rabs_pos_eq; lra).
  assert (Sol : forall T t i, T t -> sin_Y 1%nat t i = sin_f (sin_Y 0%nat t) t i) by (intros T t [] _; reflexivity).
  assert (Wf : rb_wf 2 (ab_buf (N := RNum 0) s)) by (split; [exact Hb|cbn; lia]).
  pose proof (B unit sin_f sin_D sin_Y 0 1 dt) as Q. cbv zeta in Q. rewrite Ea in Q.
  specialize (Q ltac:(rewrite Ed; lra) ltac:(lra) (sin_lipschitz _) (sin_Y_der _) (Sol _) (sin_Y_bnd _) (sin_taylor _ _) s Wf ltac:(change (es_kmax (order_helper 2) <= length tab)%nat; rewrite Htab; vm_compute; lia)).
  destruct Q as [Q1 Q2].
  destruct (Q1 eq_refl n ltac:(rewrite Ed; lra)) as (s' & x' & E1 & N1).
  destruct Q2 as (s1 & x1 & E2 & _). { rewrite Ed. cbn [Nat.sub INR]. lra. }
  exists s', x'. split; [exact E1|]. split; [|exists s1, x1; exact E2].
  specialize (N1 tt). rewrite Rminus_0_r, Rplus_0_l in N1. set (t' := INR n * dt) in *.
  assert (Ht : 0 <= t') by (apply Rmult_le_pos; [apply pos_INR|lra]). rewrite (Rabs_pos_eq t' Ht) in N1.
  eapply Rle_trans; [exact N1|].
  assert (P2 : 0 <= dt ^ 2) by (apply pow_le; lra). assert (P3 : dt ^ 2 * dt <= dt ^ 2 * 1) by (apply Rmult_le_compat_l; lra).
  assert (P4 : t' * dt ^ 2 <= 1 * dt ^ 2) by (apply Rmult_le_compat_r; lra).
  replace (dt ^ 3) with (dt ^ 2 * dt) by ring.
  replace (exp C * (C * 2) * dt ^ 2) with (exp C * (C * (2 * dt ^ 2))) by ring.
  assert (P5 : 0 <= dt ^ 2 * dt + t' * dt ^ 2) by (apply Rplus_le_le_0_compat; apply Rmult_le_pos; lra).
  apply Rmult_le_compat; [left; apply exp_pos|now apply Rmult_le_pos| |apply Rmult_le_compat_l; lra].
  assert (P6 : C * t' <= C * 1) by (apply Rmult_le_compat_l; lra). rewrite Rmult_1_r in P6.
  destruct P6 as [P6| ->]; [left; now apply exp_increasing|apply Rle_refl].
Qed.

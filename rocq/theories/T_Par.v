(** Theorems C53-C56 and C88-C91: splitting, parallel loops, norms and the
    operations of the GPU back ends. *)
From Coq Require Import List ZArith Bool Arith Lia Permutation Reals Lra Floats.SpecFloat QArith.
From Coq Require Import Reals.
From Verif Require Import M_Num M_RK M_CtrlRK M_Par S_Par P_R P_Par P_Norm X_Inst.
Import ListNotations.
Local Open Scope nat_scope.

(** ** C53: split_offsets cuts the range *)
Theorem C53_cuts : forall n p,
  (0 <= n < 2 ^ 64)%Z -> (0 < p <= 2 ^ 63)%Z -> cuts n p (fun i => split_offsets n i p).
Proof. exact split_offsets_cuts. Qed.
Print Assumptions C53_cuts.

Example C53_example :
  map (fun i => split_offsets 7 i 3) [0; 1; 2; 3]%Z =
  [Some (0, 3); Some (3, 5); Some (5, 7); None]%Z /\
  map (fun i => split_offsets (2 ^ 63 + 5) i 2) [0; 1]%Z =
  [Some (0, 2 ^ 62 + 3); Some (2 ^ 62 + 3, 2 ^ 63 + 5)]%Z.
Proof. split; vm_compute; reflexivity. Qed.

(** The bound on the number of parts is sharp: from 2^63+2 parts on the signed
    conversion inside split_offsets gives a wrong begin. *)
Theorem C53_bound_sharp :
  exists n p i, (0 <= n < 2 ^ 64 /\ 2 ^ 63 < p < 2 ^ 64 /\ 0 <= i < p)%Z /\
    split_offsets n i p = Some (0, 1)%Z /\ split_offsets n 0 p = Some (0, 1)%Z /\ i <> 0%Z.
Proof.
  exists (2 ^ 63 + 2)%Z, (2 ^ 63 + 2)%Z, (2 ^ 63 + 1)%Z.
  repeat split; try lia; try (vm_compute; reflexivity); vm_compute; discriminate.
Qed.
Print Assumptions C53_bound_sharp.

(** ** C54: unsplit after split *)
(** openmp_state: any order of the iterations, any number of blocks (the size of
    the target, or the number of threads), any previous content. *)
Theorem C54_openmp : forall (V : Type) (z : V) threads order (v : list V) blocks target,
  let p := if length blocks =? 0 then threads else length blocks in
  0 < p -> Permutation order (seq 0 p) ->
  exists s, omp_split V threads order v blocks = Some s /\ length s = p /\
            concat s = v /\ omp_unsplit V z s target = Some v.
Proof.
  intros V z threads order v blocks target p Hp HP.
  eexists. split; [apply omp_split_blocks; assumption|].
  fold p. split; [now rewrite map_length, seq_length|].
  split; [apply omp_blocks_concat, Hp|]. rewrite omp_unsplit_concat. f_equal.
  apply omp_blocks_concat, Hp.
Qed.
Print Assumptions C54_openmp.

Example C54_openmp_example :
  omp_split nat 4 [2; 0; 3; 1] [1; 2; 3; 4; 5; 6; 7] [] = Some [[1]; [2]; [3]; [4; 5; 6; 7]] /\
  omp_split nat 4 [1; 0] [1] [[9; 9]; [8]] = Some [[]; [1]] /\
  omp_unsplit nat 0 [[1]; [2]; [3]; [4; 5; 6; 7]] [5] = Some [1; 2; 3; 4; 5; 6; 7].
Proof. repeat split; vm_compute; reflexivity. Qed.

(** mpi_state: the target of unsplit is not resized; what lies behind the data
    stays, and a target that is too small is a violated assertion. *)
Theorem C54_mpi : forall (V : Type) (v target : list V) num,
  (Z.of_nat (length v) < 2 ^ 64)%Z -> (0 < num)%nat -> (Z.of_nat num <= 2 ^ 63)%Z ->
  exists s, mpi_split V num v = Some s /\ length s = num /\ concat s = v /\
    (forall a b, In a s -> In b s -> length a <= length b + 1) /\
    (length v <= length target -> mpi_unsplit V s target = Some (v ++ skipn (length v) target)) /\
    (length target < length v -> mpi_unsplit V s target = None).
Proof.
  intros V v target num Hn H0 Hp.
  eexists. split; [apply mpi_split_val; assumption|].
  split; [now rewrite map_length, seq_length|]. split; [apply cut_concat, H0|].
  split.
  - intros a b Ha Hb. apply in_map_iff in Ha. destruct Ha as (i & <- & Hi).
    apply in_map_iff in Hb. destruct Hb as (j & <- & Hj). apply in_seq in Hi. apply in_seq in Hj.
    rewrite !firstn_length, !skipn_length.
    pose proof (Nat.div_mod (length v) num ltac:(lia)) as D.
    pose proof (Nat.mod_upper_bound (length v) num ltac:(lia)) as M.
    unfold cutpos. remember (length v / num) as s. remember (length v mod num) as r.
    clear Heqs Heqr. assert (S j * s <= num * s) by (apply Nat.mul_le_mono_r; lia).
    cbn [Nat.mul] in *. lia.
  - split; intros H; rewrite mpi_unsplit_spec, cut_concat by exact H0.
    + destruct (Nat.leb_spec (length v) (length target)); [reflexivity|lia].
    + destruct (Nat.leb_spec (length v) (length target)); [lia|reflexivity].
Qed.
Print Assumptions C54_mpi.

Example C54_mpi_example :
  mpi_split nat 3 [1; 2; 3; 4; 5; 6; 7] = Some [[1; 2; 3]; [4; 5]; [6; 7]] /\
  mpi_split nat 3 [1] = Some [[1]; []; []] /\
  mpi_unsplit nat [[1]; []; [2; 3]] [0; 0; 0; 7] = Some [1; 2; 3; 7] /\
  mpi_unsplit nat [[1]; []; [2; 3]] [0; 0] = None.
Proof. repeat split; vm_compute; reflexivity. Qed.

(** ** C55: schedules *)
(** Every execution of the parallel loop over a range, parameters aliased in any
    way [b], is the sequential loop, and every component is what the operation
    makes of that component alone. *)
Theorem C55_range : forall (V : Type) (b : nat -> nat) (op : list (stmt V)) len tr (m : mem V) k c,
  interleaving V len (omp_iter V op) tr ->
  run_stmts V b (map snd tr) m k c = run_stmts V b (range_loop V op 0 len) m k c /\
  run_stmts V b (map snd tr) m k c =
    (if (fst c =? 0) && (snd c <? len) then comp_run b op (fun k => m k c) k else m k c).
Proof.
  intros V b op len tr m k c H. split.
  - rewrite (omp_range_result V b op len tr m k c H). symmetry. apply seq_range_result.
  - apply omp_range_result, H.
Qed.
Print Assumptions C55_range.

(** The same for the nested algebra (blocks of different sizes). *)
Theorem C55_nested : forall (V : Type) (b : nat -> nat) (op : list (stmt V)) nb sizes tr (m : mem V) k c,
  interleaving V nb (omp_nested_iter V op sizes) tr ->
  run_stmts V b (map snd tr) m k c =
    run_stmts V b (flat_map (fun i => range_loop V op i (sizes i)) (seq 0 nb)) m k c /\
  run_stmts V b (map snd tr) m k c =
    (if (fst c <? nb) && (snd c <? sizes (fst c)) then comp_run b op (fun k => m k c) k
     else m k c).
Proof.
  intros V b op nb sizes tr m k c H. split.
  - rewrite (omp_nested_result V b op nb sizes tr m k c H). symmetry.
    pose proof (omp_nested_result V b op nb sizes _ m k c
                  (interleaving_seq V nb (omp_nested_iter V op sizes))) as X.
    rewrite map_snd_seq in X. exact X.
  - apply omp_nested_result, H.
Qed.
Print Assumptions C55_nested.

(** Two iterations, two assignments each, fully interleaved; parameters 0 and 1
    share one buffer (x := x + x; y := x). *)
Example C55_example :
  let op := [mkStmt 0 [0; 1] (fun v => nth 0 v 0 + nth 1 v 0); mkStmt 2 [0] (fun v => nth 0 v 0)] in
  let b := fun k => match k with 0 => 0 | 1 => 0 | _ => 1 end in
  let s0 := mkStmt 0 [0; 1] (fun v => nth 0 v 0 + nth 1 v 0) in
  let s1 := mkStmt 2 [0] (fun v => nth 0 v 0) in
  let tr := [(1, ((0, 1), s0)); (0, ((0, 0), s0)); (1, ((0, 1), s1)); (0, ((0, 0), s1))] in
  interleaving nat 2 (omp_iter nat op) tr /\
  run_stmts nat b (map snd tr) (fun k c => 10 * k + snd c + 1) 1 (0, 1) = 4.
Proof.
  intros op b s0 s1 tr. split; [|reflexivity].
  intros i. destruct i as [|[|i]]; reflexivity.
Qed.

(** Reductions.  [parts]: which components the threads were given, in which
    order; [t]: the order in which the private results and the original 0 are
    combined; [low]: the initial value of the private copies. *)
Theorem C55_norm_range : forall (N : Num) (ok : N -> Prop) (low : N) parts l t,
  norm_order N ok -> ok low -> (low = nofZ 0 \/ nlt low (nofZ 0) = true) ->
  Permutation (concat parts) l -> Permutation (rleaves t) (nofZ 0 :: omp_private low parts) ->
  rcombine t = range_norm l.
Proof. intros. eapply omp_range_norm; eauto. Qed.
Print Assumptions C55_norm_range.

Theorem C55_norm_nested : forall (N : Num) (ok : N -> Prop) (low : N) parts l t,
  norm_order N ok -> ok low -> (low = nofZ 0 \/ nlt low (nofZ 0) = true) ->
  Permutation (concat (concat parts)) l ->
  Permutation (rleaves t) (nofZ 0 :: omp_nested_private low parts) ->
  rcombine t = range_norm l.
Proof. intros. eapply omp_nested_norm_gen; eauto. Qed.
Print Assumptions C55_norm_nested.

Theorem C55_norm_mpi : forall (N : Num) (ok : N -> Prop) ranks l t,
  norm_order N ok ->
  Permutation (concat ranks) l -> Permutation (rleaves t) (mpi_local ranks) ->
  rcombine t = range_norm (N := N) l.
Proof. intros. eapply mpi_norm; eauto. Qed.
Print Assumptions C55_norm_mpi.

(** The hypothesis holds of doubles, NaN and infinities included, with any
    negative non-NaN starting value, and of the real numbers. *)
Theorem C55_norm_f64 : forall (low : f64) parts l t,
  low <> S754_nan -> SFltb low (S754_zero false) = true ->
  Permutation (concat parts) l ->
  Permutation (rleaves (N := F64) t) (S754_zero false :: omp_private (N := F64) low parts) ->
  rcombine (N := F64) t = range_norm (N := F64) l.
Proof.
  intros low parts l t Hn Hl P PT.
  apply (omp_range_norm F64 f64_ok norm_order_F64 low parts l t); auto.
  split; [exact Hn|]. intros ->. discriminate Hl.
Qed.
Print Assumptions C55_norm_f64.

Example C55_norm_example :
  let l := [f64_ofZ 3; S754_nan; f64_ofZ (-7); f64_ofZ 2] in
  let parts := [[f64_ofZ 2; f64_ofZ (-7)]; []; [S754_nan; f64_ofZ 3]] in
  let low := S754_infinity true in
  let t := RNode (RNode (RLeaf (seq_norm (N := F64) low (nth 2 parts [])))
                        (RLeaf (seq_norm (N := F64) low (nth 0 parts []))))
                 (RNode (RLeaf (N := F64) (S754_zero false)) (RLeaf (seq_norm (N := F64) low []))) in
  range_norm (N := F64) l = f64_ofZ 7 /\ rcombine (N := F64) t = f64_ofZ 7.
Proof. split; vm_compute; reflexivity. Qed.

(** ** C56: the norm is the maximum of the absolute values *)
Theorem C56_real : forall eps (l : list R),
  is_max_abs_R l (range_norm (N := RNum eps) l) /\
  is_max_abs_R l (fusion_norm (N := RNum eps) l).
Proof.
  intros eps l.
  assert (A : is_max_abs_R l (range_norm (N := RNum eps) l)).
  { apply (is_max_abs_R_of eps); [apply range_norm_nonneg|].
    apply (range_norm_max (RNum eps) _ (norm_order_R eps)). }
  split; [exact A|].
  rewrite (fusion_range_norm (RNum eps)); [exact A| |].
  - intros x. cbn. apply Rabs_pos_eq, Rabs_pos.
  - cbn. apply Rabs_R0.
Qed.
Print Assumptions C56_real.

(** The parallel norms, over the reals. *)
Theorem C56_parallel : forall eps (low : R) (l : list R),
  (low < 0)%R ->
  (forall parts t, Permutation (concat parts) l ->
     Permutation (rleaves (N := RNum eps) t) (0%R :: omp_private (N := RNum eps) low parts) ->
     is_max_abs_R l (rcombine (N := RNum eps) t)) /\
  (forall parts t, Permutation (concat (concat parts)) l ->
     Permutation (rleaves (N := RNum eps) t) (0%R :: omp_nested_private (N := RNum eps) low parts) ->
     is_max_abs_R l (rcombine (N := RNum eps) t)) /\
  (forall ranks t, Permutation (concat ranks) l ->
     Permutation (rleaves (N := RNum eps) t) (mpi_local (N := RNum eps) ranks) ->
     is_max_abs_R l (rcombine (N := RNum eps) t)).
Proof.
  intros eps low l Hl.
  assert (H0 : low = nofZ (n := RNum eps) 0 \/ nlt (n := RNum eps) low (nofZ 0) = true).
  { right. cbn. apply Rltb_true. exact Hl. }
  split; [|split]; intros parts t P PT.
  - rewrite (omp_range_norm (RNum eps) _ (norm_order_R eps) low parts l t Logic.I H0 P PT).
    apply C56_real.
  - rewrite (omp_nested_norm_gen (RNum eps) _ (norm_order_R eps) low Logic.I H0 parts l t P PT).
    apply C56_real.
  - rewrite (mpi_norm (RNum eps) _ (norm_order_R eps) parts l t P PT).
    apply C56_real.
Qed.
Print Assumptions C56_parallel.

(** Doubles: no component compares greater than the norm (NaN components are
    passed over), and it is 0 or the absolute value of a component. *)
Theorem C56_f64 : forall l : list f64,
  is_max_abs (N := F64) l (range_norm (N := F64) l) /\
  fusion_norm (N := F64) l = range_norm (N := F64) l.
Proof.
  intros l. split; [apply (range_norm_max F64 f64_ok norm_order_F64)|].
  apply fusion_range_norm; [intros [s|s| |s m e]|]; reflexivity.
Qed.
Print Assumptions C56_f64.

Example C56_example :
  range_norm (N := Q0) [2; (-5); 3]%Q = 5%Q /\ fusion_norm (N := Q0) [2; (-5); 3]%Q = 5%Q /\
  range_norm (N := Q0) [] = 0%Q.
Proof. repeat split; vm_compute; reflexivity. Qed.

(** ** C88: thrust_algebra::norm_inf *)
(** The reduction keeps the signed component: the "norm" of (1,-3) is -3. *)
Theorem C88_refuted : exists l : list Q,
  thrust_norm (N := Q0) l = (-3)%Q /\ range_norm (N := Q0) l = 3%Q.
Proof. exists [1; (-3)]%Q. split; vm_compute; reflexivity. Qed.
Print Assumptions C88_refuted.

Theorem C88_double_refuted : exists l : list f64,
  SFltb (thrust_norm (N := F64) l) (S754_zero false) = true.
Proof. exists [f64_ofZ (-3)]. vm_compute. reflexivity. Qed.
Print Assumptions C88_double_refuted.

(** What holds: its absolute value is the norm. *)
Theorem C88_partial : forall eps (l : list R),
  is_max_abs_R l (Rabs (thrust_norm (N := RNum eps) l)).
Proof.
  intros eps l.
  assert (G : forall l (a b : R), Rabs a = b ->
     Rabs (fold_left (thrust_maximum (N := RNum eps)) l a) = seq_norm (N := RNum eps) b l).
  { clear l. induction l as [|x l IH]; intros a b E; [exact E|].
    cbn [fold_left seq_norm]. apply IH. unfold thrust_maximum, nmax. rewrite <- E.
    change (nabs (n := RNum eps)) with Rabs. change (nlt (n := RNum eps)) with Rltb.
    destruct (Rltb (Rabs a) (Rabs x)); reflexivity. }
  pose proof (G l 0%R 0%R Rabs_R0) as E.
  change (Rabs (thrust_norm (N := RNum eps) l) = range_norm (N := RNum eps) l) in E.
  rewrite E. apply C56_real.
Qed.
Print Assumptions C88_partial.

(** ** C89: rel_error of the thrust and compute operations *)
(** With the default weights a_x = a_dxdt = 1, x = -1 and dx/dt = 1 the scale
    should be 2 but is 0. *)
Theorem C89_refuted : exists ea er ax adx e x dx : R,
  (0 < ea /\ 0 < er /\ ax = 1 /\ adx = 1)%R /\
  rel_error (N := RNum 0) ea er ax adx e x dx = (1 / 3)%R /\
  thrust_rel_error (N := RNum 0) ea er ax adx e x dx = 1%R.
Proof.
  exists 1%R, 1%R, 1%R, 1%R, 1%R, (-1)%R, 1%R. split; [lra|].
  unfold rel_error, thrust_rel_error. cbn.
  rewrite (Rabs_left (-1)) by lra. rewrite !(Rabs_pos_eq 1) by lra.
  replace (-1 + 1 * 1)%R with 0%R by ring. rewrite Rabs_R0. split; field.
Qed.
Print Assumptions C89_refuted.

Theorem C89_partial : forall eps (ea er adx e x dx : R),
  (0 <= x)%R -> (0 <= adx)%R ->
  thrust_rel_error (N := RNum eps) ea er 1%R adx e x dx = rel_error (N := RNum eps) ea er 1%R adx e x dx.
Proof.
  intros eps ea er adx e x dx Hx Ha. unfold rel_error, thrust_rel_error. cbn.
  pose proof (Rabs_pos dx). assert (0 <= adx * Rabs dx)%R by (apply Rmult_le_pos; lra).
  rewrite (Rabs_pos_eq (x + adx * Rabs dx)) by lra. rewrite (Rabs_pos_eq x) by lra.
  do 3 f_equal. ring.
Qed.
Print Assumptions C89_partial.

Example C89_example :
  thrust_rel_error (N := Q0) 1%Q 1%Q 1%Q (1#2)%Q 1%Q 3%Q (-4)%Q = (1#6)%Q.
Proof. vm_compute. reflexivity. Qed.

(** ** C90: balance of the blocks of openmp_state *)
Theorem C90_refuted : exists (v : list nat) s,
  omp_split nat 4 [0; 1; 2; 3] v [] = Some s /\
  exists a b, In a s /\ In b s /\ length a = 1 /\ length b = 4.
Proof.
  exists [1; 2; 3; 4; 5; 6; 7], [[1]; [2]; [3]; [4; 5; 6; 7]].
  split; [vm_compute; reflexivity|]. exists [1], [4; 5; 6; 7]. cbn. auto 10.
Qed.
Print Assumptions C90_refuted.

(** What holds: all blocks but the last have n/p elements, the last has
    n/p + n mod p. *)
Theorem C90_partial : forall (V : Type) threads order (v : list V) blocks s i,
  let p := if length blocks =? 0 then threads else length blocks in
  0 < p -> Permutation order (seq 0 p) -> omp_split V threads order v blocks = Some s ->
  i < p ->
  length (nth i s []) = length v / p + (if i + 1 =? p then length v mod p else 0).
Proof.
  intros V threads order v blocks s i p Hp HP E Hi.
  rewrite (omp_split_blocks V threads order v blocks Hp HP) in E. fold p in E.
  injection E as E. rewrite <- E.
  set (g := fun i : nat => _).
  rewrite (nth_indep _ [] (g 0)) by (rewrite map_length, seq_length; lia).
  rewrite map_nth, seq_nth by lia. unfold g. cbn [Nat.add].
  rewrite firstn_length, skipn_length. unfold omp_end.
  pose proof (Nat.div_mod (length v) p ltac:(lia)) as D.
  remember (length v / p) as q. remember (length v mod p) as r. clear Heqq Heqr g E.
  destruct (Nat.eqb_spec (i + 1) p); nia.
Qed.
Print Assumptions C90_partial.

Example C90_example : exists s, omp_split nat 3 [2; 0; 1] [1; 2; 3; 4; 5] [] = Some s /\
  length (nth 1 s []) = 1 /\ length (nth 2 s []) = 3.
Proof. eexists. split; [vm_compute; reflexivity|]. auto. Qed.

(** ** C91: scale_sum_swap2 *)
(** Specification: the first container becomes a1*t2 + a2*t3, the second the OLD
    first one.  In default_operations this holds at every component, for every
    length and with any distinct containers. *)
Theorem C91_partial : forall (N : Num) (a1 a2 : N) len (m : mem N) j,
  j < len ->
  let m' := run_stmts N swap_local (range_loop N (scale_sum_swap2_op a1 a2) 0 len) m in
  m' 0 (0, j) = nadd (nmul a1 (m 1 (0, j))) (nmul a2 (m 2 (0, j))) /\
  m' 1 (0, j) = m 0 (0, j) /\ m' 2 (0, j) = m 2 (0, j).
Proof.
  intros N a1 a2 len m j Hj. cbv zeta. rewrite !seq_range_result. cbn [fst snd].
  destruct (Nat.ltb_spec j len); [|lia]. cbn. auto.
Qed.
Print Assumptions C91_partial.

(** In thrust_operations [tmp] is a reference to the first element: the second
    container receives the NEW first one. *)
Theorem C91_thrust : forall (N : Num) (a1 a2 : N) len (m : mem N) j,
  j < len ->
  let m' := run_stmts N swap_thrust (range_loop N (scale_sum_swap2_op a1 a2) 0 len) m in
  m' 1 (0, j) = nadd (nmul a1 (m 1 (0, j))) (nmul a2 (m 2 (0, j))) /\ m' 1 (0, j) = m' 0 (0, j).
Proof.
  intros N a1 a2 len m j Hj. cbv zeta. rewrite !seq_range_result. cbn [fst snd].
  destruct (Nat.ltb_spec j len); [|lia]. cbn. auto.
Qed.
Print Assumptions C91_thrust.

Theorem C91_refuted : exists (a1 a2 : Q) (m : mem Q0),
  let m' := run_stmts Q0 swap_thrust (range_loop Q0 (scale_sum_swap2_op (N := Q0) a1 a2) 0 1) m in
  m 0 (0, 0) = 1%Q /\ m' 1 (0, 0) = 32%Q.
Proof.
  exists 1%Q, 10%Q, (fun k c => inject_Z (Z.of_nat (k + 1))). split; vm_compute; reflexivity.
Qed.
Print Assumptions C91_refuted.

Example C91_example :
  let m : mem Q0 := fun k c => inject_Z (Z.of_nat (k + 1)) in
  let run := fun b => run_stmts Q0 b (range_loop Q0 (scale_sum_swap2_op (N := Q0) 1%Q 10%Q) 0 2) m in
  (run swap_local 0 (0, 1), run swap_local 1 (0, 1)) = (32%Q, 1%Q) /\
  (run swap_thrust 0 (0, 1), run swap_thrust 1 (0, 1)) = (32%Q, 32%Q).
Proof. split; vm_compute; reflexivity. Qed.

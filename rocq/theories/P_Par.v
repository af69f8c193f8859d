(** Proofs about splitting, parallel loops and norms. *)
From Coq Require Import List ZArith Bool Arith Lia Permutation.
From Verif Require Import M_Num M_Par S_Par.
Import ListNotations.

(** ** split_offsets *)
Lemma u64_id z : (0 <= z < 2 ^ 64)%Z -> u64 z = z.
Proof. intros. unfold u64. apply Z.mod_small. lia. Qed.

Lemma split_offsets_val n i p :
  (0 <= n < 2 ^ 64)%Z -> (0 < p <= 2 ^ 63)%Z -> (0 <= i < p)%Z ->
  split_offsets n i p =
  Some ((i * (n / p) + Z.min i (n mod p))%Z,
        ((i + 1) * (n / p) + Z.min (i + 1) (n mod p))%Z).
Proof.
  intros Hn Hp Hi. unfold split_offsets.
  destruct (p <=? 0)%Z eqn:E1; [apply Z.leb_le in E1; lia|].
  destruct (p <=? i)%Z eqn:E2; [apply Z.leb_le in E2; lia|]. clear E1 E2.
  pose proof (Z.div_mod n p ltac:(lia)) as D.
  pose proof (Z.mod_pos_bound n p ltac:(lia)) as M.
  pose proof (Z.div_pos n p ltac:(lia) ltac:(lia)) as P.
  remember (n / p)%Z as s. remember (n mod p)%Z as r. clear Heqs Heqr.
  assert (S1 : (s <= n)%Z) by nia.
  assert (S2 : (i * s <= n)%Z) by nia.
  assert (S3 : (r > 0 -> s < n \/ p = 1)%Z) by nia.
  assert (S4 : (i * s + Z.min i r <= n)%Z) by nia.
  assert (S5 : ((i + 1) * s + Z.min (i + 1) r <= n)%Z) by nia.
  assert (T : (2 ^ 64 = 2 * 2 ^ 63)%Z) by reflexivity.
  remember (2 ^ 63)%Z as h. 
  destruct (Z.ltb_spec i r) as [L|L].
  - assert (H : u64 (Z.max 0 (s64 (u64 (i - r)))) = 0%Z).
    { assert (W : u64 (i - r) = (i - r + 2 ^ 64)%Z).
      { unfold u64. rewrite <- (Z.mod_add _ 1 _) by lia. rewrite Z.mul_1_l.
        apply Z.mod_small. lia. }
      rewrite W. unfold s64. rewrite <- Heqh.
      destruct (Z.ltb_spec (i - r + 2 ^ 64) h); [lia|].
      rewrite Z.max_l by lia. reflexivity. }
    rewrite H, Z.mul_0_l. rewrite (u64_id 0) by lia. rewrite Z.add_0_r.
    rewrite Z.min_l by lia.
    rewrite (u64_id (s + 1)) by nia. rewrite (u64_id (i * (s + 1))) by nia.
    rewrite (u64_id (i * (s + 1))) by nia.
    rewrite u64_id by nia. f_equal. f_equal; nia.
  - assert (H : u64 (Z.max 0 (s64 (u64 (i - r)))) = (i - r)%Z).
    { rewrite (u64_id (i - r)) by lia. unfold s64. rewrite <- Heqh.
      destruct (Z.ltb_spec (i - r) h); [|lia].
      rewrite Z.max_r by lia. apply u64_id. lia. }
    rewrite H. rewrite !(Z.min_r _ r) by lia. rewrite Z.add_0_r. rewrite (u64_id s) by lia.
    assert (X : u64 (r * u64 (s + 1)) = (r * (s + 1))%Z).
    { destruct (Z.eq_dec r 0) as [->|R0]; [reflexivity|].
      rewrite (u64_id (s + 1)) by nia. apply u64_id. nia. }
    rewrite X. rewrite (u64_id ((i - r) * s)) by nia.
    rewrite (u64_id (r * (s + 1) + (i - r) * s)) by nia.
    rewrite u64_id by nia. f_equal. f_equal; nia.
Qed.

Lemma split_offsets_cuts n p :
  (0 <= n < 2 ^ 64)%Z -> (0 < p <= 2 ^ 63)%Z -> cuts n p (fun i => split_offsets n i p).
Proof.
  intros Hn Hp i Hi.
  pose proof (Z.div_mod n p ltac:(lia)) as D.
  pose proof (Z.mod_pos_bound n p ltac:(lia)) as M.
  pose proof (Z.div_pos n p ltac:(lia) ltac:(lia)) as P.
  exists (i * (n / p) + Z.min i (n mod p))%Z, ((i + 1) * (n / p) + Z.min (i + 1) (n mod p))%Z.
  split; [apply split_offsets_val; lia|].
  assert (Q : forall j, (0 <= j < p)%Z -> split_offsets n j p =
     Some ((j * (n / p) + Z.min j (n mod p))%Z, ((j + 1) * (n / p) + Z.min (j + 1) (n mod p))%Z))
    by (intros; apply split_offsets_val; lia).
  remember (n / p)%Z as s. remember (n mod p)%Z as r. clear Heqs Heqr.
  split; [nia|]. split; [nia|]. split; [intros; subst; lia|].
  split; [intros ->; nia|]. split.
  - intros b' e' Hl E. rewrite Q in E by lia. inversion E. nia.
  - intros j b' e' Hj E. rewrite Q in E by lia. inversion E. nia.
Qed.

(** ** Lists *)
Section L.
Variable V : Type.
Implicit Types l d : list V.

Lemma skipn_skipn x y l : skipn x (skipn y l) = skipn (x + y) l.
Proof.
  revert x l; induction y; intros x l; [now rewrite Nat.add_0_r|].
  rewrite Nat.add_succ_r. destruct l; [now rewrite !skipn_nil|]. cbn [skipn]. apply IHy.
Qed.

Lemma total_size_acc (ps : list (list V)) a :
  fold_left (fun a p => a + length p) ps a = a + length (concat ps).
Proof.
  revert a; induction ps as [|q ps IH]; intros a; cbn; [lia|].
  rewrite IH, app_length. lia.
Qed.
Lemma total_size_concat (ps : list (list V)) : total_size V ps = length (concat ps).
Proof. apply total_size_acc. Qed.

Lemma copy_all_spec (ps : list (list V)) d pos :
  pos + length (concat ps) <= length d ->
  copy_all V ps d pos =
  Some (firstn pos d ++ concat ps ++ skipn (pos + length (concat ps)) d).
Proof.
  revert d pos; induction ps as [|q ps IH]; intros d pos H.
  - cbn. rewrite Nat.add_0_r. now rewrite firstn_skipn.
  - cbn [concat] in H |- *. rewrite app_length in H |- *. cbn [copy_all]. unfold copy_to.
    destruct (Nat.leb_spec (pos + length q) (length d)); [|lia].
    assert (LF : length (firstn pos d) = pos) by (rewrite firstn_length; lia).
    rewrite IH.
    + f_equal.
      rewrite app_assoc with (l := firstn pos d) (m := q).
      assert (LA : length (firstn pos d ++ q) = pos + length q) by (rewrite app_length; lia).
      rewrite firstn_app, LA, Nat.sub_diag, firstn_O, app_nil_r.
      rewrite firstn_all2 by lia.
      rewrite skipn_app, LA.
      rewrite (skipn_all2 (n := pos + length q + length (concat ps))) by lia.
      rewrite skipn_skipn. cbn [app]. rewrite <- !app_assoc. do 3 f_equal. f_equal. lia.
    + rewrite !app_length, LF, skipn_length. lia.
Qed.

Lemma copy_all_short (ps : list (list V)) d pos :
  pos <= length d -> length d < pos + length (concat ps) -> copy_all V ps d pos = None.
Proof.
  revert d pos; induction ps as [|q ps IH]; intros d pos H1 H2.
  - cbn in H2. lia.
  - cbn [concat] in H2. rewrite app_length in H2. cbn [copy_all]. unfold copy_to.
    destruct (Nat.leb_spec (pos + length q) (length d)); [|reflexivity].
    apply IH; rewrite !app_length, firstn_length, skipn_length; lia.
Qed.

Lemma omp_unsplit_concat z (ps : list (list V)) d :
  omp_unsplit V z ps d = Some (concat ps).
Proof.
  unfold omp_unsplit. rewrite total_size_concat.
  assert (L : length (vec_resize V z d (length (concat ps))) = length (concat ps)).
  { unfold vec_resize. rewrite app_length, firstn_length, repeat_length. lia. }
  rewrite copy_all_spec by lia. cbn [firstn app Nat.add]. rewrite skipn_all2 by lia.
  now rewrite app_nil_r.
Qed.

Lemma mpi_unsplit_spec (ps : list (list V)) d :
  mpi_unsplit V ps d =
  if length (concat ps) <=? length d
  then Some (concat ps ++ skipn (length (concat ps)) d) else None.
Proof.
  unfold mpi_unsplit. rewrite total_size_concat.
  destruct (Nat.leb_spec (length (concat ps)) (length d)); [|reflexivity].
  now rewrite copy_all_spec by lia.
Qed.

(** Consecutive sub-ranges, concatenated. *)
Lemma skipn_firstn_glue l b c e :
  b <= c -> c <= e -> e <= length l ->
  firstn (c - b) (skipn b l) ++ firstn (e - c) (skipn c l) = firstn (e - b) (skipn b l).
Proof.
  intros. replace (skipn c l) with (skipn (c - b) (skipn b l))
    by (rewrite skipn_skipn; f_equal; lia).
  rewrite <- (firstn_skipn (c - b) (firstn (e - b) (skipn b l))).
  rewrite firstn_firstn, Nat.min_l by lia. f_equal.
  rewrite skipn_firstn_comm. f_equal. lia.
Qed.

Lemma tiles_concat l (f : nat -> nat) (n : nat) :
  f 0 = 0 -> (forall i, i < n -> f i <= f (S i)) -> f n = length l ->
  concat (map (fun i => firstn (f (S i) - f i) (skipn (f i) l)) (seq 0 n)) = l.
Proof.
  intros H0 Hm Hn.
  assert (Mono : forall i, i <= n -> f i <= f n).
  { intros i Hi. remember (n - i) as k. revert i Hi Heqk.
    induction k; intros; [replace i with n by lia; lia|].
    specialize (IHk (S i) ltac:(lia) ltac:(lia)). specialize (Hm i ltac:(lia)). lia. }
  assert (G : forall k, k <= n ->
     concat (map (fun i => firstn (f (S i) - f i) (skipn (f i) l)) (seq 0 k)) = firstn (f k) l).
  { induction k; intros Hk; [rewrite H0; reflexivity|].
    rewrite seq_S, map_app, concat_app, IHk by lia. cbn [map concat Nat.add]. rewrite app_nil_r.
    pose proof (skipn_firstn_glue l 0 (f k) (f (S k))) as X.
    rewrite !Nat.sub_0_r in X. cbn [skipn] in X. apply X; [lia|apply Hm; lia|].
    rewrite <- Hn. apply Mono. lia. }
  rewrite G by lia. rewrite Hn. apply firstn_all.
Qed.

(** *** OpenMP *)
Lemma length_set_nth {A} (l : list A) i a : length (set_nth l i a) = length l.
Proof.
  unfold set_nth. rewrite app_length, firstn_length.
  destruct (skipn i l) eqn:E.
  - assert (length (skipn i l) = 0) by now rewrite E. rewrite skipn_length in H. cbn. lia.
  - assert (H : length (skipn i l) = S (length l0)) by now rewrite E.
    rewrite skipn_length in H. cbn. lia.
Qed.

Lemma nth_set_nth {A} (l : list A) i j a z :
  i < length l -> nth j (set_nth l i a) z = if j =? i then a else nth j l z.
Proof.
  intros Hi. unfold set_nth.
  assert (LF : length (firstn i l) = i) by (rewrite firstn_length; lia).
  destruct (skipn i l) as [|x r] eqn:E.
  { assert (length (skipn i l) = 0) by now rewrite E. rewrite skipn_length in H. lia. }
  pose proof (firstn_skipn i l) as F. rewrite E in F.
  destruct (Nat.eqb_spec j i) as [->|Hj].
  - rewrite app_nth2 by lia. rewrite LF, Nat.sub_diag. reflexivity.
  - rewrite <- F at 2. destruct (Nat.lt_ge_cases j i).
    + rewrite !app_nth1 by lia. reflexivity.
    + rewrite !app_nth2 by lia. rewrite LF. destruct (j - i) eqn:D; [lia|reflexivity].
Qed.

Definition omp_end (n p i : nat) : nat :=
  if i + 1 =? p then n else i * (n / p) + n / p.

Lemma omp_block_val l p i :
  i < p -> omp_block V l p i =
  Some (firstn (omp_end (length l) p i - i * (length l / p)) (skipn (i * (length l / p)) l)).
Proof.
  intros Hi. unfold omp_block, omp_end, subrange.
  pose proof (Nat.div_mod (length l) p ltac:(lia)) as D.
  set (s := length l / p) in *.
  destruct (Nat.eqb_spec (i + 1) p) as [E|E]; cbn [orb].
  - destruct (Nat.leb_spec (i * s) (length l)); [|nia]. cbn [andb].
    now rewrite Nat.leb_refl.
  - destruct (Nat.ltb_spec (length l) (i * s + s)); [nia|].
    destruct (Nat.leb_spec (i * s) (i * s + s)); [|lia].
    destruct (Nat.leb_spec (i * s + s) (length l)); [|nia]. reflexivity.
Qed.

Lemma omp_split_fold l p (order : list nat) (t : list (list V)) :
  length t = p -> NoDup order -> Forall (fun i => i < p) order ->
  exists r,
    fold_left (fun acc i => match acc with
       | Some t => match omp_block V l p i with Some b => Some (set_nth t i b) | None => None end
       | None => None end) order (Some t) = Some r /\ length r = p /\
    forall j, nth j r [] =
      if existsb (Nat.eqb j) order
      then firstn (omp_end (length l) p j - j * (length l / p)) (skipn (j * (length l / p)) l)
      else nth j t [].
Proof.
  revert t. induction order as [|i order IH]; intros t Hl ND F.
  - exists t. cbn. auto.
  - cbn [fold_left]. inversion F; subst. inversion ND; subst. rewrite omp_block_val by lia.
    set (b := firstn _ _).
    destruct (IH (set_nth t i b)) as (r & E & Lr & Nr); auto.
    { now rewrite length_set_nth. }
    exists r. split; [exact E|]. split; [now rewrite Lr|].
    intros j. rewrite Nr. cbn [existsb]. rewrite nth_set_nth by lia.
    destruct (Nat.eqb_spec j i) as [->|Hj]; cbn [orb]; [|reflexivity].
    destruct (existsb (Nat.eqb i) order); reflexivity.
Qed.

Lemma omp_split_blocks threads order l (to : list (list V)) :
  let p := if length to =? 0 then threads else length to in
  0 < p -> Permutation order (seq 0 p) ->
  omp_split V threads order l to =
  Some (map (fun i => firstn (omp_end (length l) p i - i * (length l / p))
                             (skipn (i * (length l / p)) l)) (seq 0 p)).
Proof.
  intros p Hp HP. unfold omp_split.
  set (t := if length to =? 0 then repeat [] threads else to).
  assert (Lt : length t = p).
  { unfold t, p. destruct (length to =? 0); [now rewrite repeat_length|reflexivity]. }
  rewrite Lt.
  destruct (omp_split_fold l p order t) as (r & E & Lr & Nr); auto.
  { eapply Permutation_NoDup; [apply Permutation_sym, HP|apply seq_NoDup]. }
  { apply Forall_forall. intros i Hi. eapply Permutation_in in Hi; [|exact HP].
    apply in_seq in Hi. lia. }
  rewrite E. f_equal. apply nth_ext with (d := []) (d' := []).
  { rewrite map_length, seq_length. exact Lr. }
  intros j Hj. rewrite Nr.
  assert (X : existsb (Nat.eqb j) order = true).
  { apply existsb_exists. exists j. split; [|apply Nat.eqb_refl].
    eapply Permutation_in; [apply Permutation_sym, HP|]. apply in_seq. lia. }
  rewrite X.
  set (g := fun i : nat => _).
  rewrite (nth_indep _ [] (g 0)) by (rewrite map_length, seq_length; lia).
  rewrite map_nth. rewrite seq_nth by lia. reflexivity.
Qed.

Lemma omp_blocks_concat l p :
  0 < p ->
  concat (map (fun i => firstn (omp_end (length l) p i - i * (length l / p))
                             (skipn (i * (length l / p)) l)) (seq 0 p)) = l.
Proof.
  intros Hp.
  assert (T' := tiles_concat l (fun i => if i =? p then length l else i * (length l / p)) p).
  cbv beta in T'. assert (D := Nat.div_mod (length l) p ltac:(lia)).
  specialize (T' ltac:(destruct (Nat.eqb_spec 0 p); lia)).
  assert (Hm : forall i, i < p -> (if i =? p then length l else i * (length l / p)) <=
                                  (if S i =? p then length l else S i * (length l / p))).
  { intros i Hi. destruct (Nat.eqb_spec i p); [lia|]. destruct (Nat.eqb_spec (S i) p); nia. }
  specialize (T' Hm). specialize (T' ltac:(now rewrite Nat.eqb_refl)).
  etransitivity; [|exact T'].
  f_equal. apply map_ext_in. intros i Hi. apply in_seq in Hi. unfold omp_end.
  destruct (Nat.eqb_spec (i + 1) p), (Nat.eqb_spec i p), (Nat.eqb_spec (S i) p); try lia.
  - reflexivity.
  - f_equal. lia.
Qed.

(** *** MPI *)
Lemma sequence_map_Some {A B} (f : A -> option B) (g : A -> B) (xs : list A) :
  (forall x, In x xs -> f x = Some (g x)) -> sequence (map f xs) = Some (map g xs).
Proof.
  induction xs; intros H; cbn; [reflexivity|].
  rewrite H by (left; reflexivity). rewrite IHxs by (intros; apply H; now right). reflexivity.
Qed.

Definition cutpos (n p i : nat) : nat := i * (n / p) + Nat.min i (n mod p).

Lemma make_split_range_val l p i :
  (Z.of_nat (length l) < 2 ^ 64)%Z -> (Z.of_nat p <= 2 ^ 63)%Z -> i < p ->
  make_split_range V l i p =
  Some (firstn (cutpos (length l) p (S i) - cutpos (length l) p i)
               (skipn (cutpos (length l) p i) l)).
Proof.
  intros Hn Hp Hi. unfold make_split_range.
  rewrite split_offsets_val by lia.
  rewrite <- Nat2Z.inj_div, <- Nat2Z.inj_mod.
  replace (Z.of_nat i + 1)%Z with (Z.of_nat (S i)) by lia.
  rewrite <- !Nat2Z.inj_min, <- !Nat2Z.inj_mul, <- !Nat2Z.inj_add, !Nat2Z.id.
  fold (cutpos (length l) p i). fold (cutpos (length l) p (S i)).
  pose proof (Nat.div_mod (length l) p ltac:(lia)) as D.
  pose proof (Nat.mod_upper_bound (length l) p ltac:(lia)) as M.
  unfold subrange.
  assert (cutpos (length l) p i <= cutpos (length l) p (S i)) by (unfold cutpos; nia).
  assert (cutpos (length l) p (S i) <= length l).
  { unfold cutpos. remember (length l / p) as s. remember (length l mod p) as r.
    clear Heqs Heqr. nia. }
  destruct (Nat.leb_spec (cutpos (length l) p i) (cutpos (length l) p (S i))); [|lia].
  destruct (Nat.leb_spec (cutpos (length l) p (S i)) (length l)); [|lia]. reflexivity.
Qed.

Lemma mpi_split_val l p :
  (Z.of_nat (length l) < 2 ^ 64)%Z -> (Z.of_nat p <= 2 ^ 63)%Z ->
  mpi_split V p l =
  Some (map (fun i => firstn (cutpos (length l) p (S i) - cutpos (length l) p i)
               (skipn (cutpos (length l) p i) l)) (seq 0 p)).
Proof.
  intros Hn Hp. unfold mpi_split. apply sequence_map_Some.
  intros i Hi. apply in_seq in Hi. apply make_split_range_val; lia.
Qed.

Lemma cut_concat l p :
  0 < p ->
  concat (map (fun i => firstn (cutpos (length l) p (S i) - cutpos (length l) p i)
               (skipn (cutpos (length l) p i) l)) (seq 0 p)) = l.
Proof.
  intros Hp. pose proof (Nat.div_mod (length l) p ltac:(lia)) as D.
  pose proof (Nat.mod_upper_bound (length l) p ltac:(lia)) as M.
  apply tiles_concat.
  - unfold cutpos. lia.
  - intros i Hi. unfold cutpos. nia.
  - unfold cutpos. rewrite Nat.min_r by lia. lia.
Qed.

(** ** Interleavings *)
Definition at_col (c : col) (l : list (col * stmt V)) : list (stmt V) :=
  map snd (filter (fun x => col_eqb c (fst x)) l).

Lemma col_eqb_spec (a b : col) : reflect (a = b) (col_eqb a b).
Proof.
  unfold col_eqb. destruct a as [a1 a2], b as [b1 b2]. cbn.
  destruct (Nat.eqb_spec a1 b1), (Nat.eqb_spec a2 b2); cbn; constructor; congruence.
Qed.

Lemma comp_run_ext (b : nat -> nat) (op : list (stmt V)) (u v : nat -> V) :
  (forall k, u k = v k) -> forall k, comp_run b op u k = comp_run b op v k.
Proof.
  revert u v. induction op as [|s op IH]; intros u v H k; [apply H|].
  cbn. apply IH. intros j. unfold comp_step. destruct (j =? b (s_dst s)); [|apply H].
  f_equal. apply map_ext. intros; apply H.
Qed.

Lemma run_stmts_at (b : nat -> nat) (l : list (col * stmt V)) (m : mem V) k c :
  run_stmts V b l m k c = comp_run b (at_col c l) (fun k => m k c) k.
Proof.
  revert m. induction l as [|[c' s] l IH]; intros m; [reflexivity|].
  unfold run_stmts in *. cbn [fold_left]. rewrite IH.
  unfold at_col. cbn [filter fst]. destruct (col_eqb_spec c c') as [<-|Hc].
  - cbn [map snd]. unfold comp_run at 2. cbn [fold_left]. apply comp_run_ext.
    intros j. unfold run_stmt, comp_step. cbn [fst snd].
    destruct (col_eqb_spec c c); [|congruence]. now rewrite andb_true_r.
  - apply comp_run_ext. intros j. unfold run_stmt. cbn [fst snd].
    destruct (col_eqb_spec c c'); [congruence|]. now rewrite andb_false_r.
Qed.

Lemma at_col_app c (l l' : list (col * stmt V)) : at_col c (l ++ l') = at_col c l ++ at_col c l'.
Proof. unfold at_col. now rewrite filter_app, map_app. Qed.

(** All assignments to column [c] belong to iteration [owner c]. *)
Lemma at_col_owner (owner : col -> nat) (tr : list (nat * (col * stmt V))) c :
  (forall i cs, In (i, cs) tr -> owner (fst cs) = i) ->
  at_col c (map snd tr) = at_col c (proj V (owner c) tr).
Proof.
  induction tr as [|[i [c' s]] tr IH]; intros H; [reflexivity|].
  unfold proj in *. cbn [map snd filter fst].
  pose proof (H i (c', s) (or_introl eq_refl)) as Ho. cbn in Ho.
  assert (IH' := IH (fun i cs Hi => H i cs (or_intror Hi))). clear IH.
  unfold at_col at 1. cbn [filter fst]. destruct (col_eqb_spec c c') as [->|Hc].
  - rewrite Ho, Nat.eqb_refl. cbn [map snd]. unfold at_col at 1. cbn [filter fst].
    destruct (col_eqb_spec c' c'); [|congruence]. cbn [map snd]. f_equal.
    rewrite <- Ho. exact IH'.
  - destruct (Nat.eqb_spec i (owner c)); [|exact IH'].
    unfold at_col at 1. cbn [map snd filter fst].
    destruct (col_eqb_spec c c'); [congruence|]. exact IH'.
Qed.

Lemma proj_In (tr : list (nat * (col * stmt V))) i cs :
  In (i, cs) tr -> In cs (proj V i tr).
Proof.
  intros H. unfold proj. apply in_map_iff. exists (i, cs). split; [reflexivity|].
  apply filter_In. split; [exact H|]. cbn. apply Nat.eqb_refl.
Qed.

Lemma interleaving_at (owner : col -> nat) len iter (tr : list (nat * (col * stmt V))) c :
  (forall i cs, i < len -> In cs (iter i) -> owner (fst cs) = i) ->
  interleaving V len iter tr ->
  at_col c (map snd tr) = if owner c <? len then at_col c (iter (owner c)) else [].
Proof.
  intros Ho H. rewrite (at_col_owner owner).
  - rewrite H. destruct (owner c <? len); reflexivity.
  - intros i cs Hi. pose proof (proj_In tr i cs Hi) as Q. rewrite H in Q.
    destruct (Nat.ltb_spec i len); [|contradiction]. now apply Ho.
Qed.

Lemma interleaving_seq len (iter : nat -> list (col * stmt V)) :
  interleaving V len iter (flat_map (fun i => map (pair i) (iter i)) (seq 0 len)).
Proof.
  intros i. unfold proj.
  assert (G : forall a n, map snd (filter (fun x => fst x =? i)
             (flat_map (fun i => map (pair i) (iter i)) (seq a n))) =
             if (a <=? i) && (i <? a + n) then iter i else []).
  { intros a n. revert a. induction n; intros a.
    - destruct (Nat.leb_spec a i), (Nat.ltb_spec i (a + 0)); try reflexivity; lia.
    - cbn [seq flat_map]. rewrite filter_app, map_app, IHn.
      assert (X : map snd (filter (fun x => fst x =? i) (map (pair a) (iter a))) =
                  if a =? i then iter a else []).
      { generalize (iter a). intros l. induction l as [|x l IHl]; cbn.
        - now destruct (a =? i).
        - destruct (Nat.eqb_spec a i); cbn; rewrite IHl; reflexivity. }
      rewrite X.
      destruct (Nat.eqb_spec a i) as [E|E].
      + rewrite E.
        destruct (Nat.leb_spec i i), (Nat.ltb_spec i (i + S n)), (Nat.leb_spec (S i) i); try lia.
        cbn [andb]. apply app_nil_r.
      + destruct (Nat.leb_spec a i), (Nat.leb_spec (S a) i),
          (Nat.ltb_spec i (a + S n)), (Nat.ltb_spec i (S a + n)); cbn; try reflexivity; lia. }
  rewrite G. reflexivity.
Qed.

Lemma map_snd_seq len (iter : nat -> list (col * stmt V)) :
  map snd (flat_map (fun i => map (pair i) (iter i)) (seq 0 len)) = flat_map iter (seq 0 len).
Proof.
  induction (seq 0 len) as [|i l IH]; cbn; [reflexivity|].
  rewrite map_app, IH. f_equal. rewrite map_map. cbn. apply map_id.
Qed.

Lemma at_col_range (op : list (stmt V)) blk len c :
  at_col c (range_loop V op blk len) =
  if (fst c =? blk) && (snd c <? len) then op else [].
Proof.
  unfold range_loop.
  assert (P1 : forall j, at_col c (map (pair (blk, j)) op) =
                if (fst c =? blk) && (snd c =? j) then op else []).
  { intros j. unfold at_col. induction op as [|s o IH]; cbn.
    - now destruct (_ && _).
    - unfold col_eqb at 1. cbn [fst snd].
      destruct ((fst c =? blk) && (snd c =? j)); cbn; rewrite IH; reflexivity. }
  assert (G : forall a n, at_col c (flat_map (fun j => map (pair (blk, j)) op) (seq a n)) =
             if (fst c =? blk) && ((a <=? snd c) && (snd c <? a + n)) then op else []).
  { intros a n. revert a. induction n; intros a.
    - destruct (Nat.leb_spec a (snd c)), (Nat.ltb_spec (snd c) (a + 0));
        rewrite ?andb_false_r; try reflexivity; lia.
    - cbn [seq flat_map]. rewrite at_col_app, P1, IHn.
      destruct (fst c =? blk); cbn [andb]; [|reflexivity].
      destruct (Nat.eqb_spec (snd c) a) as [E|].
      + destruct (Nat.leb_spec a (snd c)), (Nat.leb_spec (S a) (snd c)),
          (Nat.ltb_spec (snd c) (a + S n)); cbn; try lia. apply app_nil_r.
      + destruct (Nat.leb_spec a (snd c)), (Nat.leb_spec (S a) (snd c)),
          (Nat.ltb_spec (snd c) (a + S n)), (Nat.ltb_spec (snd c) (S a + n)); cbn;
          try reflexivity; lia. }
  rewrite G. reflexivity.
Qed.

Lemma range_loop_In op blk len (cs : col * stmt V) :
  In cs (range_loop V op blk len) -> fst (fst cs) = blk /\ snd (fst cs) < len.
Proof.
  intros H. unfold range_loop in H. apply in_flat_map in H. destruct H as (j & Hj & H).
  apply in_map_iff in H. destruct H as (s & <- & _). apply in_seq in Hj. cbn. lia.
Qed.

(** OpenMP loop over the elements of a range. *)
Lemma omp_range_result b op len tr (m : mem V) k c :
  interleaving V len (omp_iter V op) tr ->
  run_stmts V b (map snd tr) m k c =
  if (fst c =? 0) && (snd c <? len) then comp_run b op (fun k => m k c) k else m k c.
Proof.
  intros H. rewrite run_stmts_at.
  rewrite (interleaving_at snd len (omp_iter V op)); [| |exact H].
  - pose proof (at_col_range op 0 (S (snd c)) c) as X.
    assert (Y : at_col c (omp_iter V op (snd c)) = if fst c =? 0 then op else []).
    { unfold omp_iter, at_col. destruct c as [c0 c1]. cbn. clear.
      induction op as [|s o IH]; cbn; [now destruct (c0 =? 0)|].
      unfold col_eqb at 1. cbn [fst snd]. rewrite Nat.eqb_refl, andb_true_r.
      destruct (c0 =? 0); cbn; rewrite IH; reflexivity. }
    rewrite Y. destruct (snd c <? len), (fst c =? 0); reflexivity.
  - intros i cs _ Hc. apply in_map_iff in Hc. destruct Hc as (s & <- & _). reflexivity.
Qed.

Lemma seq_range_result b op len (m : mem V) k c :
  run_stmts V b (range_loop V op 0 len) m k c =
  if (fst c =? 0) && (snd c <? len) then comp_run b op (fun k => m k c) k else m k c.
Proof.
  rewrite run_stmts_at, at_col_range. destruct (_ && _); reflexivity.
Qed.

Lemma omp_nested_result b op nb sizes tr (m : mem V) k c :
  interleaving V nb (omp_nested_iter V op sizes) tr ->
  run_stmts V b (map snd tr) m k c =
  if (fst c <? nb) && (snd c <? sizes (fst c)) then comp_run b op (fun k => m k c) k else m k c.
Proof.
  intros H. rewrite run_stmts_at.
  rewrite (interleaving_at fst nb (omp_nested_iter V op sizes)); [| |exact H].
  - unfold omp_nested_iter. rewrite at_col_range, Nat.eqb_refl.
    destruct (fst c <? nb), (snd c <? sizes (fst c)); reflexivity.
  - intros i cs _ Hc. apply range_loop_In in Hc. apply Hc.
Qed.
End L.

(** Proofs about M_MArray. *)
From Coq Require Import List Bool Arith ZArith Lia Reals.
From Verif Require Import M_Num M_RK M_MArray S_Back.
Import ListNotations.

Lemma volume_pos sh r : Forall2 (fun i s => i < s) r sh -> 0 < volume sh.
Proof. induction 1; simpl; [lia|]. unfold volume in *. simpl. nia. Qed.

Lemma c_offset_lt sh : forall r, Forall2 (fun i s => i < s) r sh -> c_offset sh r < volume sh.
Proof.
  induction sh as [|s sh IH]; intros r H; inversion H; subst; simpl; [lia|].
  specialize (IH _ H4). pose proof (volume_pos _ _ H4). change (fold_right Nat.mul 1 sh) with (volume sh). nia.
Qed.

Lemma f_offset_lt sh : forall r, Forall2 (fun i s => i < s) r sh -> f_offset sh r < volume sh.
Proof.
  induction sh as [|s sh IH]; intros r H; inversion H; subst; simpl; [lia|].
  specialize (IH _ H4). change (fold_right Nat.mul 1 sh) with (volume sh). nia.
Qed.

Lemma offset_lt o sh r : Forall2 (fun i s => i < s) r sh -> offset o sh r < volume sh.
Proof. destruct o; [apply c_offset_lt|apply f_offset_lt]. Qed.

Lemma c_index_offset sh : forall r, Forall2 (fun i s => i < s) r sh -> c_index sh (c_offset sh r) = r.
Proof.
  induction sh as [|s sh IH]; intros r H; inversion H; subst; simpl; [reflexivity|].
  pose proof (c_offset_lt _ _ H4) as L. pose proof (volume_pos _ _ H4) as P.
  f_equal.
  - rewrite Nat.add_comm, Nat.div_add by lia. rewrite Nat.div_small by lia. reflexivity.
  - rewrite Nat.add_comm, Nat.mod_add by lia. rewrite Nat.mod_small by lia. now apply IH.
Qed.

Lemma f_index_offset sh : forall r, Forall2 (fun i s => i < s) r sh -> f_index sh (f_offset sh r) = r.
Proof.
  induction sh as [|s sh IH]; intros r H; inversion H; subst; [reflexivity|].
  cbn [f_index f_offset]. f_equal.
  - rewrite (Nat.mul_comm s), Nat.mod_add by lia. apply Nat.mod_small. lia.
  - rewrite (Nat.mul_comm s), Nat.div_add by lia. rewrite Nat.div_small by lia. now apply IH.
Qed.

Lemma index_offset o sh r : Forall2 (fun i s => i < s) r sh -> index_at o sh (offset o sh r) = r.
Proof. destruct o; [apply c_index_offset|apply f_index_offset]. Qed.

Lemma zero_based_spec sh : forall bs idx r, zero_based sh bs idx = Some r ->
  Forall2 (fun i s => i < s) r sh /\ length bs = length sh
  /\ map (fun p => fst p + Z.of_nat (snd p))%Z (combine bs r) = idx.
Proof.
  induction sh as [|s sh IH]; intros [|b bs] [|i idx] r H; simpl in H; try discriminate H.
  - injection H as <-. repeat split; constructor.
  - destruct ((b <=? i) && (i <? b + Z.of_nat s))%Z eqn:E; [|discriminate H].
    destruct (zero_based sh bs idx) as [r'|] eqn:E'; [|discriminate H]. injection H as <-.
    apply andb_prop in E. destruct E as [E1 E2]. apply Z.leb_le in E1. apply Z.ltb_lt in E2.
    destruct (IH _ _ _ E') as (F & L & M). repeat split.
    + constructor; [lia|exact F].
    + simpl. now rewrite L.
    + simpl. rewrite M. f_equal. rewrite Z2Nat.id by lia. lia.
Qed.

Section P.
Context {N : Num}.

Lemma ma_same_size_refl_iff sh : forall sh2 bs bs2,
  length sh = length sh2 -> length sh = length bs -> length sh = length bs2 ->
  (ma_same_size_loop sh sh2 bs bs2 = true <-> sh = sh2 /\ bs = bs2).
Proof.
  induction sh as [|s sh IH]; intros [|s2 sh2] [|b bs] [|b2 bs2] L1 L2 L3; simpl in *; try discriminate; try lia.
  - tauto.
  - destruct (s =? s2) eqn:Es; simpl.
    + apply Nat.eqb_eq in Es. subst s2.
      destruct (b =? b2)%Z eqn:Eb; simpl.
      * apply Z.eqb_eq in Eb. subst b2.
        rewrite IH by lia. split; [intros [-> ->]; auto|]. intros [E1 E2]. injection E1 as ->. injection E2 as ->. auto.
      * apply Z.eqb_neq in Eb. split; [discriminate|]. intros [_ E2]. now injection E2.
    + apply Nat.eqb_neq in Es. split; [discriminate|]. intros [E1 _]. now injection E1.
Qed.

(** Well-formed arrays: one base per dimension, num_elements() elements. *)
Definition ma_wf (x : marray N) : Prop :=
  length (ma_bases x) = length (ma_shape x) /\ length (ma_data x) = volume (ma_shape x).

Lemma ma_resize_ok fill (x1 x2 : marray N) : ma_wf x2 ->
  let y := ma_resize fill x1 x2 in
  ma_wf y /\ ma_same_size y x2 = true /\ ma_shape y = ma_shape x2 /\ ma_bases y = ma_bases x2
  /\ length (ma_data y) = length (ma_data x2).
Proof.
  intros [W1 W2] y. unfold y, ma_resize. simpl. repeat split; simpl; auto.
  - now rewrite map_length, seq_length.
  - unfold ma_same_size. simpl. apply ma_same_size_refl_iff; auto.
  - now rewrite map_length, seq_length.
Qed.

Lemma nth_error_map_some {A B} (f : A -> B) l k a : nth_error l k = Some a -> nth_error (map f l) k = Some (f a).
Proof. intros H. rewrite nth_error_map, H. reflexivity. Qed.

Lemma nth_error_seq a n k : k < n -> nth_error (seq a n) k = Some (a + k).
Proof.
  intros H. erewrite nth_error_nth' with (d := 0) by (now rewrite seq_length). now rewrite seq_nth.
Qed.

Lemma ma_write_get g (y : marray N) idx r : length (ma_bases y) = length (ma_shape y) ->
  zero_based (ma_shape y) (ma_bases y) idx = Some r -> ma_get (ma_write g y) idx = Some (g idx).
Proof.
  intros L H. unfold ma_get, ma_write. cbn [ma_shape ma_bases ma_order ma_data]. rewrite H.
  destruct (zero_based_spec _ _ _ _ H) as (F & _ & M).
  rewrite (nth_error_map_some _ _ _ (0 + offset (ma_order y) (ma_shape y) r))
    by (apply nth_error_seq; now apply offset_lt).
  simpl. rewrite index_offset by exact F. now rewrite M.
Qed.

Lemma data_loop_get ts : forall n k (vs : nat -> N * list N -> N) ,
  (forall p, In p ts -> forall j, k <= j < k + n -> nth_error (snd p) j = Some (vs j p)) ->
  data_loop n k ts = Some (map (fun j => scale_sum (map (fun p => (fst p, vs j p)) ts)) (seq k n)).
Proof.
  induction n as [|n IH]; intros k vs H; [reflexivity|].
  simpl data_loop. rewrite (IH (S k) vs) by (intros p Hp j Hj; apply H; [exact Hp|lia]).
  assert (E : (fix reads (l : list (N * list N)) : option (list (N * N)) :=
               match l with
               | [] => Some []
               | (a, d) :: r => match nth_error d k, reads r with
                                | Some v, Some q => Some ((a, v) :: q)
                                | _, _ => None
                                end
               end) ts = Some (map (fun p => (fst p, vs k p)) ts)).
  { assert (H' : forall p, In p ts -> nth_error (snd p) k = Some (vs k p)) by (intros p Hp; apply H; [exact Hp|lia]).
    clear H IH. induction ts as [|[a d] r IH]; [reflexivity|].
    pose proof (H' (a, d) (or_introl eq_refl)) as E. simpl in E. rewrite E.
    rewrite IH by (intros p Hp; apply H'; now right). reflexivity. }
  rewrite E. reflexivity.
Qed.

(** Arrays with the shape, bases and storage order of [s1]. *)
Definition ma_like (s1 x : marray N) : Prop :=
  ma_wf x /\ ma_shape x = ma_shape s1 /\ ma_bases x = ma_bases s1 /\ ma_order x = ma_order s1.

Lemma ma_for_each_get (s1 : marray N) (ts : list (N * marray N)) :
  Forall (fun p => ma_like s1 (snd p)) ts ->
  exists s, ma_for_each s1 ts = Some s
    /\ ma_shape s = ma_shape s1 /\ ma_bases s = ma_bases s1 /\ ma_order s = ma_order s1
    /\ forall idx r, zero_based (ma_shape s1) (ma_bases s1) idx = Some r ->
       forall vs, Forall2 (fun p v => ma_get (snd p) idx = Some v) ts vs ->
       ma_get s idx = Some (scale_sum (combine (map fst ts) vs)).
Proof.
  intros H. rewrite Forall_forall in H. unfold ma_for_each.
  set (d := map (fun p => (fst p, ma_data (snd p))) ts).
  set (V := volume (ma_shape s1)).
  rewrite (data_loop_get d V 0 (fun j p => nth j (snd p) (nofZ 0))).
  2:{ intros p Hp j Hj. unfold d in Hp. apply in_map_iff in Hp. destruct Hp as (q & <- & Hq). simpl.
      apply nth_error_nth'. destruct (H q Hq) as ((_ & W) & Es & _). rewrite W, Es. fold V. lia. }
  eexists. split; [reflexivity|]. simpl. repeat split; auto.
  intros idx r Hz vs Hvs. unfold ma_get. simpl. rewrite Hz.
  destruct (zero_based_spec _ _ _ _ Hz) as (F & _ & _).
  pose proof (offset_lt (ma_order s1) _ _ F) as L. fold V in L.
  rewrite (nth_error_map_some _ _ _ (0 + offset (ma_order s1) (ma_shape s1) r)) by (now apply nth_error_seq).
  f_equal. f_equal. simpl. unfold d. rewrite map_map. simpl. clear d.
  assert (H' : forall q, In q ts -> ma_like s1 (snd q)) by exact H. clear H.
  induction Hvs as [|q v ts' vs' E Hvs IH]; [reflexivity|].
  simpl. f_equal.
  - f_equal. destruct (H' q (or_introl eq_refl)) as (_ & Es & Eb & Eo).
    unfold ma_get in E. rewrite Es, Eb, Eo, Hz in E. now apply nth_error_nth.
  - apply IH. intros q' Hq'. apply H'. now right.
Qed.

Lemma zeros_or sh bs : forall dims, length sh = dims -> length bs = dims ->
  ma_same_size_loop (repeat 0 dims) sh (repeat 0%Z dims) bs = true ->
  sh = repeat 0 dims /\ bs = repeat 0%Z dims.
Proof.
  intros dims L1 L2 H. apply ma_same_size_refl_iff in H; rewrite ?repeat_length; auto.
  destruct H; split; congruence.
Qed.

Lemma ma_euler_c fill sys (x : marray N) t dt : ma_wf x -> ma_order x = c_order ->
  exists y, ma_euler fill sys x t dt = Some y
    /\ ma_shape y = ma_shape x /\ ma_bases y = ma_bases x /\ ma_order y = ma_order x
    /\ forall idx v, ma_get x idx = Some v ->
         ma_get y idx = Some (nadd (nmul (nofZ 1) v) (nmul dt (sys x t idx))).
Proof.
  intros W Ho. unfold ma_euler.
  set (m0 := ma_default (length (ma_shape x))).
  set (m1 := if ma_same_size m0 x then m0 else ma_resize fill m0 x).
  assert (Hm : ma_shape m1 = ma_shape x /\ ma_bases m1 = ma_bases x /\ ma_order m1 = c_order).
  { unfold m1. destruct (ma_same_size m0 x) eqn:E.
    - unfold ma_same_size, m0, ma_default in E. simpl in E. destruct W as [W1 _].
      destruct (zeros_or _ _ (length (ma_shape x)) eq_refl W1 E) as [E1 E2]. unfold m0, ma_default. simpl. auto.
    - unfold ma_resize. simpl. auto. }
  destruct Hm as (Hs & Hb & Hor).
  set (dx := ma_write (sys x t) m1).
  assert (Wd : ma_like x dx).
  { unfold dx, ma_write, ma_like, ma_wf. simpl. rewrite map_length, seq_length, Hs, Hb, Hor, Ho.
    destruct W as [W1 W2]. auto. }
  destruct (ma_for_each_get x [(nofZ 1, x); (dt, dx)]) as (s & E & Es & Eb & Eo & G).
  { constructor; [|constructor; [exact Wd|constructor]]. repeat split; auto; apply W. }
  exists s. split; [exact E|]. split; [exact Es|]. split; [exact Eb|]. split; [exact Eo|].
  intros idx v Hv.
  destruct (zero_based (ma_shape x) (ma_bases x) idx) as [r|] eqn:Hz.
  2:{ unfold ma_get in Hv. rewrite Hz in Hv. discriminate Hv. }
  rewrite (G idx r Hz [v; sys x t idx]).
  - reflexivity.
  - constructor; [exact Hv|]. constructor; [|constructor]. simpl.
    apply (ma_write_get (sys x t) m1 idx r).
    + rewrite Hs, Hb. apply W.
    + rewrite Hs, Hb. exact Hz.
Qed.
End P.

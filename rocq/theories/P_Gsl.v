(** Proofs about M_Gsl. *)
From Coq Require Import List Bool Arith Lia.
From Verif Require Import M_Run M_Midpoint M_Gsl S_Back.
Import ListNotations.

Section P.
Variable V : Type.

Lemma g_loop_from (g : gvec V) : 0 < g_stride g ->
  (forall i, i < g_size g -> g_data g + i * g_stride g < length (g_block g)) ->
  forall n k, k + n = g_size g ->
  exists vs, g_loop n g (g_data g + k * g_stride g, g_stride g) (g_end g) = Ok vs
    /\ map Some vs = map (fun i => nth_error (g_block g) (g_data g + i * g_stride g)) (seq k n).
Proof.
  intros Hs Hb. induction n as [|n IH]; intros k Hk.
  - exists []. split; [|reflexivity]. simpl. unfold g_equal, g_end. simpl.
    replace k with (g_size g) by lia. rewrite (Nat.mul_comm (g_stride g)). now rewrite Nat.eqb_refl.
  - destruct (IH (S k) ltac:(lia)) as (vs & E & Ev).
    specialize (Hb k ltac:(lia)).
    destruct (nth_error (g_block g) (g_data g + k * g_stride g)) as [v|] eqn:En.
    2:{ apply nth_error_None in En. lia. }
    exists (v :: vs). split.
    + simpl. unfold g_equal at 1, g_end at 1. simpl fst.
      replace (g_data g + k * g_stride g =? g_data g + g_stride g * g_size g) with false
        by (symmetry; apply Nat.eqb_neq; nia).
      unfold g_deref, vget. simpl fst. rewrite En. simpl.
      unfold g_incr. simpl fst; simpl snd.
      replace (g_data g + k * g_stride g + g_stride g) with (g_data g + S k * g_stride g) by (simpl; lia).
      rewrite E. reflexivity.
    + simpl. rewrite En. f_equal. exact Ev.
Qed.

Lemma g_loop_all (g : gvec V) : 0 < g_stride g ->
  (forall i, i < g_size g -> g_data g + i * g_stride g < length (g_block g)) ->
  exists vs, g_loop (g_size g) g (g_begin g) (g_end g) = Ok vs
    /\ map Some vs = strided (g_block g) (g_data g) (g_stride g) (g_size g).
Proof.
  intros Hs Hb. destruct (g_loop_from g Hs Hb (g_size g) 0 eq_refl) as (vs & E & Ev).
  exists vs. split; [|exact Ev]. unfold g_begin. now rewrite Nat.mul_0_l, Nat.add_0_r in E.
Qed.

Lemma g_advance_iter (i : giter) n : g_advance i n = fold_left (fun j _ => g_incr j) (seq 0 n) i.
Proof.
  induction n as [|n IH].
  - unfold g_advance. simpl. rewrite Nat.add_0_r. now destruct i.
  - rewrite seq_S, fold_left_app. simpl. rewrite <- IH. unfold g_advance, g_incr. simpl. f_equal. lia.
Qed.

Variable junk : V.

Lemma w_copy_ub (x : gptr) (h : gheap V) : w_copy junk x h = UB.
Proof. reflexivity. Qed.

Lemma w_adjust_ok (h : gheap V) a b u v :
  h_at h a = Some u -> h_at h b = Some v -> (forall c, h_next h <= c -> h_at h c = None) ->
  exists r w h', w_adjust junk (Some a) (Some b) h = Ok (r, w, h')
    /\ (exists l, g_read w h' = Ok l /\ length l = length v)
    /\ g_read (Some b) h' = Ok v
    /\ (forall c, Some c <> w -> c <> a -> h_at h' c = h_at h c)
    /\ (w <> Some a -> h_at h' a = None)
    /\ (forall c, h_next h' <= c -> h_at h' c = None)
    /\ r = negb (length u =? length v).
Proof.
  intros Ha Hb Hn. unfold w_adjust, g_same_size, g_read. rewrite Ha, Hb. simpl.
  destruct (length u =? length v) eqn:E.
  - exists false, (Some a), h. repeat split; auto.
    + exists u. rewrite Ha. split; auto. now apply Nat.eqb_eq.
    + now rewrite Hb.
    + intros H. now contradiction H.
  - assert (Hab : a <> b).
    { intros ->. rewrite Ha in Hb. injection Hb as ->. now rewrite Nat.eqb_refl in E. }
    assert (La : a < h_next h). { destruct (Nat.lt_ge_cases a (h_next h)) as [|G]; auto. rewrite (Hn a G) in Ha. discriminate Ha. }
    assert (Lb : b < h_next h). { destruct (Nat.lt_ge_cases b (h_next h)) as [|G]; auto. rewrite (Hn b G) in Hb. discriminate Hb. }
    unfold g_resize, g_free. rewrite Ha. simpl. unfold g_read, h_set. simpl.
    replace (a =? b) with false by (symmetry; now apply Nat.eqb_neq). rewrite Hb. simpl.
    eexists true, (Some (h_next h)), _. split; [reflexivity|]. simpl.
    rewrite Nat.eqb_refl.
    replace (h_next h =? b) with false by (symmetry; apply Nat.eqb_neq; lia).
    replace (h_next h =? a) with false by (symmetry; apply Nat.eqb_neq; lia).
    replace (a =? b) with false by (symmetry; now apply Nat.eqb_neq).
    rewrite Nat.eqb_refl, Hb. repeat split; auto.
    + exists (repeat junk (length v)). split; auto. apply repeat_length.
    + intros c Hc Hca. replace (h_next h =? c) with false by (symmetry; apply Nat.eqb_neq; congruence).
      now replace (a =? c) with false by (symmetry; apply Nat.eqb_neq; congruence).
    + intros c Hc. replace (h_next h =? c) with false by (symmetry; apply Nat.eqb_neq; lia).
      replace (a =? c) with false by (symmetry; apply Nat.eqb_neq; lia). apply Hn. lia.
Qed.
End P.

(** modified_midpoint is Gragg's scheme, in any arithmetic and for any aliasing. *)
From Coq Require Import ZArith List Bool Arith Lia FunctionalExtensionality.
From Verif Require Import M_Num M_Run M_RK S_RK P_RK M_Midpoint S_Midpoint.
Import ListNotations.

Section G.
Context {N : Num} {I : Type}.
Variable f : vec N I -> N -> vec N I.

(** The sequence itself: nodes, and consecutive pairs. *)
Fixpoint gth (t h : N) (m : nat) : N := match m with O => t | S m' => nadd (gth t h m') h end.
Fixpoint gpair (x dx : vec N I) (t h : N) (m : nat) : vec N I * vec N I :=
  match m with
  | O => (x, fun i => nadd (nmul (nofZ 1) (x i)) (nmul h (dx i)))
  | S m' => let (a, b) := gpair x dx t h m' in
            (b, fun i => nadd (nmul (nofZ 1) (a i)) (nmul (nmul (nofZ 2) h) (f b (gth t h (S m')) i)))
  end.
Definition gz x dx t h m := fst (gpair x dx t h m).

Lemma gpair_snd x dx t h m : snd (gpair x dx t h m) = gz x dx t h (S m).
Proof. unfold gz. cbn [gpair]. destruct (gpair x dx t h m). reflexivity. Qed.
Lemma gpair_eq x dx t h m : gpair x dx t h m = (gz x dx t h m, gz x dx t h (S m)).
Proof. rewrite <- gpair_snd. unfold gz. now destruct (gpair x dx t h m). Qed.
Lemma gz_SS x dx t h m : gz x dx t h (S (S m))
  = fun i => nadd (nmul (nofZ 1) (gz x dx t h m i)) (nmul (nmul (nofZ 2) h) (f (gz x dx t h (S m)) (gth t h (S m)) i)).
Proof.
  rewrite <- (gpair_snd x dx t h (S m)). cbn [gpair]. rewrite gpair_eq. reflexivity.
Qed.

Lemma gz_gragg x dx t h : gragg f x dx t h (gz x dx t h) (gth t h).
Proof.
  split; try reflexivity. intros m i. now rewrite gz_SS.
Qed.

Lemma gragg_unique x dx t h z th : gragg f x dx t h z th -> (forall m, th m = gth t h m) /\ (forall m, z m = gz x dx t h m).
Proof.
  intros [A B C D E]. assert (T : forall m, th m = gth t h m) by (induction m; cbn; congruence).
  split; [exact T|].
  assert (G : forall m, z m = gz x dx t h m /\ z (S m) = gz x dx t h (S m)).
  { induction m as [|m [IH1 IH2]].
    - split; [exact C|]. extensionality i. now rewrite D.
    - split; [exact IH2|]. extensionality i. rewrite gz_SS. rewrite E, IH1, IH2, T. reflexivity. }
  intro m. apply G.
Qed.

Notation half := (ndiv (nofZ 1) (nofZ 2)).

Lemma mm_rounds_exec al x dx t h : forall n k (m : rkmem N I),
  m (LK 0) = gz x dx t h k -> m LTmp = gz x dx t h (S k) ->
  m LDxTmp = f (gz x dx t h (S k)) (gth t h (S k)) ->
  exists m', exec f al (mm_rounds n (gth t h (S k)) h (nmul (nofZ 2) h)) m
     = (m', map (fun j => (gz x dx t h j, gth t h j)) (seq (S (S k)) n))
   /\ m' (LK 0) = gz x dx t h (k + n) /\ m' LTmp = gz x dx t h (S k + n)
   /\ m' LDxTmp = f (gz x dx t h (S k + n)) (gth t h (S k + n)).
Proof.
  induction n as [|n IH]; intros k m H0 H1 H2.
  - exists m. cbn [mm_rounds exec seq map]. rewrite !Nat.add_0_r. auto.
  - cbn [mm_rounds app exec exec1].
    set (ma := wr al m (LK 1) _).
    set (mb := wr al ma LTmp _).
    set (mc := wr al mb (LK 0) _).
    set (md := wr al mc LDxTmp _).
    assert (Eb : mb LTmp = gz x dx t h (S (S k))).
    { unfold mb, wr, rd; cbn [resolve]. rewrite upd_same, gz_SS. extensionality i.
      cbn [map fst snd resolve scale_sum fold_left]. unfold ma, wr; cbn [resolve].
      rewrite !upd_other by discriminate. now rewrite H0, H2. }
    assert (Ec : mc (LK 0) = gz x dx t h (S k)).
    { unfold mc, wr, rd; cbn [resolve]. rewrite upd_same. unfold mb, ma, wr, rd; cbn [resolve].
      rewrite upd_other by discriminate. rewrite upd_same. exact H1. }
    assert (Et : mc LTmp = gz x dx t h (S (S k))).
    { unfold mc, wr, rd; cbn [resolve]. rewrite upd_other by discriminate. exact Eb. }
    change (nadd (gth t h (S k)) h) with (gth t h (S (S k))).
    destruct (IH (S k) md) as (m' & E & A & B & C).
    + unfold md, wr; cbn [resolve]. rewrite upd_other by discriminate. exact Ec.
    + unfold md, wr; cbn [resolve]. rewrite upd_other by discriminate. exact Et.
    + unfold md, wr, rd; cbn [resolve]. rewrite upd_same, Et. reflexivity.
    + exists m'. rewrite E. split; [|].
      * unfold rd; cbn [resolve]. rewrite Et. cbn [seq map app]. reflexivity.
      * rewrite A, B, C. replace (k + S n)%nat with (S k + n)%nat by lia.
        replace (S k + S n)%nat with (S (S k) + n)%nat by lia. auto.
Qed.

Lemma mm_exec al n t dt (m : rkmem N I) : (1 <= n)%nat ->
  let h := ndiv dt (nofnat n) in
  let z := gz (m LIn) (m LDx) t h in
  exists m', exec f al (mm_prog n t dt) m = (m', map (fun j => (z j, gth t h j)) (seq 1 n))
    /\ m' (resolve al LOut) = smoothed f h z (gth t h) n.
Proof.
  intros Hn h z. unfold mm_prog. fold h.
  rewrite exec_app. cbn [exec exec1].
  set (ma := wr al m LTmp _). set (mb := wr al ma LDxTmp _). set (mc := wr al mb (LK 0) _).
  assert (Ea : ma LTmp = z 1%nat).
  { unfold ma, wr; cbn [resolve]. rewrite upd_same. reflexivity. }
  assert (E1 : mc (LK 0) = z 0%nat) by (unfold mc, wr; cbn [resolve]; rewrite upd_same; reflexivity).
  assert (E2 : mc LTmp = z 1%nat).
  { unfold mc, mb, wr; cbn [resolve]. rewrite !upd_other by discriminate. exact Ea. }
  assert (E3 : mc LDxTmp = f (z 1%nat) (gth t h 1)).
  { unfold mc, mb, wr; cbn [resolve]. rewrite upd_other by discriminate. rewrite upd_same.
    unfold rd; cbn [resolve]. rewrite Ea. reflexivity. }
  rewrite exec_app.
  destruct (mm_rounds_exec al (m LIn) (m LDx) t h (n - 1) 0 mc E1 E2 E3) as (m' & E & A & B & C).
  cbn [gth] in E |- *. rewrite E. cbn [exec exec1].
  eexists. split.
  - unfold rd; cbn [resolve]. rewrite Ea. cbn [app]. rewrite app_nil_r.
    destruct n as [|n]; [lia|]. cbn [seq map]. rewrite Nat.sub_succ, Nat.sub_0_r. reflexivity.
  - unfold wr. rewrite upd_same. extensionality i. unfold smoothed.
    cbn [map fst snd scale_sum fold_left]. unfold rd; cbn [resolve]. rewrite A, B, C.
    replace (0 + (n - 1))%nat with (n - 1)%nat by lia. replace (1 + (n - 1))%nat with n by lia. reflexivity.
Qed.

(** do_step. *)
Lemma mm_do_step al n t dt (m : rkmem N I) : (1 <= n)%nat ->
  let x := m LIn in let h := ndiv dt (nofnat n) in
  let z := gz x (f x t) t h in
  exists m', run_step f al (mm_prog n t dt) t m = (m', (x, t) :: map (fun j => (z j, gth t h j)) (seq 1 n))
    /\ m' (resolve al LOut) = smoothed f h z (gth t h) n.
Proof.
  intros Hn x h z. unfold run_step, do_step_prog. cbn [exec exec1].
  set (m0 := wr al m LDx _).
  destruct (mm_exec al n t dt m0 Hn) as (m' & E & O).
  exists m'. rewrite E.
  assert (Hx : m0 LIn = x) by (unfold m0, wr; cbn [resolve]; now rewrite upd_other by discriminate).
  assert (Hd : m0 LDx = f x t) by (unfold m0, wr; cbn [resolve]; rewrite upd_same; reflexivity).
  rewrite Hx, Hd in *. split; [reflexivity|exact O].
Qed.

(** What the extrapolation methods use. *)
Definition mm_val (n : nat) (x dx : vec N I) (t dt : N) : vec N I :=
  let h := ndiv dt (nofnat n) in smoothed f h (gz x dx t h) (gth t h) n.
Lemma mm_step_val m n x dx t dt : (1 <= n)%nat -> snd (mm_step f m n x dx t dt) = mm_val n x dx t dt.
Proof.
  intro Hn. unfold mm_step. cbn [snd].
  destruct (mm_exec (mkAlias false false) n t dt (upd (upd m LIn x) LDx dx) Hn) as (m' & E & O).
  rewrite E. exact O.
Qed.
End G.

(** Proofs about buffer sizes. *)
From Coq Require Import List Bool Arith Lia.
From Verif Require Import M_Num M_RK M_Resize.
Import ListNotations.

(** The buffers a stepper works on. *)
Definition own (name : rk_name) : list loc := LDx :: rk_temps name.

Definition fits (name : rk_name) (n : nat) (sz : sizes) : Prop :=
  Forall (fun l => sz l = n) (own name).

Lemma loc_eqb_true a b : loc_eqb a b = true -> a = b.
Proof.
  destruct a, b; cbn; intros H; try reflexivity; try (exfalso; discriminate H).
  apply Nat.eqb_eq in H. now subst.
Qed.
Lemma loc_eqb_same a : loc_eqb a a = true.
Proof. destruct a; cbn; auto using Nat.eqb_refl. Qed.

Lemma fold_set_size ls n sz l :
  fold_left (fun s l => set_size s l n) ls sz l =
  if existsb (fun a => loc_eqb a l) ls then n else sz l.
Proof.
  revert sz; induction ls as [|a ls IH]; intros sz; [reflexivity|].
  cbn [fold_left existsb]. rewrite IH. unfold set_size.
  destruct (existsb (fun a => loc_eqb a l) ls); [now rewrite orb_true_r|].
  rewrite orb_false_r. reflexivity.
Qed.

(** Every access of every stepper goes from one of x, own buffers to another. *)
Definition touched (name : rk_name) (l : loc) : Prop := l = LIn \/ In l (own name).

Lemma accesses_touched (N : Num) name (t dt : N) :
  Forall (fun ab => touched name (fst ab) /\ touched name (snd ab))
    (flat_map (accesses (mkAlias true true)) (rk_impl name t dt)).
Proof.
  destruct name; unfold touched; cbn [own rk_temps];
    repeat (constructor; [split; cbn; tauto|]); constructor.
Qed.

Lemma in_bounds_fits (N : Num) name (t dt : N) n sz :
  fits name n sz -> sz LIn = n ->
  in_bounds (mkAlias true true) (rk_impl name t dt) sz = true.
Proof.
  intros F H. unfold in_bounds. apply forallb_forall. intros ab Hab.
  pose proof (accesses_touched N name t dt) as A. rewrite Forall_forall in A.
  destruct (A ab Hab) as [A1 A2]. unfold fits in F. rewrite Forall_forall in F.
  assert (forall l, touched name l -> sz l = n) as Z.
  { intros l [->|Hl]; auto. }
  rewrite !Z by assumption. apply Nat.leb_refl.
Qed.

Lemma temps_no_in name : existsb (fun a => loc_eqb a LIn) (rk_temps name) = false.
Proof. destruct name; reflexivity. Qed.
Lemma temps_no_dx name : existsb (fun a => loc_eqb a LDx) (rk_temps name) = false.
Proof. destruct name; reflexivity. Qed.

Lemma temps_set name n sz l : In l (rk_temps name) ->
  fold_left (fun s l => set_size s l n) (rk_temps name) sz l = n.
Proof.
  intros H. rewrite fold_set_size.
  assert (X : existsb (fun a => loc_eqb a l) (rk_temps name) = true).
  { apply existsb_exists. exists l. split; [exact H|apply loc_eqb_same]. }
  now rewrite X.
Qed.

Lemma temps_empty_or name : rk_temps name = [] \/ exists a l, rk_temps name = a :: l.
Proof. destruct name; cbn; eauto. Qed.

(** A step whose resizers act, or find the right sizes, succeeds. *)
Definition ready (r : resizer) (name : rk_name) (n : nat) (st : sstate) : Prop :=
  match r with
  | always_resizer => True
  | initially_resizer =>
      (ss_ini1 st = false \/ ss_size st LDx = n) /\
      (ss_ini2 st = false \/ Forall (fun l => ss_size st l = n) (rk_temps name))
  | never_resizer => fits name n (ss_size st)
  end.

Lemma adjust_right r ini ls n sz :
  match r with always_resizer => True | initially_resizer => ini = false \/ Forall (fun l => sz l = n) ls
             | never_resizer => Forall (fun l => sz l = n) ls end ->
  (forall l, In l ls -> snd (adjust r ini ls n sz) l = n) /\
  (forall l, existsb (fun a => loc_eqb a l) ls = false -> snd (adjust r ini ls n sz) l = sz l).
Proof.
  intros H.
  assert (A : forall l, In l ls -> fold_left (fun s l => set_size s l n) ls sz l = n).
  { intros l Hl. rewrite fold_set_size.
    assert (X : existsb (fun a => loc_eqb a l) ls = true).
    { apply existsb_exists. exists l. split; [exact Hl|apply loc_eqb_same]. }
    now rewrite X. }
  assert (B : forall l, existsb (fun a => loc_eqb a l) ls = false ->
     fold_left (fun s l => set_size s l n) ls sz l = sz l).
  { intros l Hl. now rewrite fold_set_size, Hl. }
  destruct r; cbn.
  - split; auto.
  - destruct ini; cbn; [|split; auto]. destruct H as [H|H]; [exfalso; discriminate H|].
    rewrite Forall_forall in H. split; auto.
  - rewrite Forall_forall in H. split; auto.
Qed.

Lemma step_ready (N : Num) r name (t dt : N) st n :
  ready r name n st ->
  exists st', step_sizes r name t dt st n = Some st' /\ fits name n (ss_size st') /\
              ready r name n st'.
Proof.
  intros H. unfold step_sizes.
  set (sz := set_size (ss_size st) LIn n).
  assert (E1 : forall l, loc_eqb LIn l = false -> sz l = ss_size st l)
    by (intros l Hl; unfold sz, set_size; now rewrite Hl).
  assert (E0 : sz LIn = n) by reflexivity.
  destruct (adjust_right r (ss_ini1 st) [LDx] n sz) as [A1 A2].
  { destruct r; cbn in H; auto.
    - destruct H as [[H|H] _]; [now left|right]. constructor; [|constructor].
      rewrite E1 by reflexivity. exact H.
    - unfold fits, own in H. inversion H as [|? ? G1 G2]. constructor; [|constructor].
      rewrite E1 by reflexivity. exact G1. }
  destruct (adjust r (ss_ini1 st) [LDx] n sz) as [[resized i1] sz1] eqn:AD. cbn [snd] in A1, A2.
  assert (D1 : sz1 LDx = n) by (apply A1; now left).
  assert (I1 : sz1 LIn = n) by (rewrite A2 by reflexivity; exact E0).
  assert (OK1 : in_bounds (N := N) (mkAlias true true) [ISys LDx LIn t] sz1 = true).
  { cbn. rewrite D1, I1, Nat.leb_refl. reflexivity. }
  assert (OK1' : (if match name with rk_dopri5 => resized || ss_first st | _ => true end
     then in_bounds (N := N) (mkAlias true true) [ISys LDx LIn t] sz1 else true) = true).
  { rewrite OK1. now destruct (match name with rk_dopri5 => _ | _ => _ end). }
  rewrite OK1'. clear OK1 OK1'. cbn [andb].
  assert (IN1 : match r with initially_resizer => i1 = true | _ => True end).
  { unfold adjust in AD. destruct r; auto. destruct (ss_ini1 st); inversion AD; reflexivity. }
  destruct (temps_empty_or name) as [T|(a & ls & T)].
  - rewrite T. 
    assert (F : fits name n sz1) by (unfold fits, own; rewrite T; repeat constructor; exact D1).
    rewrite (in_bounds_fits N name t dt n sz1) by assumption.
    eexists. split; [reflexivity|]. split; [exact F|]. cbn.
    destruct r; cbn; auto. rewrite T. split; right; auto.
  - rewrite T. cbv beta iota. rewrite <- T.
    destruct (adjust_right r (ss_ini2 st) (rk_temps name) n sz1) as [B1 B2].
    { assert (E2 : forall l, In l (rk_temps name) -> sz1 l = ss_size st l).
      { intros l Hl. rewrite A2.
        - apply E1. destruct name; cbn in Hl; repeat (destruct Hl as [<-|Hl]; [reflexivity|]); contradiction.
        - destruct name; cbn in Hl; repeat (destruct Hl as [<-|Hl]; [reflexivity|]); contradiction. }
      destruct r; cbn in H; auto.
      - destruct H as [_ [H|H]]; [now left|right]. rewrite Forall_forall in H |- *.
        intros l Hl. rewrite E2 by exact Hl. auto.
      - unfold fits, own in H. inversion H as [|? ? G1 G2]. rewrite Forall_forall in G2 |- *.
        intros q Hq. rewrite E2 by exact Hq. auto. }
    destruct (adjust r (ss_ini2 st) (rk_temps name) n sz1) as [[rz2 i2] sz2] eqn:AD2.
    cbn [snd] in B1, B2.
    assert (F : fits name n sz2).
    { unfold fits, own. constructor.
      - rewrite B2 by apply temps_no_dx. exact D1.
      - apply Forall_forall. exact B1. }
    rewrite (in_bounds_fits N name t dt n sz2 F) by (rewrite B2 by apply temps_no_in; exact I1).
    eexists. split; [reflexivity|]. split; [exact F|]. cbn.
    destruct r; cbn; auto. unfold fits, own in F. inversion F as [|? ? G1 G2]. split; right; auto.
Qed.

Lemma in_bounds_false (N : Num) al (p : list (instr N)) sz a b :
  In (a, b) (flat_map (accesses al) p) -> sz b < sz a -> in_bounds al p sz = false.
Proof.
  intros H L. unfold in_bounds. apply Bool.not_true_iff_false. intros E.
  rewrite forallb_forall in E. specialize (E _ H). cbn in E. apply Nat.leb_le in E. lia.
Qed.

(** The accesses that go wrong: the output (in place: x) reads m_dxdt, the first
    stage reads x into m_x_tmp. *)
Lemma access_out (N : Num) name (t dt : N) : name <> rk_f78 ->
  In (LIn, LDx) (flat_map (accesses (mkAlias true true)) (rk_impl name t dt)).
Proof. destruct name; intros H; try congruence; cbn; tauto. Qed.

Lemma access_tmp (N : Num) name (t dt : N) : name <> rk_euler ->
  In (LTmp, LIn) (flat_map (accesses (mkAlias true true)) (rk_impl name t dt)).
Proof. destruct name; intros H; try congruence; cbn; tauto. Qed.

(** initially_resizer after its first use leaves the buffers alone. *)
Lemma step_initialized (N : Num) name (t dt : N) st n1 n2 :
  fits name n1 (ss_size st) -> ss_ini1 st = true ->
  (rk_temps name = [] \/ ss_ini2 st = true) -> ss_first st = false ->
  (n1 < n2 -> step_sizes initially_resizer name t dt st n2 = None) /\
  (n2 < n1 -> name <> rk_euler -> step_sizes initially_resizer name t dt st n2 = None) /\
  (n2 <= n1 -> name = rk_euler -> exists st', step_sizes initially_resizer name t dt st n2 = Some st').
Proof.
  intros F I1 I2 FC. unfold step_sizes, adjust. rewrite I1, FC.
  set (sz := set_size (ss_size st) LIn n2).
  assert (E0 : sz LIn = n2) by reflexivity.
  unfold fits, own in F. inversion F as [|? ? F1 F2].
  assert (E1 : sz LDx = n1) by exact F1.
  assert (K : forall X, match rk_temps name with
     | [] => (false, ss_ini2 st, sz)
     | a :: l => if ss_ini2 st then (false, true, sz) else X a l end = (false, ss_ini2 st, sz)).
  { intros X. destruct I2 as [I2|I2]; rewrite I2; [reflexivity|].
    now destruct (rk_temps name). }
  assert (O : in_bounds (N := N) (mkAlias true true) [ISys LDx LIn t] sz = (n2 <=? n1)).
  { unfold in_bounds. cbn [flat_map accesses app forallb fst snd resolve al_x al_dx].
    rewrite E0, E1. apply andb_true_r. }
  rewrite O.
  split; [|split].
  - intros L. rewrite K. destruct (Nat.leb_spec n2 n1); [lia|].
    assert (D : name = rk_dopri5 \/ match name with rk_dopri5 => false || false | _ => true end = true)
      by (destruct name; auto).
    destruct D as [->|D].
    + rewrite (in_bounds_false N _ _ sz LIn LDx); [reflexivity| |lia].
      apply access_out. discriminate.
    + rewrite D. reflexivity.
  - intros L Hn. rewrite K.
    rewrite (in_bounds_false N _ (rk_impl name t dt) sz LTmp LIn).
    + rewrite andb_false_r. reflexivity.
    + apply access_tmp, Hn.
    + rewrite E0. replace (sz LTmp) with n1; [exact L|].
      rewrite Forall_forall in F2. symmetry. apply F2. destruct name; cbn; auto; congruence.
  - intros L ->. destruct (Nat.leb_spec n2 n1) as [L'|L']; [|lia].
    assert (IB : in_bounds (mkAlias true true) (rk_impl rk_euler t dt) sz = true).
    { unfold in_bounds. cbn [rk_impl euler_prog flat_map accesses map app forallb fst snd resolve al_x al_dx].
      rewrite E0, E1, Nat.leb_refl. destruct (Nat.leb_spec n2 n1); [reflexivity|lia]. }
    cbn [rk_temps]. rewrite IB. cbn. eauto.
Qed.

Lemma first_step_flags (N : Num) name (t dt : N) n st' :
  step_sizes initially_resizer name t dt fresh n = Some st' ->
  ss_ini1 st' = true /\ (rk_temps name = [] \/ ss_ini2 st' = true) /\ ss_first st' = false.
Proof.
  unfold step_sizes. cbn [fresh ss_ini1 ss_ini2 ss_first ss_size adjust].
  destruct (temps_empty_or name) as [T|(a & ls & T)]; rewrite T.
  - match goal with |- (if ?c then _ else _) = _ -> _ => destruct c end; intros E;
      [injection E as E|discriminate E]. subst st'. cbn. auto.
  - match goal with |- (if ?c then _ else _) = _ -> _ => destruct c end; intros E;
      [injection E as E|discriminate E]. subst st'. cbn. auto.
Qed.

Lemma run_ready (N : Num) r name (t dt : N) n ns :
  Forall (eq n) ns -> forall st, ready r name n st ->
  exists st', run_sizes r name t dt st ns = Some st'.
Proof.
  induction 1 as [|m ns E F IH]; intros st H; cbn [run_sizes]; [eauto|].
  subst m. destruct (step_ready N r name t dt st n H) as (st' & -> & _ & H'). auto.
Qed.

Lemma run_always (N : Num) name (t dt : N) ns : forall st,
  exists st', run_sizes always_resizer name t dt st ns = Some st' /\
              (forall n ns', ns = ns' ++ [n] -> fits name n (ss_size st')).
Proof.
  induction ns as [|m ns IH]; intros st; cbn [run_sizes].
  - exists st. split; [reflexivity|]. intros n [|? ?] E; inversion E.
  - destruct (step_ready N always_resizer name t dt st m Logic.I) as (s1 & -> & F & _).
    destruct (IH s1) as (s2 & E2 & P2). exists s2. split; [exact E2|].
    intros n [|a ns'] E; inversion E; subst.
    + cbn in E2. injection E2 as <-. exact F.
    + eapply P2. reflexivity.
Qed.

Lemma adjust_size_ready r name n st : ready r name n (adjust_size name n st).
Proof.
  unfold adjust_size. set (ls := rk_temps name ++ _ ++ [LDx]).
  assert (A : forall l, In l (own name) -> snd (resize_impl ls n (ss_size st)) l = n).
  { intros l Hl. unfold resize_impl. cbn [snd]. rewrite fold_set_size.
    assert (X : existsb (fun a => loc_eqb a l) ls = true); [|now rewrite X].
    apply existsb_exists. exists l. split; [|apply loc_eqb_same]. unfold ls.
    destruct Hl as [<-|Hl]; apply in_app_iff; [right|now left].
    apply in_app_iff. right. now left. }
  destruct r; cbn; auto.
  - split; right; [apply A; now left|]. apply Forall_forall. intros l Hl. apply A. now right.
  - apply Forall_forall. exact A.
Qed.

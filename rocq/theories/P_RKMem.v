(** Programs of algebra calls: which buffers the result depends on, and linear invariants. *)
From Coq Require Import ZArith List Bool Reals Lra FunctionalExtensionality.
From Verif Require Import M_Num M_RK S_RK P_R.
Import ListNotations.

Section Mem.
Context {N : Num} {I : Type}.
Variable sys : vec N I -> N -> vec N I.
Variable al : alias.

(** [defined ok p]: the buffers whose contents are determined by those in [ok] after [p]; [None] if an
    undetermined buffer is read. *)
Definition step_defined (ok : loc -> bool) (i : instr N) : option (loc -> bool) :=
  match i with
  | ISum d ts => if forallb (fun p => ok (resolve al (snd p))) ts then Some (fun l => loc_eqb (resolve al d) l || ok l) else None
  | ISys d s _ | ICopy d s => if ok (resolve al s) then Some (fun l => loc_eqb (resolve al d) l || ok l) else None
  end.
Fixpoint defined (ok : loc -> bool) (p : list (instr N)) : option (loc -> bool) :=
  match p with
  | [] => Some ok
  | i :: p' => match step_defined ok i with Some ok' => defined ok' p' | None => None end
  end.
Definition agree (ok : loc -> bool) (m1 m2 : rkmem N I) : Prop := forall l, ok l = true -> m1 l = m2 l.

Lemma agree_wr ok m1 m2 d v1 v2 : agree ok m1 m2 -> v1 = v2 ->
  agree (fun l => loc_eqb (resolve al d) l || ok l) (wr al m1 d v1) (wr al m2 d v2).
Proof.
  intros H -> l Hl. unfold wr, upd. destruct (loc_eqb (resolve al d) l); [reflexivity|]. exact (H l Hl).
Qed.
Lemma exec1_agree ok i ok' m1 m2 : agree ok m1 m2 -> step_defined ok i = Some ok' ->
  agree ok' (fst (exec1 sys al i m1)) (fst (exec1 sys al i m2)) /\ snd (exec1 sys al i m1) = snd (exec1 sys al i m2).
Proof.
  intros H E. destruct i as [d ts|d s t|d s]; cbn [step_defined] in E; cbn [exec1 fst snd].
  - destruct (forallb _ ts) eqn:F; [|discriminate E]. injection E as <-. split; [|reflexivity].
    apply agree_wr; [exact H|]. extensionality j. apply f_equal. apply map_ext_in. intros p Hp.
    rewrite forallb_forall in F. unfold rd. rewrite (H _ (F p Hp)). reflexivity.
  - destruct (ok (resolve al s)) eqn:F; [|discriminate E]. injection E as <-. unfold rd. rewrite (H _ F).
    split; [|reflexivity]. now apply agree_wr.
  - destruct (ok (resolve al s)) eqn:F; [|discriminate E]. injection E as <-. unfold rd. rewrite (H _ F).
    split; [|reflexivity]. now apply agree_wr.
Qed.
Lemma exec_agree : forall p ok ok' m1 m2, agree ok m1 m2 -> defined ok p = Some ok' ->
  agree ok' (fst (exec sys al p m1)) (fst (exec sys al p m2)) /\ snd (exec sys al p m1) = snd (exec sys al p m2).
Proof.
  induction p as [|i p IH]; intros ok ok' m1 m2 H E; cbn [defined] in E.
  - injection E as <-. split; [exact H|reflexivity].
  - destruct (step_defined ok i) as [ok1|] eqn:E1; [|discriminate E].
    destruct (exec1_agree ok i ok1 m1 m2 H E1) as [A B]. cbn [exec].
    destruct (exec1 sys al i m1) as [a1 c1]. destruct (exec1 sys al i m2) as [a2 c2]. cbn [fst snd] in A, B. subst c2.
    destruct (IH ok1 ok' a1 a2 A E) as [C D].
    destruct (exec sys al p a1). destruct (exec sys al p a2). cbn [fst snd] in *. subst. split; [exact C|reflexivity].
Qed.
End Mem.

Definition only_in (l : loc) : bool := match l with LIn => true | _ => false end.
Definition in_dx (l : loc) : bool := match l with LIn | LDx => true | _ => false end.

(** The named steppers read only [in] and [dxdt] from the caller. *)
Lemma named_defined (N : Num) al n (t dt : N) : exists ok', defined al in_dx (rk_impl n t dt) = Some ok' /\ ok' (resolve al LOut) = true.
Proof.
  destruct al as [a b]. destruct a, b, n; eexists; (split; [reflexivity|reflexivity]).
Qed.
Lemma named_memory (N : Num) I (f : vec N I -> N -> vec N I) al n t dt (m1 m2 : rkmem N I) :
  m1 LIn = m2 LIn -> m1 LDx = m2 LDx ->
  fst (exec f al (rk_impl n t dt) m1) (resolve al LOut) = fst (exec f al (rk_impl n t dt) m2) (resolve al LOut)
  /\ snd (exec f al (rk_impl n t dt) m1) = snd (exec f al (rk_impl n t dt) m2).
Proof.
  intros H1 H2. destruct (named_defined N al n t dt) as (ok' & E & O).
  destruct (exec_agree f al _ _ _ m1 m2 (fun l Hl => match l return in_dx l = true -> m1 l = m2 l with LIn => fun _ => H1 | LDx => fun _ => H2 | _ => fun q => False_ind _ (diff_false_true q) end Hl) E) as [A B].
  split; [exact (A _ O)|exact B].
Qed.

(** ** Linear invariants of programs whose derivative argument is given (kept from an earlier step). *)
Section Lin.
Variable eps : R.
Notation NN := (RNum eps).
Context {I : Type}.
Variable l : (I -> R) -> R.
Hypothesis Hl : linear_functional l.
Variable f : (I -> R) -> R -> (I -> R).
Hypothesis Hf : forall u s, l (f u s) = 0%R.
Variable al : alias.

Definition kind := loc -> option bool.   (* Some true: a state; Some false: a derivative *)
Definition kset (st : kind) d v : kind := fun b => if loc_eqb (resolve al d) b then v else st b.
Definition lin_next (st : kind) (i : instr NN) : kind :=
  match i with
  | ISum d ((c, a) :: ts) => kset st d (st (resolve al a))
  | ISum d [] => kset st d None
  | ISys d _ _ => kset st d (Some false)
  | ICopy d s => kset st d (st (resolve al s))
  end.
Definition lin_good (st : kind) (i : instr NN) : Prop :=
  match i with
  | ISum d ((c, a) :: ts) => (st (resolve al a) = Some true -> c = 1%R)
      /\ forallb (fun p => match st (resolve al (snd p)) with Some false => true | _ => false end) ts = true
  | _ => True
  end.
Fixpoint lin_prog (st : kind) (p : list (instr NN)) : Prop :=
  match p with [] => True | i :: p' => lin_good st i /\ lin_prog (lin_next st i) p' end.
Fixpoint lin_last (st : kind) (p : list (instr NN)) : kind :=
  match p with [] => st | i :: p' => lin_last (lin_next st i) p' end.
Definition lin_mem (L : R) (st : kind) (m : rkmem NN I) : Prop :=
  forall b, match st b with Some true => l (m b) = L | Some false => l (m b) = 0%R | None => True end.

Lemma lin_fold (m : rkmem NN I) (st : kind) L : lin_mem L st m -> forall ts (u : I -> R),
  forallb (fun p : R * loc => match st (resolve al (snd p)) with Some false => true | _ => false end) ts = true ->
  l (fun j => fold_left (fun (s : R) p => s + fst p * snd p) (map (fun p => (fst p, rd (N := NN) al m (snd p) j)) ts) (u j))%R = l u.
Proof.
  intro H. induction ts as [|[c a] ts IH]; intros u F; cbn [map fold_left fst snd].
  - reflexivity.
  - cbn [forallb snd] in F. apply andb_prop in F. destruct F as [F1 F2].
    rewrite (IH (fun j => u j + c * rd (N := NN) al m a j)%R F2).
    specialize (H (resolve al a)). destruct (st (resolve al a)) as [[|]|]; try discriminate F1.
    transitivity (1 * l u + c * l (m (resolve al a)))%R; [|rewrite H; ring].
    rewrite <- (Hl 1%R c u (m (resolve al a))). apply f_equal. extensionality j. unfold rd. now rewrite Rmult_1_l.
Qed.

Lemma lin_exec1 i st L m : lin_mem L st m -> lin_good st i -> lin_mem L (lin_next st i) (fst (exec1 (N := NN) f al i m)).
Proof.
  intros H G b. destruct i as [d [|[c a] ts]|d s t|d s]; cbn [lin_next exec1 fst]; unfold kset, wr, upd;
    (destruct (loc_eqb (resolve al d) b) eqn:E; [|exact (H b)]).
  - exact Logic.I.
  - destruct G as [G1 G2]. cbn [map scale_sum fst snd].
    assert (Q : l (fun j => fold_left (fun (s : R) p => s + fst p * snd p) (map (fun p : R * loc => (fst p, rd (N := NN) al m (snd p) j)) ts) (c * rd (N := NN) al m a j))%R
       = (c * l (m (resolve al a)))%R).
    { rewrite (lin_fold m st L H ts (fun j => c * rd (N := NN) al m a j)%R G2).
      transitivity (c * l (m (resolve al a)) + 0 * l (m (resolve al a)))%R; [|ring].
      rewrite <- (Hl c 0%R (m (resolve al a)) (m (resolve al a))). apply f_equal. extensionality j. unfold rd. ring. }
    specialize (H (resolve al a)). destruct (st (resolve al a)) as [[|]|].
    + refine (eq_trans Q _). rewrite (G1 eq_refl), H. ring.
    + refine (eq_trans Q _). rewrite H. ring.
    + exact Logic.I.
  - apply Hf.
  - exact (H (resolve al s)).
Qed.
Lemma lin_exec : forall p st L m, lin_mem L st m -> lin_prog st p -> lin_mem L (lin_last st p) (fst (exec (N := NN) f al p m)).
Proof.
  induction p as [|i p IH]; intros st L m H G; [exact H|]. destruct G as [G1 G2].
  cbn [exec lin_last]. pose proof (lin_exec1 i st L m H G1) as H1. destruct (exec1 (N := NN) f al i m) as [m1 c1]. cbn [fst] in H1.
  specialize (IH _ _ _ H1 G2). destruct (exec (N := NN) f al p m1). exact IH.
Qed.
End Lin.

Definition kind0 : kind := fun b => match b with LIn => Some true | LDx => Some false | _ => None end.

Lemma dopri5_linear eps I (l : (I -> R) -> R) f al t dt (m : rkmem (RNum eps) I) :
  linear_functional l -> (forall u s, l (f u s) = 0%R) -> l (m LDx) = 0%R ->
  let m' := fst (exec (N := RNum eps) f al (dopri5_prog (N := RNum eps) t dt) m) in
  l (m' (resolve al LOut)) = l (m LIn) /\ l (m' (resolve al LDxOut)) = 0%R.
Proof.
  intros Hl Hf Hd m'.
  assert (H0 : lin_mem eps l (l (m LIn)) kind0 m).
  { intros [| | | | | | |i]; cbn; auto. }
  assert (P : lin_prog eps al kind0 (dopri5_prog (N := RNum eps) t dt)).
  { destruct al as [[] []]; repeat split; intro Q; reflexivity || discriminate Q. }
  pose proof (lin_exec eps l Hl f Hf al _ _ _ _ H0 P) as E. fold m' in E. unfold lin_mem in E.
  pose proof (E (resolve al LOut)) as E1. pose proof (E (resolve al LDxOut)) as E2. clear E.
  destruct al as [[] []]; cbn in E1, E2; split; assumption.
Qed.

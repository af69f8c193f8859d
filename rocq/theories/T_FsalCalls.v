(** C129: all overloads of runge_kutta_dopri5::do_step in any order, with reset, initialize and adjust_size between them. *)
From Coq Require Import ZArith List Bool Arith QArith Lia.
From Verif Require Import M_Num M_Run M_RK M_CtrlRK M_Resize M_FsalSized P_RK P_Det P_CtrlRK X_Inst.
Import ListNotations.
Local Open Scope nat_scope.
Local Open Scope num_scope.

Section Spec.
Context {N : Num} {I : Type}.
Notation call := (fcall N I).
(** A stepper that has not stepped. *)
Definition new_stepper (m : rkmem N I) (d : vec N I) : sfsal N I (rkmem N I) := mkSfsal (mkFsal m d true) (fun _ => 0%nat) false.
(** What the do_steps of [l] give, each on a stepper of its own; the other calls give nothing. *)
Definition alone (m : rkmem N I) (d : vec N I) (c : call) : fres N I :=
  match c with
  | CStep _ _ _ _ _ _ _ | CStepD _ _ _ _ _ _ _ => snd (fcall_run dopri5_impl always_resizer (new_stepper m d) c)
  | _ => FVoid
  end.

(** Where the next do_step without derivative may start: anywhere; only where the derivative is [v]; nowhere. *)
Inductive where_next := Anywhere | Only (v : vec N I) | Nowhere.
(** [n <> size]: states of another size than m_dxdt had are recognized and may be anywhere. *)
Fixpoint allowed (m : rkmem N I) (d : vec N I) (size : nat) (k : where_next) (l : list call) : Prop :=
  match l with
  | [] => True
  | CStep we sys alx n x t dt :: l' =>
      (n <> size \/ match k with Anywhere => True | Only v => sys x t = v | Nowhere => False end)
      /\ allowed m d n match alone m d (CStep we sys alx n x t dt) with FOut out _ _ => Only (sys out (t + dt)) | _ => Nowhere end l'
  | CStepD _ _ _ _ _ _ _ :: l' => allowed m d size Anywhere l'
  | CReset :: l' => allowed m d size Anywhere l'
  | CAdjust n :: l' => allowed m d n match k with Anywhere => Anywhere | _ => if n =? size then k else Nowhere end l'
  | CInit sys n x t :: l' => n <= size /\ allowed m d size (Only (sys x t)) l'
  | CInitD n v :: l' => n <= size /\ allowed m d size (Only v) l'
  end.
End Spec.
Arguments where_next N I : clear implicits.

Section P.
Context {N : Num} {I : Type}.

Lemma impl_det we sys al (m m0 : rkmem N I) x dx t dt :
  snd (fst (fst (dopri5_impl we sys al m x dx t dt))) = snd (fst (fst (dopri5_impl we sys al m0 x dx t dt)))
  /\ snd (fst (dopri5_impl we sys al m x dx t dt)) = snd (fst (dopri5_impl we sys al m0 x dx t dt))
  /\ (we = true -> snd (dopri5_impl we sys al m x dx t dt) = snd (dopri5_impl we sys al m0 x dx t dt)).
Proof.
  destruct we.
  - destruct (dopri5_fstep_det sys al m m0 x dx t dt) as (A & B & C). repeat split; auto.
  - destruct (dopri5_fstep_noerr_det sys al m m0 x dx t dt) as (A & B). repeat split; auto; discriminate.
Qed.
Lemma impl_last we sys al (m : rkmem N I) x dx t dt :
  snd (fst (dopri5_impl we sys al m x dx t dt)) = sys (snd (fst (fst (dopri5_impl we sys al m x dx t dt)))) (t + dt).
Proof. destruct we; [exact (dopri5_fstep_last sys al m x dx t dt)|exact (dopri5_fstep_noerr_last sys al m x dx t dt)]. Qed.

Lemma enter_dx sys (s : fsal N I (rkmem N I)) rs x t : rs = true \/ fs_first s = true \/ fs_dxdt s = sys x t ->
  fs_dxdt (fsal_enter sys s rs x t) = sys x t /\ fs_first (fsal_enter sys s rs x t) = false.
Proof.
  intros H. unfold fsal_enter. destruct rs; cbn [orb]; [split; reflexivity|].
  destruct (fs_first s) eqn:E; [split; reflexivity|]. split; [|exact E].
  destruct H as [H|[H|H]]; [discriminate|discriminate|exact H].
Qed.

Lemma step_alone we sys alx (s : fsal N I (rkmem N I)) rs x t dt m : rs = true \/ fs_first s = true \/ fs_dxdt s = sys x t ->
  forall o out xerr, fsal_do_step sys (dopri5_impl we sys) alx s rs x t dt = (o, out, xerr) ->
  out = snd (fst (fst (dopri5_impl we sys (mkAlias alx true) m x (sys x t) t dt)))
  /\ (we = true -> xerr = snd (dopri5_impl we sys (mkAlias alx true) m x (sys x t) t dt))
  /\ fs_first o = false /\ fs_dxdt o = sys out (t + dt).
Proof.
  intros H o out xerr E. destruct (enter_dx sys s rs x t H) as [A B]. unfold fsal_do_step in E. rewrite A in E.
  destruct (impl_det we sys (mkAlias alx true) (fs_st (fsal_enter sys s rs x t)) m x (sys x t) t dt) as (D1 & D2 & D3).
  pose proof (impl_last we sys (mkAlias alx true) (fs_st (fsal_enter sys s rs x t)) x (sys x t) t dt) as D4.
  destruct (dopri5_impl we sys (mkAlias alx true) (fs_st (fsal_enter sys s rs x t)) x (sys x t) t dt) as [[[st2 out2] dx2] e2].
  cbn [fst snd] in D1, D2, D3, D4. injection E as <- <- <-. cbn [fs_first fs_dxdt]. auto.
Qed.

Lemma adjust_dx n b (sz : sizes) : exists i, adjust always_resizer b [LDx] n sz = (negb (sz LDx =? n), i, set_size sz LDx n).
Proof. exists b. cbn. rewrite orb_false_r. reflexivity. Qed.

Definition stands (k : where_next N I) (s : fsal N I (rkmem N I)) : Prop :=
  match k with Anywhere => fs_first s = true | Only v => fs_first s = false /\ fs_dxdt s = v | Nowhere => True end.

Lemma calls_alone m d : forall l (s : sfsal N I (rkmem N I)) k, stands k (sf_obj s) ->
  allowed m d (sf_size s LDx) k l -> fcalls_run dopri5_impl always_resizer s l = map (alone m d) l.
Proof.
  induction l as [|c l IH]; intros s k Hk Ha; [reflexivity|].
  cbn [fcalls_run map]. destruct c as [we sys alx n x t dt|we sys al x dx t dt| |n|sys n x t|n v].
  - cbn [allowed] in Ha. destruct Ha as [H1 H2]. unfold fcall_run, sfsal_do_step.
    destruct (adjust_dx n (sf_ini s) (sf_size s)) as [i Ei]. rewrite Ei.
    destruct (fsal_do_step sys (dopri5_impl we sys) alx (sf_obj s) (negb (sf_size s LDx =? n)) x t dt) as [[o out] xerr] eqn:E.
    assert (H : negb (sf_size s LDx =? n) = true \/ fs_first (sf_obj s) = true \/ fs_dxdt (sf_obj s) = sys x t).
    { destruct H1 as [H1|H1]; [left; apply negb_true_iff, Nat.eqb_neq; congruence|right].
      destruct k as [|v|]; [left; exact Hk|right; destruct Hk; congruence|contradiction]. }
    destruct (step_alone we sys alx (sf_obj s) _ x t dt m H o out xerr E) as (A & B & C & D).
    assert (F : alone m d (CStep we sys alx n x t dt) = FOut out (if we then Some xerr else None) None).
    { unfold alone, fcall_run, sfsal_do_step, new_stepper. cbn [sf_ini sf_size sf_obj].
      destruct (adjust_dx n false (fun _ => 0%nat)) as [i' Ei']. rewrite Ei'.
      destruct (fsal_do_step sys (dopri5_impl we sys) alx (mkFsal m d true) (negb (0 =? n)) x t dt) as [[o' out'] xerr'] eqn:E'.
      destruct (step_alone we sys alx (mkFsal m d true) _ x t dt m (or_intror (or_introl eq_refl)) o' out' xerr' E') as (A' & B' & _).
      cbn [snd]. destruct we; [|congruence]. rewrite A, A', B, B' by reflexivity. reflexivity. }
    rewrite F in H2. rewrite F. f_equal. apply (IH _ (Only (sys out (t + dt)))); cbn [sf_obj sf_size]; [exact (conj C D)|].
    unfold set_size at 1. cbn [loc_eqb]. exact H2.
  - cbn [allowed] in Ha. unfold alone. unfold fcall_run at 1 2, fsal_do_step_dxdt. cbn [new_stepper sf_obj fs_st].
    destruct (impl_det we sys al (fs_st (sf_obj s)) m x dx t dt) as (D1 & D2 & D3).
    destruct (dopri5_impl we sys al (fs_st (sf_obj s)) x dx t dt) as [[[st2 out2] dx2] e2].
    destruct (dopri5_impl we sys al m x dx t dt) as [[[st3 out3] dx3] e3]. cbn [fst snd] in *. subst out3 dx3.
    assert (E : (if we then Some e2 else None) = (if we then Some e3 else None)) by (destruct we; [rewrite D3; reflexivity|reflexivity]).
    rewrite E. f_equal. apply (IH _ Anywhere); [reflexivity|exact Ha].
  - cbn [allowed] in Ha. cbn [fcall_run]. f_equal. apply (IH _ Anywhere); [reflexivity|exact Ha].
  - cbn [allowed] in Ha. cbn [fcall_run]. f_equal. eapply IH; [|cbn [sf_size resize_impl snd fold_left]; unfold set_size; cbn [loc_eqb]; exact Ha].
    cbn [sf_obj]. destruct k as [|v|]; [exact Hk| |destruct (n =? sf_size s LDx); exact Logic.I].
    destruct (n =? sf_size s LDx); [exact Hk|exact Logic.I].
  - cbn [allowed] in Ha. destruct Ha as [H1 H2]. cbn [fcall_run]. rewrite (proj2 (Nat.ltb_ge _ _) H1).
    cbn [alone]. f_equal. apply (IH _ (Only (sys x t))); [split; reflexivity|exact H2].
  - cbn [allowed] in Ha. destruct Ha as [H1 H2]. cbn [fcall_run]. rewrite (proj2 (Nat.ltb_ge _ _) H1).
    cbn [alone]. f_equal. apply (IH _ (Only v)); [split; reflexivity|exact H2].
Qed.
End P.

(** Any sequence of allowed calls, on any stepper whose cache is marked invalid: every do_step gives what it gives on a new stepper, and
    nothing is written behind the end of m_dxdt. *)
Theorem C129_calls : forall (N : Num) I (m : rkmem N I) d (s : sfsal N I (rkmem N I)) l,
  fs_first (sf_obj s) = true -> allowed m d (sf_size s LDx) Anywhere l ->
  fcalls_run dopri5_impl always_resizer s l = map (alone m d) l.
Proof. intros N I m d s l Hs Ha. exact (calls_alone m d l s Anywhere Hs Ha). Qed.
Print Assumptions C129_calls.

(** The example of the whole class: two steps of one component, a step in another place with the derivative given, a step of two components
    from anywhere, adjust_size to the same size, one more step. *)
Definition q_up (x : nat -> Q) (t : Q) : nat -> Q := fun _ => 1%Q.
Definition q_mem : rkmem Q0 nat := fun _ _ => 0%Q.
Definition q_new : sfsal Q0 nat (rkmem Q0 nat) := new_stepper (N := Q0) q_mem (fun _ => 0%Q).
Definition q_calls : list (fcall Q0 nat) :=
  [CStep (N := Q0) true q_up true 1 (fun _ => 0%Q) 0%Q 1%Q; CStep (N := Q0) false q_up false 1 (fun _ => 1%Q) 1%Q 1%Q;
   CStepD (N := Q0) true q_up (mkAlias true true) (fun _ => 7%Q) (fun _ => 1%Q) 0%Q 1%Q;
   CStep (N := Q0) true (fun x t _ => t) true 1 (fun _ => 5%Q) 2%Q 1%Q;
   CStep (N := Q0) false (fun x t i => inject_Z (Z.of_nat i)) true 2 (fun _ => 5%Q) 0%Q 1%Q; CAdjust 2; CInit (N := Q0) q_up 2 (fun _ => 0%Q) 0%Q;
   CStep (N := Q0) true q_up true 2 (fun _ => 3%Q) 0%Q 1%Q].
Definition q_shown (r : fres Q0 nat) : option (Q * Q) :=
  match r with FOut out _ _ => Some (Qred (out 0%nat), Qred (out 1%nat)) | _ => None end.
Example C129_example : allowed (N := Q0) q_mem (fun _ => 0%Q) 0 Anywhere q_calls
  /\ map q_shown (fcalls_run dopri5_impl always_resizer q_new q_calls)
     = [Some (1, 1); Some (2, 2); Some (8, 8); Some (15 # 2, 15 # 2); Some (5, 6); None; None; Some (4, 4)]%Q.
Proof.
  split; [|vm_compute; reflexivity].
  cbn [q_calls allowed]. repeat split; try (right; exact Logic.I); try (left; discriminate); try lia.
  all: try (right; cbn [alone fcall_run]; reflexivity).
Qed.

(** adjust_size( x ) with an x of another size in between is not noticed: the next do_step works with the derivative of before, whose
    components do not belong to the new state.  The statement that the sizes alone decide is false. *)
Theorem C129_adjust_refuted : exists (s : sfsal Q0 nat (rkmem Q0 nat)) (c1 c2 : fcall Q0 nat),
  fs_first (sf_obj s) = true
  /\ q_shown (nth 1 (fcalls_run dopri5_impl always_resizer s [c1; c2]) FUB) = q_shown (alone (N := Q0) q_mem (fun _ => 0%Q) c2)
  /\ q_shown (nth 2 (fcalls_run dopri5_impl always_resizer s [c1; CAdjust 2; c2]) FUB) <> q_shown (alone (N := Q0) q_mem (fun _ => 0%Q) c2).
Proof.
  exists q_new, (CStep (N := Q0) true q_up true 1 (fun _ => 0%Q) 0%Q 1%Q), (CStep (N := Q0) true (fun x t _ => 3%Q) true 2 (fun _ => 0%Q) 0%Q 1%Q).
  split; [reflexivity|]. split; [vm_compute; reflexivity|]. vm_compute. discriminate.
Qed.
Print Assumptions C129_adjust_refuted.

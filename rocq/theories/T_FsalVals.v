(** C129: what the do_steps of runge_kutta_dopri5 hand back on a new stepper, and so in any allowed sequence of calls. *)
From Coq Require Import ZArith List Bool Arith Reals Lra.
From Verif Require Import M_Num M_Run M_RK M_CtrlRK M_Resize M_FsalSized S_RK P_RK P_RKR P_RKAll P_Det P_CtrlRK P_CtrlRKN T_FsalCalls.
Import ListNotations.
Local Open Scope R_scope.

(** What a do_step call of [c] has to hand back: a step of the method from x, its error estimate when asked for, and the derivative at the new
    point when the caller passed one; nothing for other calls. *)
Definition right_result (eps : R) {I} (c : fcall (RNum eps) I) (r : fres (RNum eps) I) : Prop :=
  match c with
  | CStep we sys _ _ x t dt => exists out e, r = FOut out e None
      /\ rk_result eps (tab_of rk_dopri5) sys x t dt out
      /\ (if we then exists v, e = Some v /\ rk_error eps (tab_of rk_dopri5) sys x t dt v else e = None)
  | CStepD we sys _ x dx t dt => dx = sys x t -> exists out e, r = FOut out e (Some (sys out (t + dt)))
      /\ rk_result eps (tab_of rk_dopri5) sys x t dt out
      /\ (if we then exists v, e = Some v /\ rk_error eps (tab_of rk_dopri5) sys x t dt v else e = None)
  | _ => r = FVoid
  end.

Lemma impl_R (eps : R) I we sys al (m : rkmem (RNum eps) I) x t dt st out dxo e :
  dopri5_impl (N := RNum eps) we sys al m x (sys x t) t dt = (st, out, dxo, e) ->
  rk_result eps (tab_of rk_dopri5) sys x t dt out /\ (we = true -> rk_error eps (tab_of rk_dopri5) sys x t dt e) /\ dxo = sys out (nadd (n := RNum eps) t dt).
Proof.
  intro E. pose proof (impl_last (N := RNum eps) we sys al m x (sys x t) t dt) as Ld. rewrite E in Ld. cbn [fst snd] in Ld.
  destruct we; cbn [dopri5_impl] in E.
  - destruct (dopri5_fstep_R eps sys al m x t dt st out dxo e E) as [A B]. auto.
  - split; [|split; [discriminate|exact Ld]]. unfold dopri5_fstep_noerr in E.
    set (m1 := upd (N := RNum eps) (upd (N := RNum eps) m LIn x) LDx (sys x t)) in *.
    pose proof (dopri5_noerr eps sys al t dt m1 eq_refl) as A. change (m1 LIn) with x in A.
    set (m2 := fst (exec (N := RNum eps) sys al (dopri5_prog (N := RNum eps) t dt) m1)) in *. clearbody m2.
    injection E; intros. subst out. exact A.
Qed.

Lemma alone_right (eps : R) I (m : rkmem (RNum eps) I) d c : right_result eps c (alone m d c).
Proof.
  destruct c as [we sys alx n x t dt|we sys al x dx t dt| |n|sys n x t|n v]; try reflexivity.
  - cbn [right_result]. unfold alone, fcall_run, sfsal_do_step, new_stepper. cbn [sf_ini sf_size sf_obj].
    destruct (adjust_dx n false (fun _ => 0%nat)) as [i' Ei']. rewrite Ei'.
    destruct (fsal_do_step sys (dopri5_impl we sys) alx (mkFsal m d true) (negb (0 =? n)%nat) x t dt) as [[o out] xerr] eqn:E.
    destruct (step_alone we sys alx (mkFsal m d true) _ x t dt m (or_intror (or_introl eq_refl)) o out xerr E) as (A & B & _).
    destruct (dopri5_impl (N := RNum eps) we sys (mkAlias alx true) m x (sys x t) t dt) as [[[st o1] dxo] e1] eqn:Ei.
    destruct (impl_R eps I we sys _ m x t dt st o1 dxo e1 Ei) as (R1 & R2 & _). cbn [fst snd] in A, B. subst o1.
    cbn [snd]. exists out, (if we then Some xerr else None). split; [reflexivity|]. split; [exact R1|].
    destruct we; [|reflexivity]. exists xerr. split; [reflexivity|]. rewrite (B eq_refl). exact (R2 eq_refl).
  - intros ->. unfold alone, fcall_run, fsal_do_step_dxdt, new_stepper. cbn [sf_ini sf_size sf_obj fs_st].
    destruct (dopri5_impl (N := RNum eps) we sys al m x (sys x t) t dt) as [[[st o1] dxo] e1] eqn:Ei.
    destruct (impl_R eps I we sys _ m x t dt st o1 dxo e1 Ei) as (R1 & R2 & R3). cbn [snd]. subst dxo.
    exists o1, (if we then Some e1 else None). split; [reflexivity|]. split; [exact R1|].
    destruct we; [|reflexivity]. exists e1. split; [reflexivity|]. exact (R2 eq_refl).
Qed.

Theorem C129_values : forall (eps : R) I (m : rkmem (RNum eps) I) d (s : sfsal (RNum eps) I (rkmem (RNum eps) I)) l,
  fs_first (sf_obj s) = true -> allowed m d (sf_size s LDx) Anywhere l ->
  Forall2 (right_result eps) l (fcalls_run dopri5_impl always_resizer s l).
Proof.
  intros eps I m d s l Hs Ha. rewrite (C129_calls (RNum eps) I m d s l Hs Ha). clear.
  induction l as [|c l IH]; cbn [map]; constructor; [apply alone_right|exact IH].
Qed.
Print Assumptions C129_values.

(** Two steps of x' = 1 with a step that is given the derivative between them. *)
Example C129_values_example : let up : (unit -> R) -> R -> unit -> R := fun _ _ _ => 1 in
  let l : list (fcall (RNum 0) unit) := [CStep (N := RNum 0) true up true 1 (fun _ => 0) 0%R 1%R; CStepD (N := RNum 0) false up (mkAlias true true) (fun _ => 7) (fun _ => 1) 0%R 1%R;
    CStep (N := RNum 0) true up true 1 (fun _ => 5) 2%R 1%R] in
  allowed (N := RNum 0) (fun _ _ => 0) (fun _ => 0) 0 Anywhere l
  /\ exists out, nth 1 (fcalls_run dopri5_impl always_resizer (new_stepper (N := RNum 0) (fun _ _ => 0) (fun _ => 0)) l) FUB = FOut (N := RNum 0) (I := unit) out None (Some (fun _ => 1)).
Proof.
  intros up l. assert (A : allowed (N := RNum 0) (fun _ _ => 0) (fun _ => 0) 0 Anywhere l).
  { cbn [allowed l]. repeat split; try (right; exact Logic.I); left; discriminate. }
  split; [exact A|].
  pose proof (C129_values 0 unit _ _ (new_stepper (N := RNum 0) (fun _ _ => 0) (fun _ => 0)) l eq_refl A) as F. unfold l in F at 1.
  set (rs := fcalls_run dopri5_impl always_resizer (new_stepper (N := RNum 0) (fun _ _ => 0) (fun _ => 0)) l) in *. clearbody rs.
  inversion F as [|a1 b1 c1 d1 F1 F2]; subst. inversion F2 as [|a2 b2 c2 d2 F3 F4]; subst. cbn [nth].
  destruct (F3 eq_refl) as (out & e & E & _ & Ee). cbv iota in Ee. subst e. exists out. exact E.
Qed.

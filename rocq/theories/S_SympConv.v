(** Separable systems q' = f(p), p' = g(q) as one system in phase space. *)
From Coq Require Import List Reals.
From Verif Require Import M_Num M_Sign M_Run M_Plain M_RK M_Symp S_Real S_RK S_BSeries S_Conv S_Symp S_Integrate S_Grid.
Import ListNotations.
Local Open Scope R_scope.

Section S.
Context {I : Type}.
(** The point (q,p) of phase space: [inl i] is the i-th coordinate, [inr i] the i-th momentum. *)
Definition phase (z : (I -> R) * (I -> R)) : I + I -> R :=
  fun j => match j with inl i => fst z i | inr i => snd z i end.
(** The right-hand side (f(p), g(q)). *)
Definition separable (f g : (I -> R) -> (I -> R)) (v : I + I -> R) : I + I -> R :=
  fun j => match j with inl i => f (fun i => v (inr i)) i | inr i => g (fun i => v (inl i)) i end.
(** [y] is a solution at the times in [T]. *)
Definition solves (T : R -> Prop) (f g : (I -> R) -> (I -> R)) (y : R -> (I -> R) * (I -> R)) : Prop :=
  forall t i, T t -> derivable_pt_lim (fun s => fst (y s) i) t (f (snd (y t)) i)
                  /\ derivable_pt_lim (fun s => snd (y s) i) t (g (fst (y t)) i).
(** Lipschitz in the maximum norm. *)
Definition lip (L : R) (f : (I -> R) -> (I -> R)) : Prop :=
  forall u v D, (forall j, Rabs (u j - v j) <= D) -> forall i, Rabs (f u i - f v i) <= L * D.
(** Every coordinate and every momentum of [z] is within [D] of that of [w]. *)
Definition within (D : R) (z w : (I -> R) * (I -> R)) : Prop :=
  forall i, Rabs (fst z i - fst w i) <= D /\ Rabs (snd z i - snd w i) <= D.
End S.

(** ** Convergence of a stepper for separable systems. *)

(** What the coordinates and the momenta are changed by: q' = f(p), p' = g(q).  For a system given by the force
    alone f is the identity. *)
Definition drift_of {N I} (sys : sysys N I) : vec N I -> vec N I := match sys with SPair cf _ => cf | SMom _ => fun p => p end.
Definition kick_of {N I} (sys : sysys N I) : vec N I -> vec N I := match sys with SPair _ mf => mf | SMom mf => mf end.

(** The stepper as the integrate functions call it; [s n] is what its two buffers hold before the n-th step from now. *)
Definition symp_stp {eps I} (sys : sysys (RNum eps) I) (abs : list (R * R)) (s : nat -> (I -> R) * (I -> R)) (x : (I -> R) * (I -> R)) (t dt : R)
  : (nat -> (I -> R) * (I -> R)) * ((I -> R) * (I -> R)) :=
  (fun n => s (S n), fst (sy_do_step (N := RNum eps) sys abs (fst (s O)) (snd (s O)) x t dt)).

(** Order [p] up to the rate [excess]: along any solution of a system that is smooth with the constant [M] a step of
    width h misses by at most E |h|^(p+1) + |h| excess; when the system is Lipschitz with the constant [L] the
    observed points of a run from within [D] of the solution miss it by at most exp(G a) (D + (E |dt|^p + excess) a)
    after the time a.  [E] and [G] depend on [M], [L] and the bound [H] of the step widths alone. *)
Definition symp_converges (eps : R) (abs : list (R * R)) (p : nat) (excess : R -> R -> R) : Prop :=
  forall (I : Type) (M H L : R), 0 <= M -> 0 <= H -> 0 <= L ->
  exists G E, 0 <= G /\ 0 <= E /\
  forall (sys : sysys (RNum eps) I) (y : R -> (I -> R) * (I -> R)) DD (T : R -> Prop),
  let f : (I -> R) -> (I -> R) := drift_of sys in let g : (I -> R) -> (I -> R) := kick_of sys in
  (forall s u c, T s -> T u -> 0 <= c <= 1 -> T (s + c * (u - s))) ->
  taylor p M (fun v => exists t, T t /\ v = phase (y t)) (separable f g) DD -> solves T f g y ->
  (forall t h dq dp, T t -> T (t + h) -> Rabs h <= H ->
     within (E * Rabs h ^ S p + Rabs h * excess M (Rabs h)) (fst (sy_do_step (N := RNum eps) sys abs dq dp (y t) t h)) (y (t + h)))
  /\ (lip L f -> lip L g ->
      forall (W : Type) (t0 tend dt D : R) x s (w : W) fuel tr,
      0 <= eps -> dt <> 0 -> 0 <= dir dt * (tend - t0) -> Rabs dt <= H -> 0 <= D -> within D x (y t0) ->
      (forall t, span eps t0 tend (dir dt) t -> T t) ->
      (exists r, integrate_const (N := RNum eps) rec_obs (plain_step (symp_stp sys abs)) fuel s w x t0 tend dt = (tr, Ok r)) \/
      (exists r, integrate_adaptive_plain (N := RNum eps) rec_obs (plain_step (symp_stp sys abs)) fuel s w x t0 tend dt = (tr, Ok r)) \/
      (exists r n, integrate_n_steps (N := RNum eps) rec_obs (plain_step (symp_stp sys abs)) s w x t0 dt n = (tr, Ok r)
                /\ dir dt * (t0 + INR n * dt - tend) <= eps) ->
      forall x' t', In (x', t') (obs_of tr) ->
      within (exp (G * Rabs (t' - t0)) * (D + (E * Rabs dt ^ p + excess M (Rabs dt)) * Rabs (t' - t0))) x' (y t')).

(** Linear invariants and linear changes of variables of Runge-Kutta steps. *)
From Coq Require Import ZArith List Bool Lia Arith Reals Lra FunctionalExtensionality.
From Verif Require Import M_Num M_RK S_RK P_RK P_RKR.
Import ListNotations.
Local Open Scope R_scope.

Section Lin.
Context {I J : Type} (eps : R).
Notation NN := (RNum eps).

Lemma firstn_map' : forall A B (g : A -> B) n l, firstn n (map g l) = map g (firstn n l).
Proof. intros; apply firstn_map. Qed.

Lemma T_stage : forall (T : (I -> R) -> (J -> R)) (x : I -> R) dt row ks j,
  linear_map T ->
  T (fun i => x i + dt * wsum row ks i) j = T x j + dt * wsum row (map T ks) j.
Proof.
  intros T x dt row ks j HT. revert ks x.
  induction row as [|a row IH]; intros ks x.
  - unfold wsum; simpl. rewrite Rmult_0_r, Rplus_0_r. f_equal.
    f_equal. extensionality i. ring.
  - destruct ks as [|k ks].
    + unfold wsum; simpl. rewrite Rmult_0_r, Rplus_0_r. f_equal.
      f_equal. extensionality i. ring.
    + replace (fun i => x i + dt * wsum (a :: row) (k :: ks) i)
        with (fun i => (fun i => 1 * x i + (dt * a) * k i) i + dt * wsum row ks i)
        by (extensionality i; unfold wsum; simpl; ring).
      rewrite (IH ks (fun i => 1 * x i + (dt * a) * k i)).
      rewrite (HT 1 (dt * a) x k j). unfold wsum; simpl. ring.
Qed.

Theorem rk_linear_map : forall (tb : tableau NN) (T : (I -> R) -> (J -> R))
    (f : (I -> R) -> R -> (I -> R)) (g : (J -> R) -> R -> (J -> R)) x t dt y,
  linear_map T -> (forall u s, g (T u) s = T (f u s)) ->
  rk_result eps tb f x t dt y -> rk_result eps tb g (T x) t dt (T y).
Proof.
  intros tb T f g x t dt y HT Hfg (ks & [L Z S] & Hy).
  exists (map T ks). split; [constructor|].
  - now rewrite map_length.
  - destruct ks; simpl in *; [discriminate|]. inversion Z. now rewrite Hfg.
  - intros s row c Hr Hc. specialize (S s row c Hr Hc).
    rewrite nth_error_map. rewrite S. cbn [option_map]. f_equal.
    rewrite <- Hfg. f_equal. extensionality j. rewrite firstn_map. now apply T_stage.
  - intro j. replace y with (fun i => x i + dt * wsum (tab_b tb) ks i) by (extensionality i; auto).
    now apply T_stage.
Qed.
End Lin.

Section Inv.
Context {I : Type} (eps : R).
Notation NN := (RNum eps).

(** A linear functional is a linear map to one-dimensional states. *)
Lemma functional_map : forall l : (I -> R) -> R,
  linear_functional l -> linear_map (fun u (_ : unit) => l u).
Proof. intros l H a b u v j. apply H. Qed.

Lemma wsum_zero : forall row n (j : unit),
  wsum row (repeat (fun _ : unit => 0) n) j = 0.
Proof.
  unfold wsum. induction row as [|a row IH]; intros n j; simpl; auto.
  destruct n; simpl; auto. rewrite IH. ring.
Qed.

Lemma rk_zero_system : forall (tb : tableau NN) (x : unit -> R) t dt y,
  wf_tableau tb ->
  rk_result eps tb (fun _ _ _ => 0) x t dt y -> y tt = x tt.
Proof.
  intros tb x t dt y [Hc Hb Hr] (ks & [L Z S] & Hy).
  assert (Hk : ks = repeat (fun _ => 0) (length ks)).
  { apply Forall_eq_repeat. apply Forall_forall. intros k Hk.
    apply In_nth_error in Hk. destruct Hk as [n Hn]. destruct n as [|s].
    - rewrite Z in Hn. now inversion Hn.
    - assert (s < length (tab_a tb))%nat.
      { assert (Datatypes.S s < length ks)%nat by (apply nth_error_Some; congruence). lia. }
      destruct (nth_error (tab_a tb) s) as [row|] eqn:Er; [|apply nth_error_None in Er; lia].
      destruct (nth_error (tab_c tb) (Datatypes.S s)) as [c|] eqn:Ec;
        [|apply nth_error_None in Ec; lia].
      rewrite (S s row c Er Ec) in Hn. now inversion Hn. }
  rewrite Hy, Hk, wsum_zero. ring.
Qed.

Theorem rk_linear_invariant : forall (tb : tableau NN) (l : (I -> R) -> R) f x t dt y,
  wf_tableau tb -> linear_functional l -> (forall u s, l (f u s) = 0) ->
  rk_result eps tb f x t dt y -> l y = l x.
Proof.
  intros tb l f x t dt y Hwf Hl Hf Hy.
  pose proof (rk_linear_map eps tb (fun u (_ : unit) => l u) f (fun _ _ _ => 0) x t dt y
                (functional_map l Hl)) as H.
  assert (E : forall (u : I -> R) (s : R), (fun _ : unit => 0) = (fun _ : unit => l (f u s))).
  { intros u s. extensionality j. now rewrite Hf. }
  specialize (H E Hy).
  exact (rk_zero_system tb _ t dt _ Hwf H).
Qed.
End Inv.

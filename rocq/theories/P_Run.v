(** Lemmas about the run monad and trace projections. *)
From Coq Require Import List Arith.
From Verif Require Import M_Num M_Run S_Grid.
Import ListNotations.
Local Open Scope run_scope.

Lemma bind_assoc {V A B C} (m : M V A) (f : A -> M V B) (g : B -> M V C) :
  bind (bind m f) g = bind m (fun a => bind (f a) g).
Proof.
  destruct m as [tr [a|e| |]]; simpl; try reflexivity.
  destruct (f a) as [tr1 [b|e| |]]; simpl; try reflexivity.
  destruct (g b) as [tr2 r]. now rewrite app_assoc.
Qed.

Lemma bind_ret_l {V A B} (a : A) (f : A -> M V B) : bind (ret a) f = f a.
Proof. unfold ret; simpl. now destruct (f a). Qed.

Lemma bind_ret_r {V A} (m : M V A) : bind m ret = m.
Proof. destruct m as [tr [a|e| |]]; simpl; try reflexivity. now rewrite app_nil_r. Qed.

Lemma bind_ext {V A B} (m : M V A) (f g : A -> M V B) :
  (forall a, f a = g a) -> bind m f = bind m g.
Proof. intros H. destruct m as [tr [a|e| |]]; simpl; try reflexivity. now rewrite H. Qed.

Lemma bind_ok_inv {V A B} (m : M V A) (f : A -> M V B) tr b :
  bind m f = (tr, Ok b) ->
  exists tr1 a tr2, m = (tr1, Ok a) /\ f a = (tr2, Ok b) /\ tr = tr1 ++ tr2.
Proof.
  destruct m as [tr1 [a|e| |]]; simpl; intros H; try discriminate.
  destruct (f a) as [tr2 r] eqn:E. injection H as <- ->. exists tr1, a, tr2. auto.
Qed.

(** Keep binds folded under [simpl]; use the lemmas above. *)
Global Arguments bind {V A B} m f : simpl never.
Global Arguments ret {V A} a : simpl never.

Section Proj.
Context {X T : Type}.
Implicit Types a b : list (ev X T).
Lemma obs_of_app a b : obs_of (a ++ b) = obs_of a ++ obs_of b.
Proof. apply flat_map_app. Qed.
Lemma steps_of_app a b : steps_of (a ++ b) = steps_of a ++ steps_of b.
Proof. apply flat_map_app. Qed.
Lemma tries_of_app a b : tries_of (a ++ b) = tries_of a ++ tries_of b.
Proof. apply flat_map_app. Qed.
Lemma accepted_of_app a b : accepted_of (a ++ b) = accepted_of a ++ accepted_of b.
Proof. apply flat_map_app. Qed.
Lemma dos_of_app a b : dos_of (a ++ b) = dos_of a ++ dos_of b.
Proof. apply flat_map_app. Qed.
Lemma calcs_of_app a b : calcs_of (a ++ b) = calcs_of a ++ calcs_of b.
Proof. apply flat_map_app. Qed.
End Proj.

Section ExecLemmas.
Context {N : Num} {S W X : Type}.
Notation V := (ev X (carrier N)).
Variable obs     : W -> X -> N -> M V W.
Variable do_step : S -> W -> X -> N -> N -> M V (S * W * X).

Lemma exec_app cs1 : forall cs2 s w x,
  exec obs do_step (cs1 ++ cs2) s w x =
  let* (s1, w1, x1) := exec obs do_step cs1 s w x in exec obs do_step cs2 s1 w1 x1.
Proof.
  induction cs1 as [|[t|t dt] cs1 IH]; intros cs2 s w x; simpl.
  - now rewrite bind_ret_l.
  - rewrite bind_assoc. apply bind_ext. intros w1. apply IH.
  - rewrite bind_assoc. apply bind_ext. intros [[s1 w1] x1]. apply IH.
Qed.
End ExecLemmas.

Lemma first_false_unique p n m : first_false p n -> first_false p m -> n = m.
Proof.
  intros [Hn1 Hn2] [Hm1 Hm2].
  destruct (Nat.lt_trichotomy n m) as [H|[H|H]]; auto.
  - rewrite (Hm1 n H) in Hn2. discriminate.
  - rewrite (Hn1 m H) in Hm2. discriminate.
Qed.

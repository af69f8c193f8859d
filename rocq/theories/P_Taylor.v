(** Taylor's formula with remainder. *)
From Coq Require Import List Arith Reals Lia Lra FunctionalExtensionality.
From Verif Require Import M_Num S_RK S_Conv S_Taylor P_RKOrder P_ConvOrd P_BSeries.
Local Open Scope R_scope.

Section T.
Context {I : Type}.
Variable T : R -> Prop.
Hypothesis Tconv : forall s u c, T s -> T u -> 0 <= c <= 1 -> T (s + c * (u - s)).

Lemma sumn_deriv (c : nat -> R) t m u : derivable_pt_lim (fun s => sumn (S m) (fun k => (s - t) ^ k / INR (fact k) * c k)) u
  (sumn m (fun k => (u - t) ^ k / INR (fact k) * c (S k))).
Proof.
  induction m as [|m IH].
  - replace (fun s => sumn 1 (fun k => (s - t) ^ k / INR (fact k) * c k)) with (fct_cte (1 / INR (fact 0) * c O)).
    + unfold sumn at 1. cbn. apply derivable_pt_lim_const.
    + extensionality s. unfold fct_cte, sumn. cbn. ring.
  - rewrite sumn_S.
    replace (fun s => sumn (S (S m)) (fun k => (s - t) ^ k / INR (fact k) * c k))
      with (fun s => sumn (S m) (fun k => (s - t) ^ k / INR (fact k) * c k) + (c (S m) / INR (fact (S m))) * (s - t) ^ S m).
    + apply derivable_pt_lim_plus; [exact IH|].
      replace ((u - t) ^ m / INR (fact m) * c (S m)) with (c (S m) / INR (fact (S m)) * (INR (S m) * (u - t) ^ m * (1 - 0))).
      * apply (derivable_pt_lim_scal (fun s => (s - t) ^ S m)).
        apply (derivable_pt_lim_comp (fun s => s - t) (fun v => v ^ S m)).
        -- apply derivable_pt_lim_minus; [apply derivable_pt_lim_id|apply derivable_pt_lim_const].
        -- apply derivable_pt_lim_pow.
      * rewrite fact_simpl, mult_INR. field. split; [apply INR_fact_neq_0|apply not_0_INR; lia].
    + extensionality s. rewrite (sumn_S (S m)). field. apply INR_fact_neq_0.
Qed.

Lemma taylor_gen : forall m (F : nat -> R -> I -> R) M t d, 0 <= M -> derivatives T m F -> deriv_bound T m M F -> T t -> T (t + d) ->
  forall i, Rabs (F O (t + d) i - sumn m (fun k => d ^ k / INR (fact k) * F k t i)) <= M * Rabs d ^ m / INR (fact m).
Proof.
  induction m as [|m IH]; intros F M t d HM HD HB Ht Htd i.
  - unfold sumn. cbn. rewrite Rminus_0_r. specialize (HB (t + d) i Htd). lra.
  - set (g := fun s => F O s i - sumn (S m) (fun k => (s - t) ^ k / INR (fact k) * F k t i)).
    set (g' := fun s => F 1%nat s i - sumn m (fun k => (s - t) ^ k / INR (fact k) * F (S k) t i)).
    assert (Hq : forall q, 0 <= q <= 1 -> T (t + q * d)).
    { intros q Hq. replace (t + q * d) with (t + q * ((t + d) - t)) by ring. now apply Tconv. }
    assert (PF : 0 < INR (fact m)) by apply INR_fact_lt_0.
    assert (B : Rabs (g (t + d)) <= (M / INR (fact m)) * Rabs d ^ S m / INR (S m)).
    { apply (power_bound g g' t d (M / INR (fact m)) m).
      - apply Rmult_le_pos; [exact HM|]. left. now apply Rinv_0_lt_compat.
      - unfold g. replace (t - t) with 0 by ring. clear. induction m as [|m IH].
        + unfold sumn. cbn. field.
        + rewrite sumn_S, pow_i by lia. unfold Rdiv in *. rewrite !Rmult_0_l, Rplus_0_r. exact IH.
      - intros q Hq1. unfold g, g'. apply derivable_pt_lim_minus; [apply HD; [lia|now apply Hq]|].
        apply (sumn_deriv (fun k => F k t i)).
      - intros q Hq1. unfold g'. replace (t + q * d - t) with (q * d) by ring.
        eapply Rle_trans; [apply (IH (fun k => F (S k)) M t (q * d) HM)|].
        + intros k s j Hk Hs. apply HD; [lia|exact Hs].
        + exact HB.
        + exact Ht.
        + now apply Hq.
        + right. field. lra. }
    unfold g in B. replace (t + d - t) with d in B by ring. eapply Rle_trans; [exact B|]. right.
    rewrite fact_simpl, mult_INR. field. split; [lra|apply not_0_INR; lia].
Qed.
End T.

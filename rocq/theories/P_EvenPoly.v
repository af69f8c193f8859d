(** Polynomials in x and h that are even in h: central differences, means and sums. *)
From Coq Require Import List Arith Reals Lia Lra.
From Verif Require Import S_RK S_Midpoint P_RKOrder P_Neville P_Butcher.
Import ListNotations.
Local Open Scope R_scope.

(** Total degree at most [n], even in the second argument. *)
Inductive ep (n : nat) : (R -> R -> R) -> Prop :=
| ep_zero : ep n (fun _ _ => 0)
| ep_mono c i l : (i + 2 * l <= n)%nat -> ep n (fun x h => c * x ^ i * h ^ (2 * l))
| ep_add F G : ep n F -> ep n G -> ep n (fun x h => F x h + G x h)
| ep_ext F G : ep n F -> (forall x h, G x h = F x h) -> ep n G.

Lemma ep_le n m F : (n <= m)%nat -> ep n F -> ep m F.
Proof.
  intros H E. induction E as [|c i l Hi|F G _ IF _ IG|F G _ IF He]; [apply ep_zero|apply ep_mono; lia|now apply ep_add|exact (ep_ext m F G IF He)].
Qed.
Lemma ep_scale n F a : ep n F -> ep n (fun x h => a * F x h).
Proof.
  intro E. induction E as [|c i l Hi|F G _ IF _ IG|F G _ IF He].
  - refine (ep_ext n _ _ (ep_zero n) _). intros; ring.
  - refine (ep_ext n _ _ (ep_mono n (a * c) i l Hi) _). intros; ring.
  - refine (ep_ext n _ _ (ep_add n _ _ IF IG) _). intros; ring.
  - refine (ep_ext n _ _ IF _). intros. rewrite He. reflexivity.
Qed.
Lemma ep_shift n F i l m : (n + i + 2 * l <= m)%nat -> ep n F -> ep m (fun x h => x ^ i * h ^ (2 * l) * F x h).
Proof.
  intros Hm E. induction E as [|c i' l' Hi|F G _ IF _ IG|F G _ IF He].
  - refine (ep_ext m _ _ (ep_zero m) _). intros; ring.
  - refine (ep_ext m _ _ (ep_mono m c (i + i') (l + l') ltac:(lia)) _). intros x h.
    replace (2 * (l + l'))%nat with (2 * l + 2 * l')%nat by lia. rewrite !pow_add. ring.
  - refine (ep_ext m _ _ (ep_add m _ _ IF IG) _). intros; ring.
  - refine (ep_ext m _ _ IF _). intros. rewrite He. reflexivity.
Qed.

(** At a fixed x it is a polynomial in h^2. *)
Lemma ep_eval n F x : ep n F -> exists p, (length p <= S (n / 2))%nat /\ forall h, F x h = peval p (Rsqr h).
Proof.
  intro E. induction E as [|c i l Hi|F G _ IF _ IG|F G _ IF He].
  - exists []. split; [cbn; lia|]. reflexivity.
  - exists (repeat 0 l ++ [c * x ^ i]). split.
    + rewrite app_length, repeat_length. cbn [length]. assert (l <= n / 2)%nat by (apply Nat.div_le_lower_bound; lia). lia.
    + intro h. clear. rewrite pow_mult. replace (h ^ 2) with (Rsqr h) by (unfold Rsqr; ring). set (a := c * x ^ i).
      induction l as [|l IH]; cbn [repeat app peval pow]; [ring|]. rewrite <- IH. ring.
  - destruct IF as (p & Lp & Ep), IG as (q & Lq & Eq). exists (padd p q). split; [rewrite padd_len; lia|].
    intro h. rewrite padd_eval, Ep, Eq. reflexivity.
  - destruct IF as (p & Lp & Ep). exists p. split; [exact Lp|]. intro h. rewrite He. apply Ep.
Qed.

(** The mean and the central difference of x^i; the parts with the factor h^2. *)
Fixpoint cmean (i : nat) (x h : R) : R := match i with O => 1 | S j => x * cmean j x h + Rsqr h * cdiv j x h end
with cdiv (i : nat) (x h : R) : R := match i with O => 0 | S j => x * cdiv j x h + cmean j x h end.

Lemma cm_spec i x h : (x + h) ^ i + (x - h) ^ i = 2 * cmean i x h /\ (x + h) ^ i - (x - h) ^ i = 2 * h * cdiv i x h.
Proof.
  induction i as [|i [IA ID]]; cbn [pow cmean cdiv]; [split; ring|].
  assert (P : (x + h) ^ i = cmean i x h + h * cdiv i x h) by lra.
  assert (M : (x - h) ^ i = cmean i x h - h * cdiv i x h) by lra.
  rewrite P, M. unfold Rsqr. split; ring.
Qed.

(** x^i + h^2 B_i and i x^(i-1) + h^2 C_i. *)
Fixpoint bpart (i : nat) (x h : R) : R := match i with O => 0 | S j => x * bpart j x h + (INR j * x ^ (j - 1) + Rsqr h * cpart j x h) end
with cpart (i : nat) (x h : R) : R := match i with O => 0 | S j => x * cpart j x h + bpart j x h end.

Lemma parts i x h : cmean i x h = x ^ i + Rsqr h * bpart i x h /\ cdiv i x h = INR i * x ^ (i - 1) + Rsqr h * cpart i x h.
Proof.
  induction i as [|i [IA ID]]; [cbn; split; ring|].
  cbn [cmean cdiv bpart cpart pow]. rewrite IA, ID. replace (S i - 1)%nat with i by lia. rewrite S_INR. split; [ring|].
  destruct i as [|i]; [cbn; ring|]. replace (S i - 1)%nat with i by lia. cbn [pow]. ring.
Qed.

Lemma bpart_small i x h : (i < 2)%nat -> bpart i x h = 0.
Proof. intro H. destruct i as [|[|i]]; [reflexivity| |lia]. cbn. ring. Qed.
Lemma cpart_small i x h : (i < 3)%nat -> cpart i x h = 0.
Proof. intro H. destruct i as [|[|[|i]]]; [reflexivity|cbn; ring|cbn; ring|lia]. Qed.

Lemma parts_ep i : (2 <= i -> ep (i - 2) (bpart i))%nat /\ (3 <= i -> ep (i - 3) (cpart i))%nat.
Proof.
  induction i as [|i [IB IC]]; [split; intro; lia|]. split; intro H.
  - assert (E1 : ep (S i - 2) (fun x h => x * bpart i x h)).
    { destruct (Nat.eq_dec i 1) as [->|Hi].
      - refine (ep_ext _ _ _ (ep_zero _) _). intros x h. cbn. ring.
      - refine (ep_ext _ _ _ (ep_shift (i - 2) (bpart i) 1 0 (S i - 2) ltac:(lia) (IB ltac:(lia))) _). intros x h. cbn. ring. }
    assert (E2 : ep (S i - 2) (fun x h => Rsqr h * cpart i x h)).
    { destruct (le_lt_dec 3 i) as [Hi|Hi].
      - refine (ep_ext _ _ _ (ep_shift (i - 3) (cpart i) 0 1 (S i - 2) ltac:(lia) (IC ltac:(lia))) _). intros x h. unfold Rsqr. cbn. ring.
      - refine (ep_ext _ _ _ (ep_zero _) _). intros x h. rewrite (cpart_small i) by lia. ring. }
    refine (ep_ext _ _ _ (ep_add _ _ _ E1 (ep_add _ _ _ (ep_mono (S i - 2) (INR i) (i - 1) 0 ltac:(lia)) E2)) _).
    intros x h. cbn [bpart]. replace (h ^ (2 * 0)) with 1 by (cbn; ring). ring.
  - assert (E1 : ep (S i - 3) (fun x h => x * cpart i x h)).
    { destruct (le_lt_dec 3 i) as [Hi|Hi].
      - refine (ep_ext _ _ _ (ep_shift (i - 3) (cpart i) 1 0 (S i - 3) ltac:(lia) (IC ltac:(lia))) _). intros x h. cbn. ring.
      - refine (ep_ext _ _ _ (ep_zero _) _). intros x h. rewrite (cpart_small i) by lia. ring. }
    refine (ep_ext _ _ _ (ep_add _ _ _ E1 (ep_le (i - 2) (S i - 3) _ ltac:(lia) (IB ltac:(lia)))) _). intros x h. reflexivity.
Qed.

Lemma cmean_ep i : ep i (cmean i).
Proof.
  destruct (le_lt_dec 2 i) as [H|H].
  - refine (ep_ext _ _ _ (ep_add _ _ _ (ep_mono i 1 i 0 ltac:(lia)) (ep_shift (i - 2) (bpart i) 0 1 i ltac:(lia) (proj1 (parts_ep i) H))) _).
    intros x h. rewrite (proj1 (parts i x h)). unfold Rsqr. cbn [Nat.mul Nat.add pow]. ring.
  - refine (ep_ext _ _ _ (ep_mono i 1 i 0 ltac:(lia)) _). intros x h. rewrite (proj1 (parts i x h)), bpart_small by lia. cbn [Nat.mul Nat.add pow]. ring.
Qed.
Lemma cdiv_ep i : ep (i - 1) (cdiv i).
Proof.
  destruct (le_lt_dec 3 i) as [H|H].
  - refine (ep_ext _ _ _ (ep_add _ _ _ (ep_mono (i - 1) (INR i) (i - 1) 0 ltac:(lia)) (ep_shift (i - 3) (cpart i) 0 1 (i - 1) ltac:(lia) (proj2 (parts_ep i) H))) _).
    intros x h. rewrite (proj2 (parts i x h)). unfold Rsqr. cbn [Nat.mul Nat.add pow]. ring.
  - refine (ep_ext _ _ _ (ep_mono (i - 1) (INR i) (i - 1) 0 ltac:(lia)) _). intros x h. rewrite (proj2 (parts i x h)), cpart_small by lia. cbn [Nat.mul Nat.add pow]. ring.
Qed.

Lemma ep_weaken n F G : ep n F -> (forall x h, G x h = F x h) -> ep n G. Proof. exact (ep_ext n F G). Qed.

(** [G] is the central difference quotient of [F], for h = 0 the derivative. *)
Definition cdiff (F G : R -> R -> R) : Prop :=
  (forall x h, F (x + h) h - F (x - h) h = 2 * h * G x h) /\ forall x, derivable_pt_lim (fun z => F z 0) x (G x 0).
Definition cavg (F G : R -> R -> R) : Prop :=
  (forall x h, F (x + h) h + F (x - h) h = 2 * G x h) /\ forall x, G x 0 = F x 0.

Lemma mono_deriv i x : derivable_pt_lim (fun z => z ^ i) x (cdiv i x 0).
Proof.
  pose proof (derivable_pt_lim_pow x i) as D. replace (cdiv i x 0) with (INR i * x ^ pred i); [exact D|].
  rewrite (proj2 (parts i x 0)). replace (i - 1)%nat with (pred i) by lia. unfold Rsqr. ring.
Qed.
Lemma lim_ext (f g : R -> R) x l : (forall z, f z = g z) -> derivable_pt_lim f x l -> derivable_pt_lim g x l.
Proof. intros E H e He. destruct (H e He) as [d Hd]. exists d. intros h H1 H2. rewrite <- !E. exact (Hd h H1 H2). Qed.

Lemma cdiff_mono c i l : cdiff (fun x h => c * x ^ i * h ^ (2 * l)) (fun x h => c * h ^ (2 * l) * cdiv i x h).
Proof.
  split.
  - intros x h. destruct (cm_spec i x h) as [_ D].
    replace (c * (x + h) ^ i * h ^ (2 * l) - c * (x - h) ^ i * h ^ (2 * l)) with (c * h ^ (2 * l) * ((x + h) ^ i - (x - h) ^ i)) by ring. rewrite D. ring.
  - intro x. apply (lim_ext (fun z => (c * 0 ^ (2 * l)) * z ^ i)); [intro; ring|]. apply derivable_pt_lim_scal, mono_deriv.
Qed.
Lemma cdiff_add F F' G G' : cdiff F F' -> cdiff G G' -> cdiff (fun x h => F x h + G x h) (fun x h => F' x h + G' x h).
Proof.
  intros [F1 F2] [G1 G2]. split.
  - intros x h. specialize (F1 x h). specialize (G1 x h). lra.
  - intro x. apply (derivable_pt_lim_plus (fun z => F z 0) (fun z => G z 0) x _ _ (F2 x) (G2 x)).
Qed.
Lemma cdiff_ext F G F' G' : cdiff F F' -> (forall x h, G x h = F x h) -> (forall x h, G' x h = F' x h) -> cdiff G G'.
Proof.
  intros [F1 F2] E E'. split.
  - intros x h. rewrite !E, E'. apply F1.
  - intro x. rewrite E'. apply (lim_ext (fun z => F z 0)); [intro; symmetry; apply E|apply F2].
Qed.

Lemma ep_cdiff n F : ep n F -> exists G, ep (n - 1) G /\ cdiff F G.
Proof.
  intro E. induction E as [|c i l Hi|F G _ IF _ IG|F G _ IF He].
  - exists (fun _ _ => 0). split; [apply ep_zero|]. split; [intros; ring|]. intro x. apply derivable_pt_lim_const.
  - exists (fun x h => c * h ^ (2 * l) * cdiv i x h). split; [|apply cdiff_mono].
    destruct i as [|i].
    + refine (ep_ext _ _ _ (ep_zero _) _). intros. cbn [cdiv]. ring.
    + refine (ep_ext _ _ _ (ep_scale _ _ c (ep_shift (S i - 1) (cdiv (S i)) 0 l (n - 1) ltac:(lia) (cdiv_ep (S i)))) _). intros x h. cbn [pow]. ring.
  - destruct IF as (F' & F1 & F2), IG as (G' & G1 & G2). exists (fun x h => F' x h + G' x h). split; [now apply ep_add|now apply cdiff_add].
  - destruct IF as (F' & F1 & F2). exists F'. split; [exact F1|]. exact (cdiff_ext F G F' F' F2 He (fun _ _ => eq_refl)).
Qed.
Lemma ep_cavg n F : ep n F -> exists G, ep n G /\ cavg F G.
Proof.
  intro E. induction E as [|c i l Hi|F G _ IF _ IG|F G _ IF He].
  - exists (fun _ _ => 0). split; [apply ep_zero|]. split; intros; ring.
  - exists (fun x h => c * h ^ (2 * l) * cmean i x h). split.
    + refine (ep_ext _ _ _ (ep_scale _ _ c (ep_shift i (cmean i) 0 l n ltac:(lia) (cmean_ep i))) _). intros x h. cbn [pow]. ring.
    + split.
      * intros x h. destruct (cm_spec i x h) as [A _].
        replace (c * (x + h) ^ i * h ^ (2 * l) + c * (x - h) ^ i * h ^ (2 * l)) with (c * h ^ (2 * l) * ((x + h) ^ i + (x - h) ^ i)) by ring. rewrite A. ring.
      * intro x. rewrite (proj1 (parts i x 0)). unfold Rsqr. ring.
  - destruct IF as (F' & F1 & F2 & F3), IG as (G' & G1 & G2 & G3). exists (fun x h => F' x h + G' x h). split; [now apply ep_add|]. split.
    + intros x h. specialize (F2 x h). specialize (G2 x h). lra.
    + intro x. now rewrite F3, G3.
  - destruct IF as (F' & F1 & F2 & F3). exists F'. split; [exact F1|]. split; [intros; rewrite !He; apply F2|intros; rewrite He; apply F3].
Qed.

(** Every such polynomial is a central difference quotient. *)
Lemma ep_sum : forall n F, ep n F -> exists Q, ep (S n) Q /\ cdiff Q F.
Proof.
  induction n as [n IH] using lt_wf_ind. intros F E. induction E as [|c i l Hi|F G _ IF _ IG|F G _ IF He].
  - exists (fun _ _ => 0). split; [apply ep_zero|]. split; [intros; ring|]. intro x. apply derivable_pt_lim_const.
  - assert (P : INR (S i) <> 0) by (apply not_0_INR; lia).
    pose proof (cdiff_mono (c / INR (S i)) (S i) l) as D1.
    assert (W : exists W, (forall x h, W x h = c / INR (S i) * h ^ (2 * l) * cpart (S i) x h) /\ exists Q, ep (S n) (fun x h => Rsqr h * Q x h) /\ cdiff Q W).
    { destruct (le_lt_dec 2 i) as [H2|H2].
      - exists (fun x h => c / INR (S i) * h ^ (2 * l) * cpart (S i) x h). split; [reflexivity|].
        destruct (IH (n - 2)%nat ltac:(lia) (fun x h => c / INR (S i) * h ^ (2 * l) * cpart (S i) x h)) as (Q & Q1 & Q2).
        { refine (ep_ext _ _ _ (ep_scale _ _ (c / INR (S i)) (ep_shift (S i - 3) (cpart (S i)) 0 l (n - 2) ltac:(lia) (proj2 (parts_ep (S i)) ltac:(lia)))) _).
          intros x h. cbn [pow]. ring. }
        exists Q. split; [|exact Q2]. refine (ep_ext _ _ _ (ep_shift (S (n - 2)) Q 0 1 (S n) ltac:(lia) Q1) _). intros x h. unfold Rsqr. cbn [Nat.mul Nat.add pow]. ring.
      - exists (fun _ _ => 0). split; [intros; rewrite cpart_small by lia; ring|]. exists (fun _ _ => 0).
        split; [refine (ep_ext _ _ _ (ep_zero _) _); intros; ring|]. split; [intros; ring|]. intro x. apply derivable_pt_lim_const. }
    destruct W as (W & EW & Q & Q1 & Q2 & Q3).
    exists (fun x h => c / INR (S i) * x ^ (S i) * h ^ (2 * l) + -1 * (Rsqr h * Q x h)). split.
    + apply ep_add; [apply ep_mono; lia|]. apply ep_scale. exact Q1.
    + assert (D2 : cdiff (fun x h => -1 * (Rsqr h * Q x h)) (fun x h => -1 * (Rsqr h * W x h))).
      { split; [intros x h; specialize (Q2 x h); replace (-1 * (Rsqr h * Q (x + h) h) - -1 * (Rsqr h * Q (x - h) h)) with (- Rsqr h * (Q (x + h) h - Q (x - h) h)) by ring; rewrite Q2; ring|].
        intro x. apply (lim_ext (fun _ => 0)); [intro; unfold Rsqr; ring|]. replace (-1 * (Rsqr 0 * W x 0)) with 0 by (unfold Rsqr; ring). apply derivable_pt_lim_const. }
      refine (cdiff_ext _ _ _ _ (cdiff_add _ _ _ _ D1 D2) (fun _ _ => eq_refl) _).
      intros x h. cbv beta. rewrite EW, (proj2 (parts (S i) x h)). replace (S i - 1)%nat with i by lia. field. exact P.
  - destruct IF as (F' & F1 & F2), IG as (G' & G1 & G2). exists (fun x h => F' x h + G' x h). split; [now apply ep_add|now apply cdiff_add].
  - destruct IF as (Q & Q1 & Q2). exists Q. split; [exact Q1|]. exact (cdiff_ext Q Q F G Q2 (fun _ _ => eq_refl) He).
Qed.

Lemma ep_poly p n : (length p <= S n)%nat -> ep n (fun x _ => peval p x).
Proof.
  assert (G : forall p k n, (length p + k <= S n)%nat -> ep n (fun x _ => x ^ k * peval p x)).
  { clear. induction p as [|a p IH]; intros k n H.
    - refine (ep_ext _ _ _ (ep_zero _) _). intros; cbn; ring.
    - cbn [length] in H. refine (ep_ext _ _ _ (ep_add _ _ _ (ep_mono n a k 0 ltac:(lia)) (IH (S k) n ltac:(lia))) _). intros x h. cbn [peval pow Nat.mul Nat.add]. ring. }
  intro H. refine (ep_ext _ _ _ (G p 0%nat n ltac:(lia)) _). intros; cbn; ring.
Qed.

(** Proofs about the dense-output drivers. *)
From Coq Require Import List Arith ZArith Reals Lia Lra.
From Verif Require Import M_Num M_Sign M_Run M_Dense S_Grid S_Real S_Dense P_Run P_R P_PlainR P_Ctrl.
Import ListNotations.
Local Open Scope run_scope.
Local Open Scope R_scope.

Lemma bind_emit {V A B} e (a : A) (f : A -> M V B) tr r :
  bind ([e], Ok a) f = (tr, r) -> exists tr2, f a = (tr2, r) /\ tr = e :: tr2.
Proof. unfold bind. destruct (f a) as [t2 r2]. intros [= <- <-]. eauto. Qed.

Lemma reached_of_app {X T} (a b : list (ev X T)) : reached_of (a ++ b) = reached_of a ++ reached_of b.
Proof. apply flat_map_app. Qed.

Lemma adjacent_app sg l1 : forall a b l2 c,
  adjacent sg a l1 b -> adjacent sg b l2 c -> adjacent sg a (l1 ++ l2) c.
Proof.
  induction l1 as [|[p q] l1 IH]; simpl; intros a b l2 c H1 H2; [now subst|].
  destruct H1 as (-> & H & H1). repeat split; eauto.
Qed.

Lemma last_cons {A} (l : list A) : forall a d, last (a :: l) d = last l a.
Proof.
  induction l as [|b l IH]; intros a d; [reflexivity|].
  transitivity (last (b :: l) d); [reflexivity|]. rewrite IH. symmetry.
  transitivity (last (b :: l) a); [reflexivity|]. apply IH.
Qed.

Lemma strictly_mono_app_l sg l m : strictly_mono sg (l ++ m) -> strictly_mono sg l.
Proof.
  induction l as [|a l IH]; simpl; auto. intros [G1 G2]. split; auto. destruct l; simpl in *; auto.
Qed.

Section Valid.
Context {X : Type}.
Lemma valid_app sg sl (a : list (ev X R)) : forall iv b,
  valid_calcs sg sl iv (a ++ b) <-> valid_calcs sg sl iv a /\ valid_calcs sg sl (interval_after iv a) b.
Proof. induction a as [|[] a IH]; intros iv b; simpl; try rewrite IH; tauto. Qed.
Lemma interval_app (a : list (ev X R)) : forall iv b,
  interval_after iv (a ++ b) = interval_after (interval_after iv a) b.
Proof. induction a as [|[] a IH]; intros iv b; simpl; auto. Qed.
Lemma paired_app (b : list (ev X R)) : paired b -> forall n a, (length a <= n)%nat -> paired a -> paired (a ++ b).
Proof.
  intros Hb. induction n as [|n IH]; intros a Hn Ha.
  - destruct a; simpl in *; [auto|lia].
  - destruct a as [|[] a]; simpl in *; auto; try (apply IH; auto; lia); try easy.
    destruct a as [|[] a]; simpl in *; try easy. destruct Ha as (-> & -> & Ha). repeat split.
    apply IH; auto. lia.
Qed.
Lemma cto_app (a b : list (ev X R)) : paired a -> paired b -> paired (a ++ b).
Proof. intros Ha Hb. exact (paired_app b Hb (length a) a (le_n _) Ha). Qed.
End Valid.

Section R.
Variable eps : R.
Hypothesis Heps : 0 <= eps.
Notation N := (RNum eps).
Context {S W X : Type}.
Notation V := (ev X R).
Variables (init : S -> X -> R -> R -> S) (step : S -> S) (calc : S -> R -> X)
  (ct : S -> R) (cx : S -> X) (cdt : S -> R).
Hypothesis HD : dense_contract init step ct cx cdt.
Notation D := (@dense_of N S W X init step calc ct cx cdt).

Variable sg : R.
Definition good (s : S) : Prop := cdt s <> 0 /\ dir (cdt s) = sg.

Lemma good_sg s : good s -> sg = 1 \/ sg = -1.
Proof. intros [_ <-]. destruct (dir_cases (cdt s)) as [[_ ->]|[_ ->]]; auto. Qed.

Lemma good_step s : good s ->
  good (step s) /\ 0 < sg * (ct (step s) - ct s) <= sg * cdt s.
Proof.
  intros [H1 H2]. pose proof (dc_adv _ _ _ _ _ HD s H1) as Ha.
  pose proof (dc_dir _ _ _ _ _ HD s H1) as Hd. rewrite H2 in *.
  assert (E : dir (cdt (step s)) = sg). { rewrite <- H2 in Hd. rewrite <- H2. now apply dir_eq_of_pos. }
  repeat split; auto; try lra.
  - intros E0. rewrite E0 in Hd. lra.
  - rewrite <- (dir_abs (cdt s)), H2 in Ha. lra.
Qed.

Lemma good_init s0 s x t d : good s0 -> 0 < sg * d -> good (init s x t d).
Proof.
  intros [H1 H2] H. unfold good. rewrite (dc_dt _ _ _ _ _ HD). split.
  - intros ->. lra.
  - rewrite <- H2 in H |- *. now apply dir_eq_of_pos.
Qed.

(** ** integrate_adaptive *)

(** Alternation of observation and step in direction sg, from (xa,a) to (xb,b). *)
Inductive od : X * R -> list V -> X * R -> Prop :=
| od_nil p : od p [] p
| od_cons x a x' b tr c : 0 < sg * (b - a) -> od (x', b) tr c ->
    od (x, a) (EObs x a :: EDo a b x' :: tr) c
| od_init x a d tr c : od (x, a) tr c -> od (x, a) (EInit x a d :: tr) c.

Lemma od_app p l1 q l2 r : od p l1 q -> od q l2 r -> od p (l1 ++ l2) r.
Proof. induction 1; simpl; intros; auto; constructor; auto. Qed.

Lemma od_le p l q : od p l q -> 0 <= sg * (snd q - snd p).
Proof. induction 1; simpl in *; try lra. Qed.

Lemma od_facts p l q : od p l q ->
  obs_of l ++ [q] = p :: reached_of l /\
  Forall (fun T => sg * (T - snd q) <= 0) (map snd (obs_of l)) /\
  strictly_mono sg (map snd (obs_of l ++ [q])) /\
  hd q (obs_of l) = p /\
  map snd (obs_of l) = map fst (dos_of l) /\
  length (dos_of l) = length (obs_of l).
Proof.
  induction 1 as [p|x a x' b tr c H Hod IH|x a d tr c Hod IH].
  - simpl. repeat split; auto.
  - destruct IH as (I1 & I2 & I3 & I4 & I5 & I6). pose proof (od_le _ _ _ Hod) as Hle.
    change (obs_of (EObs x a :: EDo a b x' :: tr)) with ((x, a) :: obs_of tr).
    change (dos_of (EObs x a :: EDo a b x' :: tr)) with ((a, b) :: dos_of tr).
    change (reached_of (EObs x a :: EDo a b x' :: tr)) with ((x', b) :: reached_of tr).
    cbn [map snd fst app hd length]. split; [|split; [|split; [|split; [|split]]]]; auto.
    + now f_equal.
    + constructor; auto. simpl in Hle. lra.
    + rewrite I1 in *. split; [simpl; lra|exact I3].
    + now f_equal.
  - exact IH.
Qed.

Lemma iad_inner_R tend : forall fuel s w count tr r,
  good s -> sg * (ct s - tend) <= eps ->
  @iad_inner N S W X D rec_obs fuel tend s w count = (tr, r) ->
  exists q, od (cx s, ct s) tr q /\ sg * (snd q - tend) <= eps /\
  (forall s' w' c', r = Ok (s', w', c') ->
     w' = w /\ good s' /\ (cx s', ct s') = q /\ c' = (count + length (dos_of tr))%nat).
Proof.
  induction fuel as [|fuel IH]; intros s w count tr r Hg Ht H; cbn [iad_inner] in H.
  - injection H as <- <-. exists (cx s, ct s). repeat split; auto; try discriminate. constructor.
  - cbn [dense_of d_t d_dt d_x d_step] in H.
    destruct (@less_eq_with_sign N _ tend (cdt s)) eqn:E.
    + apply leq_R in E. rnum. destruct Hg as [Hg1 Hg2]. rewrite Hg2 in E.
      destruct (good_step s (conj Hg1 Hg2)) as [Hg' Hadv].
      unfold rec_obs at 1 in H. apply bind_emit in H as (tr1 & H & ->).
      apply bind_emit in H as (tr2 & E2 & ->).
      apply IH in E2; auto; [|lra]. destruct E2 as (b & Hod & Hb & Hr).
      exists b. split; [|split]; auto.
      * constructor; auto. lra.
      * intros s' w' c' H. destruct (Hr _ _ _ H) as (G1 & G2 & G3 & ->). repeat split; auto; try apply G2.
        change (dos_of (EObs (cx s) (ct s) :: EDo (ct s) (ct (step s)) (cx (step s)) :: tr2))
          with ((ct s, ct (step s)) :: dos_of tr2). cbn [length]. lia.
    + injection H as <- <-. exists (cx s, ct s). split; [constructor|]. split; auto.
      intros s' w' c' H. injection H as <- <- <-. repeat split; try apply Hg. simpl. lia.
Qed.

Lemma sg_abs z : sg = 1 \/ sg = -1 -> sg * z <= eps -> sg * - z <= eps -> Rabs z <= eps.
Proof. intros [-> | ->] H1 H2; apply Rabs_le; lra. Qed.

Lemma iad_outer_R tend : sg = 1 \/ sg = -1 -> forall fuel s w count tr r,
  sg * (ct s - tend) <= eps -> good s \/ Rabs (ct s - tend) <= eps ->
  @iad_outer N S W X D rec_obs fuel tend s w count = (tr, r) ->
  exists q, od (cx s, ct s) tr q /\ sg * (snd q - tend) <= eps /\
  (forall s' w' c', r = Ok (s', w', c') ->
     w' = w /\ (cx s', ct s') = q /\ c' = (count + length (dos_of tr))%nat /\ Rabs (tend - snd q) <= eps).
Proof.
  intros Hsg.
  induction fuel as [|fuel IH]; intros s w count tr r Ht Hcase H; cbn [iad_outer] in H.
  - injection H as <- <-. exists (cx s, ct s). repeat split; auto; try discriminate. constructor.
  - cbn [dense_of d_t d_dt d_x d_step] in H.
    destruct (@less_with_sign N (ct s) tend (cdt s)) eqn:E.
    + apply less_R in E.
      assert (Hg : good s).
      { destruct Hcase as [Hg|Hn]; auto. exfalso.
        unfold Rabs in Hn; destruct (Rcase_abs (ct s - tend)) in Hn;
        destruct (dir_cases (cdt s)) as [[_ Ed]|[_ Ed]]; rewrite Ed in E; lra. }
      apply bind_inv in H as [(tr1 & [[s1 w1] c1] & tr2 & H1 & H & ->)|(r1 & H1 & Hn & Hr)].
      * apply iad_inner_R in H1; auto. destruct H1 as (q & Hod & Hb & Hr).
        destruct (Hr _ _ _ eq_refl) as (-> & Hg1 & <- & ->).
        unfold reinit_to, call_init in H. cbn [dense_of d_t d_x d_init] in H.
        apply bind_emit in H as (tr3 & E3 & ->). rnum. cbn [snd] in Hb.
        set (s2 := init s1 (cx s1) (ct s1) (tend - ct s1)) in *.
        assert (Et : ct s2 = ct s1) by apply (dc_t _ _ _ _ _ HD).
        assert (Ex : cx s2 = cx s1) by apply (dc_x _ _ _ _ _ HD).
        apply IH in E3; [|now rewrite Et|].
        -- destruct E3 as (q & Hod2 & Hb2 & Hr2). rewrite Et, Ex in Hod2. exists q. split; [|split; auto].
           ++ apply (od_app _ _ _ _ _ Hod). constructor. exact Hod2.
           ++ intros s' w' c' Hok. destruct (Hr2 _ _ _ Hok) as (G1 & G2 & G3 & G4).
              repeat split; auto.
              rewrite G3, dos_of_app. rewrite app_length.
              change (dos_of (EInit (cx s1) (ct s1) (tend - ct s1) :: tr3)) with (dos_of tr3). lia.
        -- rewrite Et. destruct (Rle_dec (sg * (tend - ct s1)) eps) as [Hle|Hgt].
           ++ right. apply sg_abs; auto. lra.
           ++ left. apply (good_init s); auto. lra.
      * apply iad_inner_R in H1; auto. destruct H1 as (q & Hod & Hb & _).
        exists q. repeat split; auto; subst; destruct r1; easy.
    + apply less_R_false in E. injection H as <- <-. exists (cx s, ct s). split; [constructor|]. split; auto.
      intros s' w' c' H. injection H as <- <- <-. repeat split; auto; try (simpl; lia).
      cbn [snd]. rewrite Rabs_minus_sym. destruct Hcase as [[Hg1 Hg2]|Hn]; auto. rewrite Hg2 in E.
      apply sg_abs; auto. lra.
Qed.

Lemma adaptive_dense_R : sg = 1 \/ sg = -1 -> forall fuel s w x t0 tend dt tr r,
  dt <> 0 -> dir dt = sg -> 0 <= sg * (tend - t0) ->
  @integrate_adaptive_dense N S W X D rec_obs fuel s w x t0 tend dt = (tr, r) ->
  hd (x, t0) (obs_of tr) = (x, t0) /\
  strictly_mono sg (map snd (obs_of tr)) /\
  Forall (fun T => sg * (T - tend) <= eps) (map snd (obs_of tr)) /\
  (forall s' w' x' n, r = Ok (s', w', x', n) ->
     obs_of tr = (x, t0) :: reached_of tr /\
     n = length (dos_of tr) /\
     exists t', last (obs_of tr) (x, t0) = (x', t') /\ Rabs (tend - t') <= eps).
Proof.
  intros Hsg fuel s w x t0 tend dt tr r Hdt Hdir Hle H.
  unfold integrate_adaptive_dense, call_init in H. cbn [dense_of d_init d_x d_t] in H.
  apply bind_emit in H as (tr1 & H & ->).
  set (s1 := init s x t0 dt) in *.
  assert (Et : ct s1 = t0) by apply (dc_t _ _ _ _ _ HD).
  assert (Ex : cx s1 = x) by apply (dc_x _ _ _ _ _ HD).
  assert (Ed : cdt s1 = dt) by apply (dc_dt _ _ _ _ _ HD).
  change (obs_of (EInit x t0 dt :: tr1)) with (obs_of tr1).
  change (dos_of (EInit x t0 dt :: tr1)) with (dos_of tr1).
  change (reached_of (EInit x t0 dt :: tr1)) with (reached_of tr1).
  apply bind_inv in H as [(tr2 & [[s2 w2] c2] & tr3 & H1 & H & ->)|(r1 & H1 & Hn & Hr)].
  - apply iad_outer_R in H1; auto; [|rewrite Et; lra|left; unfold good; rewrite Ed; auto].
    destruct H1 as (q & Hod & Hb & Hr). destruct (Hr _ _ _ eq_refl) as (-> & <- & -> & Hab).
    rewrite Et, Ex in Hod. apply od_facts in Hod. cbn [snd] in *.
    destruct Hod as (F1 & F2 & F3 & F4 & F5 & F6).
    unfold rec_obs in H. apply bind_emit in H as (tr4 & H & ->). injection H as <- <-.
    rewrite !obs_of_app. change (obs_of [EObs (cx s2) (ct s2)]) with [(cx s2, ct s2)].
    change (carrier N) with R in *. split; [|split; [|split]].
    + revert F4; destruct (obs_of tr2); intros F4; exact F4.
    + exact F3.
    + rewrite map_app. apply Forall_app. split.
      * eapply Forall_impl; [|exact F2]. simpl. intros a Ha. lra.
      * constructor; [exact Hb|constructor].
    + intros s' w' x' n [= <- <- <- <-]. split; [|split].
      * rewrite F1, reached_of_app. simpl. now rewrite app_nil_r.
      * rewrite dos_of_app. simpl. now rewrite app_nil_r.
      * exists (ct s2). split; auto. now rewrite last_last.
  - apply iad_outer_R in H1; auto; [|rewrite Et; lra|left; unfold good; rewrite Ed; auto].
    destruct H1 as (q & Hod & Hb & _). rewrite Et, Ex in Hod. apply od_facts in Hod.
    destruct Hod as (F1 & F2 & F3 & F4 & F5 & F6).
    change (carrier N) with R in *. split; [|split; [|split]].
    + revert F4; destruct (obs_of tr1); intros F4; [reflexivity|exact F4].
    + rewrite map_app in F3. exact (strictly_mono_app_l _ _ _ F3).
    + eapply Forall_impl; [|exact F2]. simpl. intros a Ha. lra.
    + intros s' w' x' n E. destruct r1; congruence || easy. 
Qed.

(** ** integrate_times *)
Record tinv (iv : option (R * R)) (s : S) (times : list R) (L : R) : Prop := {
  ti_good : good s;
  ti_le : sg * (ct s - L) <= eps;
  ti_iv : match iv with
          | None => Forall (fun t => eps < sg * (t - ct s)) times
          | Some (a, b) => b = ct s /\ Forall (fun t => 0 <= sg * (t - a)) times
          end;
  ti_sp : spaced sg eps times;
  ti_L : Forall (fun t => sg * (t - L) <= 0) times
}.

Lemma spaced_all t l : sg = 1 \/ sg = -1 -> spaced sg eps (t :: l) -> Forall (fun u => eps < sg * (u - t)) l.
Proof.
  intros Hsg. revert t. induction l as [|u l IH]; intros t H; constructor.
  - apply H.
  - assert (H1 : spaced sg eps (u :: l)) by apply H. specialize (IH u H1).
    destruct H as [H _]. eapply Forall_impl; [|exact IH]. simpl. intros v Hv. lra.
Qed.

Lemma itd_obs_R iv L : forall times s w x tr r,
  tinv iv s times L ->
  @itd_obs N S W X D rec_obs times s w x = (tr, r) ->
  exists done rest x', r = Ok (rest, w, x') /\ times = done ++ rest /\
    map snd (obs_of tr) = done /\ dos_of tr = [] /\ reached_of tr = [] /\
    last (map fst (obs_of tr)) x = x' /\
    valid_calcs sg eps iv tr /\ interval_after iv tr = iv /\ paired tr /\
    tinv iv s rest L /\ Forall (fun t => eps < sg * (t - ct s)) rest.
Proof.
  induction times as [|t rest IH]; intros s w x tr r Hi H; cbn [itd_obs] in H.
  - injection H as <- <-. exists [], [], x. repeat split; auto; apply Hi.
  - cbn [dense_of d_t d_dt] in H. destruct (@less_eq_with_sign N t (ct s) (cdt s)) eqn:E.
    + apply leq_R in E. destruct Hi as [Hg Hle Hiv Hsp HL]. destruct Hg as [Hg1 Hg2]. rewrite Hg2 in E.
      unfold call_calc in H. cbn [dense_of d_calc] in H.
      apply bind_emit in H as (tr1 & H & ->). unfold rec_obs at 1 in H.
      apply bind_emit in H as (tr2 & H & ->).
      destruct iv as [[a b]|]; [|exfalso; inversion Hiv; subst; lra].
      destruct Hiv as [-> Hiv].
      apply IH in H.
      * destruct H as (done & rest' & x' & -> & -> & F1 & F2 & F3 & F4 & F5 & F6 & F7 & F8 & F9).
        exists (t :: done), rest', x'.
        change (obs_of (ECalc t (calc s t) :: EObs (calc s t) t :: tr2)) with ((calc s t, t) :: obs_of tr2).
        split; [reflexivity|]. split; [reflexivity|]. split; [simpl; now f_equal|].
        split; [exact F2|]. split; [exact F3|]. split; [cbn [map fst]; now rewrite last_cons|].
        split; [|split; [exact F6|split; [|split; auto]]].
        -- cbn [valid_calcs]. split; auto. inversion Hiv; subst. lra.
        -- simpl. auto.
      * inversion Hiv; subst. inversion HL; subst. constructor; auto.
        -- now split.
        -- apply Hsp.
    + injection H as <- <-. exists [], (t :: rest), x. split; [reflexivity|]. repeat split; auto; try apply Hi.
      apply leq_R_false in E. destruct Hi as [Hg Hle Hiv Hsp HL]. pose proof (good_sg s Hg) as Hsg.
      destruct Hg as [Hg1 Hg2]. rewrite Hg2 in E.
      constructor; [lra|]. eapply Forall_impl; [|apply (spaced_all t rest Hsg Hsp)]. simpl. intros u Hu. lra.
Qed.

Lemma tinv_step L s times a : sg = 1 \/ sg = -1 -> good s -> ct s = a ->
  spaced sg eps times -> Forall (fun t => sg * (t - L) <= 0) times ->
  Forall (fun t => eps < sg * (t - a)) times ->
  sg * (ct (step s) - L) <= eps ->
  tinv (Some (a, ct (step s))) (step s) times L.
Proof.
  intros Hsg Hg Ha Hsp HL Hf Hle. destruct (good_step s Hg) as [Hg' Hadv]. constructor; auto.
  split; auto. eapply Forall_impl; [|exact Hf]. simpl. intros t Ht. lra.
Qed.

Lemma itd_loop_R L : sg = 1 \/ sg = -1 -> forall fuel times s w x count tr r iv,
  tinv iv s times L ->
  @itd_loop N S W X D rec_obs fuel L times s w x count = (tr, r) ->
  exists done rest, times = done ++ rest /\ map snd (obs_of tr) = done /\
    valid_calcs sg eps iv tr /\ paired tr /\
    Forall (fun p => sg * (snd p - L) <= eps) (dos_of tr) /\
    (exists b, adjacent sg (ct s) (dos_of tr) b) /\
    (forall s' w' x' n, r = Ok (s', w', x', n) ->
       rest = [] /\ n = (count + length (dos_of tr))%nat /\
       last (map fst (obs_of tr)) x = x' /\ adjacent sg (ct s) (dos_of tr) (ct s')).
Proof.
  intros Hsg. induction fuel as [|fuel IH]; intros times s w x count tr r iv Hi H; cbn [itd_loop] in H.
  - injection H as <- <-. exists [], times. simpl. repeat split; auto; try discriminate. now exists (ct s).
  - destruct times as [|t0 times0].
    + injection H as <- <-. exists [], []. split; [auto|]. split; [auto|]. split; [exact I|].
      split; [exact I|]. split; [constructor|]. split; [now exists (ct s)|].
      intros s' w' x' n [= <- <- <- <-]. simpl. repeat split; auto.
    + remember (t0 :: times0) as times eqn:Et.
      assert (Hstep : forall s1 times1 w1 x1 tr2 r2,
        tinv (Some (ct s, ct (step s1))) (step s1) times1 L -> ct s1 = ct s ->
        0 < sg * (ct (step s1) - ct s1) -> sg * (ct (step s1) - L) <= eps ->
        (let* (s2, w2) := ([EDo (ct s1) (ct (step s1)) (cx (step s1))], Ok (step s1, w1)) in
         @itd_loop N S W X D rec_obs fuel L times1 s2 w2 x1 (Datatypes.S count)) = (tr2, r2) ->
        exists done rest, times1 = done ++ rest /\ map snd (obs_of tr2) = done /\
          (forall iv, valid_calcs sg eps iv tr2) /\ paired tr2 /\
          Forall (fun p => sg * (snd p - L) <= eps) (dos_of tr2) /\
          (exists b, adjacent sg (ct s) (dos_of tr2) b) /\
          (forall s' w' x' n, r2 = Ok (s', w', x', n) ->
             rest = [] /\ n = (count + length (dos_of tr2))%nat /\
             last (map fst (obs_of tr2)) x1 = x' /\ adjacent sg (ct s) (dos_of tr2) (ct s'))).
      { clear H. intros s1 times1 w1 x1 tr2 r2 Hi2 Es1 Hadv HleL H.
        apply bind_emit in H as (tr3 & H & ->). apply (IH _ _ _ _ _ _ _ _ Hi2) in H.
        destruct H as (done & rest & F1 & F2 & F3 & F4 & F5 & [b F6] & F7).
        exists done, rest.
        change (dos_of (EDo (ct s1) (ct (step s1)) (cx (step s1)) :: tr3))
          with ((ct s1, ct (step s1)) :: dos_of tr3).
        change (obs_of (EDo (ct s1) (ct (step s1)) (cx (step s1)) :: tr3)) with (obs_of tr3).
        rewrite Es1 in *.
        split; [auto|]. split; [auto|]. split; [intros iv'; exact F3|]. split; [exact F4|].
        split; [constructor; auto|]. split; [exists b; now repeat split|].
        intros s' w' x' n E. destruct (F7 _ _ _ _ E) as (G1 & G2 & G3 & G4). repeat split; auto.
        rewrite G2; cbn [length]; rewrite <- plus_n_Sm; reflexivity. }
      apply bind_inv in H as [(tr1 & [[times1 w1] x1] & tr2 & H1 & H & ->)|(r1 & H1 & Hn & Hr)].
      2:{ apply (itd_obs_R iv L) in H1; auto. destruct H1 as (? & ? & ? & E & _). now apply Hn in E. }
      apply (itd_obs_R iv L) in H1; auto.
      destruct H1 as (done & rest' & x' & E & Ets & F1 & F2 & F3 & F4 & F5 & F6 & F7 & Hi' & F9).
      injection E as <- <- <-. clear Et. subst times.
      assert (Hfin : forall (done2 rest2 : list R) (tr2 : list V) (r2 : res (S * W * X * nat)),
        times1 = done2 ++ rest2 -> map snd (obs_of tr2) = done2 -> valid_calcs sg eps iv tr2 ->
        paired tr2 -> Forall (fun p => sg * (snd p - L) <= eps) (dos_of tr2) ->
        (exists b, adjacent sg (ct s) (dos_of tr2) b) ->
        (forall s' w' x' n, r2 = Ok (s', w', x', n) ->
             rest2 = [] /\ n = (count + length (dos_of tr2))%nat /\
             last (map fst (obs_of tr2)) x1 = x' /\ adjacent sg (ct s) (dos_of tr2) (ct s')) ->
        exists done3 rest3, done ++ times1 = done3 ++ rest3 /\ map snd (obs_of (tr1 ++ tr2)) = done3 /\
          valid_calcs sg eps iv (tr1 ++ tr2) /\ paired (tr1 ++ tr2) /\
          Forall (fun p => sg * (snd p - L) <= eps) (dos_of (tr1 ++ tr2)) /\
          (exists b, adjacent sg (ct s) (dos_of (tr1 ++ tr2)) b) /\
          (forall s' w' x' n, r2 = Ok (s', w', x', n) ->
             rest3 = [] /\ n = (count + length (dos_of (tr1 ++ tr2)))%nat /\
             last (map fst (obs_of (tr1 ++ tr2))) x = x' /\ adjacent sg (ct s) (dos_of (tr1 ++ tr2)) (ct s'))).
      { clear H. intros done2 rest2 tr3 r3 G1 G2 G3 G4 G5 G6 G7.
        exists (done ++ done2), rest2. rewrite obs_of_app, dos_of_app, !map_app, F2. cbn [app].
        change (carrier N) with R in *.
        split; [subst; now rewrite app_assoc|]. split; [now rewrite F1, G2|].
        split; [rewrite valid_app, F6; auto|]. split; [now apply cto_app|].
        split; [auto|]. split; [auto|]. intros s' w' x' n E. destruct (G7 _ _ _ _ E) as (K1 & K2 & K3 & K4).
        repeat split; auto. rewrite <- K3, <- F4. clear.
        induction (map fst (obs_of tr1)) as [|a l IH] using rev_ind; [reflexivity|].
        rewrite last_last, <- app_assoc. cbn [app].
        clear IH. revert x. induction l as [|b l IH]; intros x; cbn [app].
        - apply last_cons.
        - rewrite last_cons. apply IH. }
      cbn [dense_of d_t d_dt d_step] in H.
      destruct (@less_eq_with_sign N _ L (cdt s)) eqn:E.
      * apply leq_R in E. rnum.
        pose proof Hi' as [Hg Hle Hiv Hsp HL]. destruct (good_step s Hg) as [Hg' Hadv].
        destruct Hg as [Hg1 Hg2]. rewrite Hg2 in E.
        apply (Hstep s times1 w1 x1) in H; auto; try lra.
        -- destruct H as (d2 & r2 & K1 & K2 & K3 & K4 & K5 & K6 & K7). apply (Hfin d2 r2); auto.
        -- apply tinv_step; auto; [now split|lra].
      * destruct times1 as [|t1 times2].
        -- destruct fuel as [|fuel']; cbn [itd_loop] in H; injection H as <- <-.
           ++ apply (Hfin [] []); simpl; auto; [now exists (ct s)|easy].
           ++ apply (Hfin [] []); simpl; auto; [now exists (ct s)|].
              intros s' w' x' n [= <- <- <- <-]. repeat split; auto.
        -- unfold reinit_to, call_init in H. cbn [dense_of d_t d_x d_init] in H.
           apply bind_emit in H as (tr3 & H & ->). rnum.
           set (s1 := init s (cx s) (ct s) (L - ct s)) in *.
           assert (Et : ct s1 = ct s) by apply (dc_t _ _ _ _ _ HD).
           assert (Ed : cdt s1 = L - ct s) by apply (dc_dt _ _ _ _ _ HD).
           pose proof Hi' as [Hg Hle Hiv Hsp HL].
           assert (Hpos : eps < sg * (L - ct s)).
           { inversion F9; subst. inversion HL; subst. lra. }
           assert (Hg1 : good s1) by (apply (good_init s); auto; lra).
           destruct (good_step s1 Hg1) as [Hg' Hadv]. rewrite Ed in Hadv.
           apply (Hstep s1 (t1 :: times2) w1 x1) in H; auto; try lra.
           ++ destruct H as (d2 & r2 & K1 & K2 & K3 & K4 & K5 & K6 & K7).
              apply (Hfin d2 r2); auto. exact (K3 None).
           ++ rewrite <- Et. apply tinv_step; auto; [rewrite Et; auto|]. rewrite Et in Hadv. lra.
           ++ rewrite Et in Hadv. lra.
Qed.

Lemma spaced_last t l : sg = 1 \/ sg = -1 -> spaced sg eps (t :: l) ->
  Forall (fun u => sg * (u - last (t :: l) t) <= 0) (t :: l).
Proof.
  intros Hsg. revert t. induction l as [|u l IH]; intros t H.
  - simpl. constructor; [lra|constructor].
  - assert (H1 : spaced sg eps (u :: l)) by apply H. specialize (IH u H1).
    assert (E : last (t :: u :: l) t = last (u :: l) u).
    { rewrite !last_cons. reflexivity. }
    rewrite E. constructor; auto. inversion IH; subst. destruct H as [H _]. lra.
Qed.

Lemma times_dense_R : sg = 1 \/ sg = -1 -> forall fuel s w x t0 times dt tr r,
  dt <> 0 -> dir dt = sg -> spaced sg eps (t0 :: times) ->
  @integrate_times_dense N S W X D rec_obs fuel s w x (t0 :: times) dt = (tr, r) ->
  (exists tr1, tr = EInit x t0 dt :: EObs x t0 :: tr1 /\ paired tr1) /\
  (exists rest, t0 :: times = map snd (obs_of tr) ++ rest) /\
  valid_calcs sg eps None tr /\
  Forall (fun p => sg * (snd p - last times t0) <= eps) (dos_of tr) /\
  (exists b, adjacent sg t0 (dos_of tr) b) /\
  (forall s' w' x' n, r = Ok (s', w', x', n) ->
     map snd (obs_of tr) = t0 :: times /\
     n = length (dos_of tr) /\
     last (map fst (obs_of tr)) x = x').
Proof.
  intros Hsg fuel s w x t0 times dt tr r Hdt Hdir Hsp H.
  unfold integrate_times_dense, call_init in H.
  apply bind_emit in H as (tr1 & H & ->). unfold rec_obs at 1 in H.
  apply bind_emit in H as (tr2 & H & ->). cbn [dense_of d_init] in H.
  set (s1 := init s x t0 dt) in *.
  assert (Et : ct s1 = t0) by apply (dc_t _ _ _ _ _ HD).
  assert (Ed : cdt s1 = dt) by apply (dc_dt _ _ _ _ _ HD).
  assert (EL : last (t0 :: times) t0 = last times t0) by apply last_cons.
  assert (HL := spaced_last t0 times Hsg Hsp). rewrite EL in HL.
  change (carrier N) with R in *. rewrite EL in H.
  apply (itd_loop_R _ Hsg _ _ _ _ _ _ _ _ None) in H.
  - destruct H as (done & rest & F1 & F2 & F3 & F4 & F5 & F6 & F7). rewrite Et in *.
    change (obs_of (EInit x t0 dt :: EObs x t0 :: tr2)) with ((x, t0) :: obs_of tr2).
    change (dos_of (EInit x t0 dt :: EObs x t0 :: tr2)) with (dos_of tr2).
    change (calcs_of (EInit x t0 dt :: EObs x t0 :: tr2)) with (calcs_of tr2).
    change (carrier N) with R in *.
    split; [exists tr2; auto|]. split; [exists rest; simpl; rewrite F2; congruence|].
    split; [exact F3|].
    split; [exact F5|]. split; [exact F6|].
    intros s' w' x' n E. destruct (F7 _ _ _ _ E) as (-> & K1 & K2 & _). rewrite app_nil_r in F1.
    cbn [map snd fst]. rewrite last_cons. repeat split; auto. congruence.
  - pose proof (Forall_inv HL) as HL1; pose proof (Forall_inv_tail HL) as HL2; cbv beta in HL1. constructor; auto.
    + unfold good. rewrite Ed. auto.
    + rewrite Et. lra.
    + rewrite Et. apply spaced_all; auto.
    + apply Hsp.
Qed.

(** ** integrate_n_steps *)
Section NSteps.
Variables t0 dt : R.
Hypothesis Hdt : dt <> 0.
Hypothesis Hdir : dir dt = sg.
Let tk (k : nat) : R := t0 + INR k * dt.

Lemma sg_pm : sg = 1 \/ sg = -1.
Proof. rewrite <- Hdir. destruct (dir_cases dt) as [[_ ->]|[_ ->]]; auto. Qed.
Lemma tk_step k : 0 < sg * (tk (Datatypes.S k) - tk k).
Proof.
  unfold tk. rewrite S_INR. replace (sg * _) with (sg * dt) by ring. rewrite <- Hdir, dir_abs.
  now apply Rabs_pos_lt.
Qed.
Lemma tk_le j k : (j <= k)%nat -> 0 <= sg * (tk k - tk j).
Proof. induction 1 as [|k H IH]; [lra|]. pose proof (tk_step k). lra. Qed.

(** The interval of the last step reaches back to the next grid point. *)
Definition ninv (iv : option (R * R)) (s : S) (k : nat) : Prop :=
  good s /\ match iv with
            | None => sg * (ct s - tk k) <= 0
            | Some (a, b) => b = ct s /\ - eps <= sg * (tk k - a)
            end.


Lemma last_app {A} (l m : list A) : forall d, last (l ++ m) d = last m (last l d).
Proof.
  induction l as [|b l IH]; intros d; [reflexivity|]. cbn [app]. now rewrite !last_cons.
Qed.

(** A stretch of a run: from stepper s, next grid index k, caller's state x, to s', k', x'.
    Step ends satisfy P. *)
Record seg (P : R -> Prop) (iv : option (R * R)) (s : S) (k : nat) (x : X) (tr : list V)
  (iv' : option (R * R)) (s' : S) (k' : nat) (x' : X) : Prop := {
  sg_k : (k <= k')%nat;
  sg_obs : map snd (obs_of tr) = map tk (seq k (k' - k));
  sg_valid : valid_calcs sg eps iv tr;
  sg_iv : interval_after iv tr = iv';
  sg_pair : paired tr;
  sg_bound : Forall (fun p => P (snd p)) (dos_of tr);
  sg_adj : adjacent sg (ct s) (dos_of tr) (ct s');
  sg_x : last (map fst (obs_of tr)) x = x';
  sg_reach : last (reached_of tr) (cx s, ct s) = (cx s', ct s')
}.

Lemma seg_nil P iv s k x : seg P iv s k x [] iv s k x.
Proof. constructor; simpl; auto. now rewrite Nat.sub_diag. Qed.

Lemma seg_app P iv s k x tr iv1 s1 k1 x1 tr1 iv2 s2 k2 x2 :
  seg P iv s k x tr iv1 s1 k1 x1 -> seg P iv1 s1 k1 x1 tr1 iv2 s2 k2 x2 ->
  seg P iv s k x (tr ++ tr1) iv2 s2 k2 x2.
Proof.
  intros [] []. constructor.
  - lia.
  - rewrite obs_of_app, map_app, sg_obs0, sg_obs1, <- map_app.
    replace (k2 - k)%nat with ((k1 - k) + (k2 - k1))%nat by lia. rewrite seq_app.
    now replace (k + (k1 - k))%nat with k1 by lia.
  - rewrite valid_app, sg_iv0. auto.
  - now rewrite interval_app, sg_iv0.
  - now apply cto_app.
  - rewrite dos_of_app. apply Forall_app. auto.
  - rewrite dos_of_app. eapply adjacent_app; eauto.
  - rewrite obs_of_app, map_app, last_app, sg_x0. auto.
  - rewrite reached_of_app, last_app, sg_reach0. auto.
Qed.

Lemma seg_calc P a s k x :
  - eps <= sg * (tk k - a) -> sg * (tk k - ct s) <= eps ->
  seg P (Some (a, ct s)) s k x [ECalc (tk k) (calc s (tk k)); EObs (calc s (tk k)) (tk k)]
      (Some (a, ct s)) s (Datatypes.S k) (calc s (tk k)).
Proof.
  intros H1 H2. constructor; [lia|replace (Datatypes.S k - k)%nat with 1%nat by lia; reflexivity|..]; simpl; auto.
Qed.

Lemma seg_step (P : R -> Prop) iv s k x : good s -> P (ct (step s)) ->
  seg P iv s k x [EDo (ct s) (ct (step s)) (cx (step s))] (Some (ct s, ct (step s))) (step s) k x.
Proof.
  intros H HP. destruct (good_step s H) as [_ H2]. constructor; simpl; auto.
  - now rewrite Nat.sub_diag.
  - repeat split; auto. lra.
Qed.

Lemma seg_reinit P iv s k x d :
  seg P iv s k x [EInit (cx s) (ct s) d] None (init s (cx s) (ct s) d) k x.
Proof.
  constructor; simpl; auto.
  - now rewrite Nat.sub_diag.
  - symmetry. apply (dc_t _ _ _ _ _ HD).
  - now rewrite (dc_t _ _ _ _ _ HD), (dc_x _ _ _ _ _ HD).
Qed.

Lemma insd_obs_R P n iv : forall fuel s w x k tr r,
  ninv iv s k -> (k <= n)%nat -> sg * (ct s - tk n) <= 0 ->
  @insd_obs N S W X D rec_obs fuel t0 dt s w x (tk k) k = (tr, r) ->
  exists k' x', (k' <= n)%nat /\ seg P iv s k x tr iv s k' x' /\ ninv iv s k' /\
    (r = Fuel \/ (r = Ok (w, x', tk k', k') /\ sg * (ct s - tk k') <= eps)).
Proof.
  induction fuel as [|fuel IH]; intros s w x k tr r Hi Hk Hle H; cbn [insd_obs] in H.
  - injection H as <- <-. exists k, x. split; [auto|]. split; [apply seg_nil|]. auto.
  - cbn [dense_of d_t d_dt] in H. pose proof Hi as [[Hg1 Hg2] Hiv].
    destruct (@less_with_sign N (tk k) (ct s) (cdt s)) eqn:E.
    + apply less_R in E. rewrite Hg2 in E.
      unfold call_calc in H. cbn [dense_of d_calc] in H.
      apply bind_emit in H as (tr1 & H & ->). unfold rec_obs at 1 in H.
      apply bind_emit in H as (tr2 & H & ->).
      rewrite nofnat_R in H. rnum. fold (tk (Datatypes.S k)) in H.
      assert (Hkn : (Datatypes.S k <= n)%nat).
      { destruct (Nat.eq_dec k n) as [->|]; [|lia]. lra. }
      destruct iv as [[a b]|]; [|lra]. destruct Hiv as [-> Hiv].
      pose proof (tk_step k) as Hst.
      apply IH in H; auto; [|repeat split; auto; lra].
      destruct H as (k' & x' & K1 & K2 & K3 & K4).
      exists k', x'. split; [auto|]. split; [|auto].
      apply (seg_app P _ _ _ _ [ECalc (tk k) (calc s (tk k)); EObs (calc s (tk k)) (tk k)] _ _ _ _ _ _ _ _ _
               (seg_calc P a s k x Hiv ltac:(lra)) K2).
    + apply less_R_false in E. rewrite Hg2 in E. injection H as <- <-. exists k, x.
      split; [auto|]. split; [apply seg_nil|]. split; [auto|]. right. auto.
Qed.

Lemma ninv_step s k : good s -> sg * (ct s - tk k) <= eps ->
  ninv (Some (ct s, ct (step s))) (step s) k.
Proof. intros H1 H2. split; [now apply good_step|]. split; auto. lra. Qed.

Lemma insd_loop_R (P : R -> Prop) n : (forall T, sg * (T - tk n) <= 0 -> P T) ->
  forall fuel s w x k tr r iv,
  ninv iv s k -> (k <= n)%nat -> sg * (ct s - tk n) <= 0 ->
  @insd_loop N S W X D rec_obs fuel t0 (tk n) dt n s w x (tk k) k = (tr, r) ->
  exists k' iv' s' x', (k' <= n)%nat /\ seg P iv s k x tr iv' s' k' x' /\
    (r = Fuel \/ r = Ok (s', w, x', tk n) /\ k' = n /\ good s' /\ sg * (ct s' - tk n) <= 0).
Proof.
  intros HP. induction fuel as [|fuel IH]; intros s w x k tr r iv Hi Hk Hle H; cbn [insd_loop] in H.
  - injection H as <- <-. exists k, iv, s, x. split; [auto|]. split; [apply seg_nil|auto].
  - destruct (Nat.ltb k n) eqn:El.
    2:{ apply Nat.ltb_ge in El. assert (k = n) by lia. subst k.
        injection H as <- <-. exists n, iv, s, x. split; [auto|]. split; [apply seg_nil|].
        right. repeat split; auto; apply Hi. }
    apply Nat.ltb_lt in El.
    apply bind_inv in H as [(tr1 & [[[w1 x1] tm1] k1] & tr2 & H1 & H & ->)|(r1 & H1 & Hn & Hr)].
    2:{ apply (insd_obs_R P n iv) in H1; auto.
        destruct H1 as (k' & x' & K1 & K2 & K3 & [->|[-> _]]); [|now destruct (Hn _ eq_refl)].
        subst r. exists k', iv, s, x'. auto. }
    apply (insd_obs_R P n iv) in H1; auto.
    destruct H1 as (k' & x' & K1 & K2 & K3 & [Ea|[Ea Hle1]]); [discriminate|].
    injection Ea as -> -> -> ->. pose proof K3 as [Hg _].
    cbn [dense_of d_t d_dt d_step] in H.
    destruct (@less_with_sign N _ (tk n) (cdt s)) eqn:E1.
    + apply less_R in E1. rnum. destruct Hg as [Hg1 Hg2]. rewrite Hg2 in E1.
      destruct (good_step s (conj Hg1 Hg2)) as [Hg' Hadv].
      apply bind_emit in H as (tr3 & H & ->).
      apply (IH _ _ _ _ _ _ (Some (ct s, ct (step s)))) in H; auto; [|apply ninv_step; auto; now split|lra].
      destruct H as (k2 & iv2 & s2 & x2 & L1 & L2 & L3). exists k2, iv2, s2, x2. split; [auto|]. split; [|auto].
      apply (seg_app _ _ _ _ _ _ _ _ _ _ _ _ _ _ _ K2).
      refine (seg_app _ _ _ _ _ [_] _ _ _ _ _ _ _ _ _ (seg_step _ _ _ _ _ (conj Hg1 Hg2) _) L2).
      apply HP. lra.
    + destruct (@less_with_sign N (ct s) (tk n) (cdt s)) eqn:E2.
      * apply less_R in E2. pose proof Hg as [Hg1 Hg2]. rewrite Hg2 in E2.
        unfold reinit_to, call_init in H. cbn [dense_of d_t d_x d_init] in H. rewrite bind_assoc in H.
        apply bind_emit in H as (tr3 & H & ->). apply bind_emit in H as (tr4 & H & ->). rnum.
        pose proof (seg_reinit P iv s k' x' (tk n - ct s)) as Hre.
        set (s1 := init s (cx s) (ct s) (tk n - ct s)) in *.
        assert (Et : ct s1 = ct s) by apply (dc_t _ _ _ _ _ HD).
        assert (Ed : cdt s1 = tk n - ct s) by apply (dc_dt _ _ _ _ _ HD).
        assert (Hg3 : good s1) by (apply (good_init s); auto; lra).
        destruct (good_step s1 Hg3) as [Hg' Hadv]. rewrite Ed, Et in Hadv.
        apply (IH _ _ _ _ _ _ (Some (ct s1, ct (step s1)))) in H; auto; [|apply ninv_step; auto; now rewrite Et|lra].
        destruct H as (k2 & iv2 & s2 & x2 & L1 & L2 & L3). exists k2, iv2, s2, x2. split; [auto|]. split; [|auto].
        apply (seg_app _ _ _ _ _ _ _ _ _ _ _ _ _ _ _ K2).
        refine (seg_app _ _ _ _ _ [_] _ _ _ _ _ _ _ _ _ Hre _).
        refine (seg_app _ _ _ _ _ [_] _ _ _ _ _ _ _ _ _ (seg_step _ _ _ _ _ Hg3 _) L2).
        apply HP. lra.
      * rewrite bind_ret_l in H. apply (IH _ _ _ _ _ _ iv) in H; auto.
        destruct H as (k2 & iv2 & s2 & x2 & L1 & L2 & L3). exists k2, iv2, s2, x2. split; [auto|]. split; [|auto].
        apply (seg_app _ _ _ _ _ _ _ _ _ _ _ _ _ _ _ K2). exact L2.
Qed.

Lemma insd_final_R (P : R -> Prop) n : (forall T, sg * (T - tk n) <= eps -> P T) ->
  forall fuel s w x tr r iv,
  good s -> sg * (ct s - tk n) <= eps -> (sg = -1 -> sg * (ct s - tk n) <= 0) ->
  @insd_final N S W X D fuel (tk n) s w = (tr, r) ->
  exists iv' s', seg P iv s n x tr iv' s' n x /\
    (r = Fuel \/ r = Ok (s', w) /\ sg * (ct s' - tk n) <= eps /\ (sg = 1 -> tk n <= ct s')).
Proof.
  intros HP. pose proof sg_pm as Hsg.
  induction fuel as [|fuel IH]; intros s w x tr r iv Hg Hle Hb H; cbn [insd_final] in H.
  - injection H as <- <-. exists iv, s. split; [apply seg_nil|auto].
  - cbn [dense_of d_t d_dt d_step] in H. rnum. destruct (Rltb (ct s) (tk n)) eqn:E0.
    + apply Rltb_true in E0.
      assert (E1 : sg = 1) by (destruct Hsg as [|E]; auto; specialize (Hb E); rewrite E in Hb; lra).
      destruct (@less_with_sign N (tk n) _ (cdt s)) eqn:E2.
      * unfold reinit_to, call_init in H. cbn [dense_of d_t d_x d_init] in H.
        apply bind_emit in H as (tr3 & H & ->). apply bind_emit in H as (tr4 & H & ->). rnum.
        pose proof (seg_reinit P iv s n x (tk n - ct s)) as Hre.
        set (s1 := init s (cx s) (ct s) (tk n - ct s)) in *.
        assert (Et : ct s1 = ct s) by apply (dc_t _ _ _ _ _ HD).
        assert (Ed : cdt s1 = tk n - ct s) by apply (dc_dt _ _ _ _ _ HD).
        assert (Hg3 : good s1) by (apply (good_init s); auto; rewrite E1; lra).
        destruct (good_step s1 Hg3) as [Hg' Hadv]. rewrite Ed, Et in Hadv.
        apply (IH _ _ x _ _ (Some (ct s1, ct (step s1)))) in H; auto; [|lra|intros; lra].
        destruct H as (iv2 & s2 & L2 & L3). exists iv2, s2. split; [|auto].
        refine (seg_app _ _ _ _ _ [_] _ _ _ _ _ _ _ _ _ Hre _).
        refine (seg_app _ _ _ _ _ [_] _ _ _ _ _ _ _ _ _ (seg_step _ _ _ _ _ Hg3 _) L2).
        apply HP. lra.
      * apply less_R_false in E2. pose proof Hg as [Hg1 Hg2]. rewrite Hg2 in E2. rnum.
        rewrite bind_ret_l in H. apply bind_emit in H as (tr4 & H & ->).
        destruct (good_step s Hg) as [Hg' Hadv].
        apply (IH _ _ x _ _ (Some (ct s, ct (step s)))) in H; auto; [|lra|intros; lra].
        destruct H as (iv2 & s2 & L2 & L3). exists iv2, s2. split; [|auto].
        refine (seg_app _ _ _ _ _ [_] _ _ _ _ _ _ _ _ _ (seg_step _ _ _ _ _ Hg _) L2).
        apply HP. lra.
    + apply Rltb_false in E0. injection H as <- <-. exists iv, s. split; [apply seg_nil|].
      right. repeat split; auto.
Qed.

Lemma n_steps_dense_R n : forall fuel s w x tr r,
  @integrate_n_steps_dense N S W X D rec_obs fuel s w x t0 dt n = (tr, r) ->
  valid_calcs sg eps None tr /\
  Forall (fun p => sg * (snd p - tk n) <= eps) (dos_of tr) /\
  (exists b, adjacent sg t0 (dos_of tr) b) /\
  (exists rest, map tk (seq 0 (Datatypes.S n)) = map snd (obs_of tr) ++ rest) /\
  (forall s' w' x' tm, r = Ok (s', w', x', tm) ->
     tm = tk n /\
     map snd (obs_of tr) = map tk (seq 0 (Datatypes.S n)) /\
     exists tr1 xf tf, tr = EInit x t0 dt :: tr1 ++ [EObs xf (tk n)] /\ paired tr1 /\
       last (map fst (obs_of tr1)) x = x' /\
       last (reached_of tr) (x, t0) = (xf, tf) /\
       (0 < dt -> tk n <= tf <= tk n + eps)).
Proof.
  intros fuel s w x tr r H. unfold integrate_n_steps_dense, call_init in H.
  rewrite nofnat_R in H. rnum. fold (tk n) in H. apply bind_emit in H as (tr1 & H & ->).
  cbn [dense_of d_init] in H. set (s1 := init s x t0 dt) in *. cbn [dense_of d_x d_t] in H.
  assert (Et : ct s1 = t0) by apply (dc_t _ _ _ _ _ HD).
  assert (Ex : cx s1 = x) by apply (dc_x _ _ _ _ _ HD).
  assert (Ed : cdt s1 = dt) by apply (dc_dt _ _ _ _ _ HD).
  assert (E0 : tk 0 = t0) by (unfold tk; simpl; ring).
  assert (Hg1 : good s1) by (unfold good; rewrite Ed; auto).
  pose proof (tk_le 0 n (Nat.le_0_l n)) as Hn. rewrite E0 in Hn.
  set (P := fun T => sg * (T - tk n) <= eps).
  assert (HP1 : forall T, sg * (T - tk n) <= 0 -> P T) by (intros T HT; unfold P; lra).
  assert (Hpre : forall k', (k' <= n)%nat -> exists rest, map tk (seq 0 (Datatypes.S n)) = map tk (seq 0 (k' - 0)) ++ rest).
  { intros k' Hk'. exists (map tk (seq k' (Datatypes.S n - k'))). rewrite <- map_app, Nat.sub_0_r.
    replace (Datatypes.S n) with (k' + (Datatypes.S n - k'))%nat at 1 by lia. now rewrite seq_app. }
  change (dos_of (EInit x t0 dt :: tr1)) with (dos_of tr1).
  change (obs_of (EInit x t0 dt :: tr1)) with (obs_of tr1).
  change (reached_of (EInit x t0 dt :: tr1)) with (reached_of tr1).
  change (valid_calcs sg eps None (EInit x t0 dt :: tr1)) with (valid_calcs sg eps None tr1).
  rewrite <- E0 in H at 2.
  apply bind_inv in H as [(tr2 & [[[s2 w2] x2] tm] & tr3 & H1 & H & ->)|(r1 & H1 & Hnok & Hr)].
  2:{ apply (insd_loop_R P n HP1 _ _ _ _ _ _ _ None) in H1; [|split; [auto|rewrite Et, E0; lra]|lia|rewrite Et; lra].
      destruct H1 as (k' & iv' & s' & x' & Hk' & Hs & [->|(-> & _)]); [|now destruct (Hnok _ eq_refl)].
      subst r. destruct Hs. rewrite Et in *. repeat split; eauto; try discriminate.
      rewrite sg_obs0. auto. }
  apply (insd_loop_R P n HP1 _ _ _ _ _ _ _ None) in H1; [|split; [auto|rewrite Et, E0; lra]|lia|rewrite Et; lra].
  destruct H1 as (k' & iv' & s' & x' & Hk' & Hs & [Ea|(Ea & -> & Hg2 & Hle2)]); [discriminate|].
  injection Ea as -> -> -> ->.
  apply bind_inv in H as [(tr4 & [s3 w3] & tr5 & H2 & H & ->)|(r1 & H2 & Hnok & Hr)].
  2:{ apply (insd_final_R P n (fun T H => H) _ _ _ x' _ _ iv') in H2; auto; [|lra].
      destruct H2 as (iv3 & s3 & Hs2 & [->|(-> & _)]); [|now destruct (Hnok _ eq_refl)].
      pose proof (seg_app _ _ _ _ _ _ _ _ _ _ _ _ _ _ _ Hs Hs2) as Hs3.
      subst r. destruct Hs3. rewrite Et in *. repeat split; eauto; try discriminate.
      rewrite sg_obs0. auto. }
  apply (insd_final_R P n (fun T H => H) _ _ _ x' _ _ iv') in H2; auto; [|lra].
  destruct H2 as (iv3 & s4 & Hs2 & [Ea|(Ea & Hle3 & Hfw)]); [discriminate|]. injection Ea as -> ->.
  pose proof (seg_app _ _ _ _ _ _ _ _ _ _ _ _ _ _ _ Hs Hs2) as Hs3. clear Hs Hs2.
  apply bind_emit in H as (tr6 & H & ->). injection H as <- <-.
  rewrite app_assoc. destruct Hs3.
  change (carrier N) with R in *.
  rewrite !obs_of_app, !dos_of_app, !reached_of_app in *.
  change (obs_of [EObs (cx s4) (tk n)]) with [(cx s4, tk n)].
  change (dos_of [EObs (cx s4) (tk n)]) with (@nil (R * R)).
  change (reached_of [EObs (cx s4) (tk n)]) with (@nil (X * R)).
  rewrite !app_nil_r in *. rewrite Nat.sub_0_r in *.
  assert (Eobs : map snd ((obs_of tr2 ++ obs_of tr4) ++ [(cx s4, tk n)]) = map tk (seq 0 (Datatypes.S n))).
  { rewrite map_app, sg_obs0, <- Nat.add_1_r, seq_app, map_app. reflexivity. }
  split; [rewrite valid_app; split; [exact sg_valid0|exact I]|].
  split; [exact sg_bound0|]. split; [exists (ct s4); now rewrite <- Et|].
  split; [exists []; now rewrite app_nil_r, Eobs|].
  intros sf wf xf tmf [= <- <- <- <-]. split; [reflexivity|]. split; [exact Eobs|].
  exists (tr2 ++ tr4), (cx s4), (ct s4).
  split; [reflexivity|]. split; [exact sg_pair0|]. split; [rewrite obs_of_app; exact sg_x0|].
  split; [rewrite <- Ex, <- Et at 1; exact sg_reach0|].
  intros Hpos. assert (sg = 1) by (rewrite <- Hdir; destruct (dir_cases dt) as [[_ ->]|[? _]]; lra).
  split; [auto|]. rewrite H in Hle3. lra.
Qed.

(** ** integrate_const *)
Definition cinv (iv : option (R * R)) (s : S) (k : nat) : Prop :=
  good s /\ match iv with
            | None => eps < sg * (tk k - ct s)
            | Some (a, b) => b = ct s /\ - eps <= sg * (tk k - a)
            end.
Let anyR : R -> Prop := fun _ => True.

Lemma icd_obs_R iv : forall fuel s w x k tr r,
  cinv iv s k ->
  @icd_obs N S W X D rec_obs fuel t0 dt s w x (tk k) k = (tr, r) ->
  exists k' x', seg anyR iv s k x tr iv s k' x' /\ cinv iv s k' /\ dos_of tr = [] /\
    (r = Fuel \/ (r = Ok (w, x', tk k', k') /\ eps < sg * (tk k' - ct s))).
Proof.
  induction fuel as [|fuel IH]; intros s w x k tr r Hi H; cbn [icd_obs] in H.
  - injection H as <- <-. exists k, x. split; [apply seg_nil|]. auto.
  - cbn [dense_of d_t] in H. pose proof Hi as [Hg Hiv].
    destruct (@less_eq_with_sign N (tk k) (ct s) dt) eqn:E.
    + apply leq_R in E. rewrite Hdir in E.
      unfold call_calc in H. cbn [dense_of d_calc] in H.
      apply bind_emit in H as (tr1 & H & ->). unfold rec_obs at 1 in H.
      apply bind_emit in H as (tr2 & H & ->).
      rewrite nofnat_R in H. rnum. fold (tk (Datatypes.S k)) in H.
      destruct iv as [[a b]|]; [|lra]. destruct Hiv as [-> Hiv].
      pose proof (tk_step k) as Hst.
      apply IH in H; [|split; [auto|split; auto; lra]].
      destruct H as (k' & x' & K1 & K2 & K3 & K4).
      exists k', x'. split; [|auto].
      apply (seg_app anyR _ _ _ _ [ECalc (tk k) (calc s (tk k)); EObs (calc s (tk k)) (tk k)] _ _ _ _ _ _ _ _ _
               (seg_calc anyR a s k x Hiv ltac:(lra)) K1).
    + apply leq_R_false in E. rewrite Hdir in E. injection H as <- <-. exists k, x.
      split; [apply seg_nil|]. split; [auto|]. split; [auto|]. right. split; auto.
Qed.

Lemma cinv_step s k : good s -> sg * (ct s - tk k) <= eps ->
  cinv (Some (ct s, ct (step s))) (step s) k.
Proof. intros H1 H2. split; [now apply good_step|]. split; auto. lra. Qed.

Lemma icd_steps_R k x : forall fuel iv s w real tr r,
  cinv iv s k ->
  @icd_steps N S W X D fuel dt (tk k) s w real = (tr, r) ->
  exists iv' s', seg anyR iv s k x tr iv' s' k x /\ cinv iv' s' k /\
    (r = Fuel \/ r = Ok (s', w, (real + length (dos_of tr))%nat)).
Proof.
  induction fuel as [|fuel IH]; intros iv s w real tr r Hi H; cbn [icd_steps] in H.
  - injection H as <- <-. exists iv, s. split; [apply seg_nil|]. auto.
  - cbn [dense_of d_t d_step] in H. pose proof Hi as [Hg _].
    destruct (@less_eq_with_sign N (ct s) (tk k) dt) eqn:E.
    + apply leq_R in E. rewrite Hdir in E.
      apply bind_emit in H as (tr2 & H & ->).
      apply (IH (Some (ct s, ct (step s)))) in H; [|now apply cinv_step].
      destruct H as (iv' & s' & K1 & K2 & K3). exists iv', s'. split; [|split; auto].
      * refine (seg_app _ _ _ _ _ [_] _ _ _ _ _ _ _ _ _ (seg_step _ _ _ _ _ Hg I) K1).
      * destruct K3 as [->| ->]; auto. right. cbn [dos_of flat_map app length].
        rewrite <- plus_n_Sm. reflexivity.
    + injection H as <- <-. exists iv, s. split; [apply seg_nil|]. split; auto. right. simpl. now rewrite Nat.add_0_r.
Qed.

Lemma icd_loop_R tend : forall fuel iv s w x k real tr r,
  cinv iv s k ->
  @icd_loop N S W X D rec_obs fuel t0 tend dt s w x (tk k) k real = (tr, r) ->
  exists tr1 tr2 iv' s' k' x', tr = tr1 ++ tr2 /\ seg anyR iv s k x tr1 iv' s' k' x' /\
    (r = Fuel /\ tr2 = [] \/
     exists x2, r = Ok (s', w, x2, (real + length (dos_of tr1))%nat) /\ eps < sg * (tk (Datatypes.S k') - tend) /\
       (tr2 = [] /\ x2 = x' /\ eps < sg * (tk k' - tend) \/
        tr2 = [ECalc (tk k') x2; EObs x2 (tk k')] /\ sg * (tk k' - tend) <= eps)).
Proof.
  induction fuel as [|fuel IH]; intros iv s w x k real tr r Hi H; cbn [icd_loop] in H.
  - injection H as <- <-. exists [], [], iv, s, k, x. split; [auto|]. split; [apply seg_nil|]. auto.
  - assert (Etk : (tk k + dt)%R = tk (Datatypes.S k)) by (unfold tk; rewrite S_INR; ring).
    destruct (@less_eq_with_sign N _ tend dt) eqn:E0.
    + clear E0.
      apply bind_inv in H as [(tr1 & [[[w1 x1] tm1] k1] & tr2 & H1 & H & ->)|(r1 & H1 & Hn & Hr)].
      2:{ apply icd_obs_R with (iv := iv) in H1; auto.
          destruct H1 as (k' & x' & K1 & K2 & K3 & [->|[-> _]]); [|now destruct (Hn _ eq_refl)].
          subst r. exists tr, [], iv, s, k', x'. rewrite app_nil_r. auto. }
      apply icd_obs_R with (iv := iv) in H1; auto.
      destruct H1 as (k' & x' & K1 & K2 & K3 & [Ea|[Ea Hlt]]); [discriminate|].
      injection Ea as -> -> -> ->. pose proof K2 as [Hg Hiv].
      (* the middle part: some steps *)
      apply bind_inv in H as [(trm & [[s2 w2] real2] & tr3 & Hm & H & ->)|(r1 & Hm & Hn & Hr)].
      * assert (Hmid : w2 = w /\ real2 = (real + length (dos_of trm))%nat /\ exists iv2,
                  seg anyR iv s k' x' trm iv2 s2 k' x' /\ cinv iv2 s2 k').
        { cbn [dense_of d_t d_dt d_step] in Hm. destruct (@less_with_sign N _ tend (cdt s)) in Hm.
          - apply (icd_steps_R k' x' _ iv) in Hm; auto.
            destruct Hm as (iv2 & s3 & G1 & G2 & [Ea|Ea]); [discriminate|]. injection Ea as -> -> ->.
            split; auto. split; auto. exists iv2. auto.
          - destruct (@less_with_sign N (ct s) tend (cdt s)) eqn:E2 in Hm.
            + apply less_R in E2. pose proof Hg as [Hg1 Hg2]. rewrite Hg2 in E2.
              unfold reinit_to, call_init in Hm. cbn [dense_of d_t d_x d_init] in Hm.
              apply bind_emit in Hm as (tr4 & Hm & ->). apply bind_emit in Hm as (tr5 & Hm & ->).
              injection Hm as <- <- <- <-. rnum.
              pose proof (seg_reinit anyR iv s k' x' (tend - ct s)) as Hre.
              set (s1 := init s (cx s) (ct s) (tend - ct s)) in *.
              assert (Et : ct s1 = ct s) by apply (dc_t _ _ _ _ _ HD).
              assert (Hg3 : good s1) by (apply (good_init s); auto; lra).
              split; auto. split; [simpl; now rewrite Nat.add_1_r|].
              exists (Some (ct s1, ct (step s1))). split.
              * refine (seg_app _ _ _ _ _ [_] _ _ _ _ _ _ _ _ _ Hre (seg_step _ _ _ _ _ Hg3 I)).
              * apply cinv_step; auto. rewrite Et. lra.
            + injection Hm as <- <- <- <-. split; auto. split; [simpl; now rewrite Nat.add_0_r|].
              exists iv. split; [apply seg_nil|auto]. }
        destruct Hmid as (-> & -> & iv2 & G1 & G2).
        apply (IH iv2) in H; auto.
        destruct H as (ta & tb & iv3 & s3 & k3 & x3 & -> & L2 & L3).
        exists (tr1 ++ trm ++ ta), tb, iv3, s3, k3, x3. split; [now rewrite !app_assoc|]. split.
        -- apply (seg_app _ _ _ _ _ _ _ _ _ _ _ _ _ _ _ K1).
           apply (seg_app _ _ _ _ _ _ _ _ _ _ _ _ _ _ _ G1 L2).
        -- destruct L3 as [L3|(x4 & -> & L3)]; auto. right. exists x4. split; auto.
           rewrite !dos_of_app, K3, !app_length. cbn [length app]. do 2 f_equal. lia.
      * (* the middle part runs out of fuel *)
        assert (Hmid : r1 = Fuel /\ exists iv2 s2, seg anyR iv s k' x' tr2 iv2 s2 k' x').
        { cbn [dense_of d_t d_dt d_step] in Hm. destruct (@less_with_sign N _ tend (cdt s)) in Hm.
          - apply (icd_steps_R k' x' _ iv) in Hm; auto.
            destruct Hm as (iv2 & s3 & G1 & G2 & [->| ->]); [|now destruct (Hn _ eq_refl)].
            split; auto. exists iv2, s3. auto.
          - destruct (@less_with_sign N (ct s) tend (cdt s)) in Hm; injection Hm as <- <-; now destruct (Hn _ eq_refl). }
        destruct Hmid as (-> & iv2 & s2 & G1). subst r.
        exists (tr1 ++ tr2), [], iv2, s2, k', x'. split; [now rewrite app_nil_r|]. split; [|auto].
        apply (seg_app _ _ _ _ _ _ _ _ _ _ _ _ _ _ _ K1 G1).
    + apply leq_R_false in E0. rewrite Hdir in E0. rnum. rewrite Etk in E0.
      destruct (@less_eq_with_sign N (tk k) tend dt) eqn:E1.
      * apply leq_R in E1. rewrite Hdir in E1.
        unfold call_calc in H. apply bind_emit in H as (tr1 & H & ->). unfold rec_obs in H.
        apply bind_emit in H as (tr2 & H & ->). injection H as <- <-.
        exists [], [ECalc (tk k) (calc s (tk k)); EObs (calc s (tk k)) (tk k)], iv, s, k, x.
        split; [reflexivity|]. split; [apply seg_nil|]. right. exists (calc s (tk k)).
        split; [simpl; now rewrite Nat.add_0_r|]. split; [lra|]. right. auto.
      * apply leq_R_false in E1. rewrite Hdir in E1. injection H as <- <-.
        exists [], [], iv, s, k, x. split; [reflexivity|]. split; [apply seg_nil|]. right. exists x.
        split; [simpl; now rewrite Nat.add_0_r|]. split; [lra|]. left. repeat split; auto.
Qed.

Lemma const_dense_R : eps < Rabs dt -> forall fuel s w x tend tr r,
  @integrate_const_dense N S W X D rec_obs fuel s w x t0 tend dt = (tr, r) ->
  exists m tr1 tr2, tr = EInit x t0 dt :: EObs x t0 :: tr1 ++ tr2 /\
    map snd (obs_of tr) = map tk (seq 0 m) /\
    valid_calcs sg eps None tr1 /\ paired (tr1 ++ tr2) /\
    (tr2 = [] \/ exists k y, tr2 = [ECalc (tk k) y; EObs y (tk k)]) /\
    (exists b, adjacent sg t0 (dos_of tr) b) /\
    (forall s' w' x' n, r = Ok (s', w', x', n) ->
      n = length (dos_of tr) /\ last (map fst (obs_of tr)) x = x' /\
      (forall j, sg * (tk j - tend) <= eps -> (j < Nat.max 1 m)%nat)).
Proof.
  intros Habs fuel s w x tend tr r H. unfold integrate_const_dense, call_init in H.
  apply bind_emit in H as (tr1 & H & ->). unfold rec_obs at 1 in H. apply bind_emit in H as (tr2 & H & ->).
  cbn [dense_of d_init] in H. set (s1 := init s x t0 dt) in *.
  assert (Et : ct s1 = t0) by apply (dc_t _ _ _ _ _ HD).
  assert (Ed : cdt s1 = dt) by apply (dc_dt _ _ _ _ _ HD).
  assert (E0 : tk 0 = t0) by (unfold tk; simpl; ring).
  assert (E1 : (t0 + dt)%R = tk 1) by (unfold tk; simpl; ring).
  rnum. rewrite E1 in H.
  apply (icd_loop_R tend _ None) in H.
  2:{ split; [unfold good; rewrite Ed; auto|]. rewrite Et. rewrite <- (dir_abs dt), Hdir in Habs.
      rewrite <- E1. replace (t0 + dt - t0) with dt by ring. exact Habs. }
  destruct H as (ta & tb & iv' & s' & k' & x' & -> & [G1 G2 G3 G4 G5 G6 G7 G8 G9] & Hr).
  change (carrier N) with R in *.
  assert (Eo : forall l, map snd (obs_of (EInit x t0 dt :: EObs x t0 :: ta ++ l)) = map tk (seq 0 k') ++ map snd (obs_of l)).
  { intros l. change (obs_of (EInit x t0 dt :: EObs x t0 :: ta ++ l)) with ((x, t0) :: obs_of (ta ++ l)).
    rewrite obs_of_app. cbn [map snd]. rewrite map_app, G2, <- E0.
    destruct k' as [|k0]; [lia|]. cbn [Nat.sub]. rewrite Nat.sub_0_r. reflexivity. }
  assert (Ea : forall l, dos_of l = [] -> dos_of (EInit x t0 dt :: EObs x t0 :: ta ++ l) = dos_of ta).
  { intros l Hl. change (dos_of (EInit x t0 dt :: EObs x t0 :: ta ++ l)) with (dos_of (ta ++ l)).
    rewrite dos_of_app, Hl. apply app_nil_r. }
  assert (Hj : forall j m, (k' <= m)%nat -> eps < sg * (tk m - tend) -> sg * (tk j - tend) <= eps -> (j < m)%nat).
  { intros j m Hm Hlt Hle. destruct (Nat.lt_ge_cases j m) as [|Hge]; auto. pose proof (tk_le m j Hge). lra. }
  destruct Hr as [[-> ->]|(x2 & -> & Hend & [(-> & -> & Hk)|(-> & Hk)])].
  - exists k', ta, []. split; [reflexivity|]. split; [rewrite Eo; simpl; now rewrite app_nil_r|].
    split; [auto|]. split; [now rewrite app_nil_r|]. split; [auto|].
    split; [exists (ct s'); rewrite Ea; auto; now rewrite <- Et|]. discriminate.
  - exists k', ta, []. split; [reflexivity|]. split; [rewrite Eo; simpl; now rewrite app_nil_r|].
    split; [auto|]. split; [now rewrite app_nil_r|]. split; [auto|].
    split; [exists (ct s'); rewrite Ea; auto; now rewrite <- Et|].
    intros s2 w2 x2 n [= <- <- <- <-]. split; [now rewrite Ea|]. split.
    + rewrite app_nil_r. change (obs_of (EInit x t0 dt :: EObs x t0 :: ta)) with ((x, t0) :: obs_of ta).
      cbn [map fst]. now rewrite last_cons.
    + intros j Hjl. pose proof (Hj j k' (le_n _) Hk Hjl). lia.
  - exists (Datatypes.S k'), ta, [ECalc (tk k') x2; EObs x2 (tk k')]. split; [reflexivity|].
    split; [rewrite Eo, <- Nat.add_1_r, seq_app, map_app; reflexivity|].
    split; [auto|]. split; [apply cto_app; auto; simpl; auto|]. split; [eauto|].
    split; [exists (ct s'); rewrite Ea; auto; now rewrite <- Et|].
    intros s2 w2 x3 n [= <- <- <- <-]. split; [now rewrite Ea|]. split.
    + change (obs_of (EInit x t0 dt :: EObs x t0 :: ta ++ [ECalc (tk k') x2; EObs x2 (tk k')]))
        with ((x, t0) :: obs_of (ta ++ [ECalc (tk k') x2; EObs x2 (tk k')])).
      rewrite obs_of_app. cbn [map fst]. rewrite map_app, app_comm_cons. apply last_last.
    + intros j Hjl. pose proof (Hj j (Datatypes.S k') ltac:(lia) Hend Hjl). lia.
Qed.
End NSteps.
End R.

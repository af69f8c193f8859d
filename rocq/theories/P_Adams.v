(** Rotating buffer and Adams steppers. *)
From Coq Require Import ZArith List Bool Arith Lia FunctionalExtensionality.
From Verif Require Import M_Num M_Run M_RK M_Midpoint M_Adams S_Adams P_BS.
Import ListNotations.
Local Open Scope res_scope.

Section Rot.
Context {A : Type}.
Variable dim : nat.
Hypothesis Hd : (0 < dim)%nat.
Notation wf := (rb_wf (A := A) dim).

Lemma rb_index_lt (b : rb A) i : (rb_index dim b i < dim)%nat.
Proof. unfold rb_index. apply Nat.mod_upper_bound. lia. Qed.

Lemma rotate_wf b : wf b -> wf (rb_rotate dim b).
Proof. intros [H1 H2]. split; [exact H1|]. cbn. destruct (rb_first b); lia. Qed.

Lemma rotate_index b i : wf b -> rb_index dim (rb_rotate dim b) (S i) = rb_index dim b i.
Proof.
  intros [_ H]. unfold rb_index, rb_rotate. cbn [rb_first]. destruct (rb_first b) as [|f].
  - replace (S i + (dim - 1)) with (i + 1 * dim) by lia. rewrite Nat.mod_add by lia. f_equal. lia.
  - f_equal. lia.
Qed.

Lemma index_inj b i j : wf b -> (i < dim)%nat -> (j < dim)%nat -> rb_index dim b i = rb_index dim b j -> i = j.
Proof.
  intros [_ H] Hi Hj E. unfold rb_index in E.
  assert (G : forall i, (i < dim)%nat -> (i + rb_first b) mod dim = if Nat.ltb (i + rb_first b) dim then i + rb_first b else i + rb_first b - dim).
  { intros k Hk. destruct (Nat.ltb_spec (k + rb_first b) dim) as [Q|Q]; [now apply Nat.mod_small|].
    replace (k + rb_first b) with ((k + rb_first b - dim) + 1 * dim) at 1 by lia. rewrite Nat.mod_add by lia. apply Nat.mod_small. lia. }
  rewrite (G i Hi), (G j Hj) in E.
  destruct (Nat.ltb_spec (i + rb_first b) dim), (Nat.ltb_spec (j + rb_first b) dim); lia.
Qed.

Lemma vset_ok (l : list A) : forall k a, (k < length l)%nat -> exists l', vset l k a = Ok l' /\ length l' = length l
  /\ nth_error l' k = Some a /\ forall j, j <> k -> nth_error l' j = nth_error l j.
Proof.
  induction l as [|b l IH]; intros k a Hk; [simpl in Hk; lia|]. destruct k as [|k].
  - exists (a :: l). cbn. repeat split. intros [|j] Hj; [congruence|reflexivity].
  - destruct (IH k a ltac:(simpl in Hk; lia)) as (l' & E & L & G1 & G2). exists (b :: l'). cbn. rewrite E. cbn.
    split; [reflexivity|]. split; [now rewrite L|]. split; [exact G1|]. intros [|j] Hj; [reflexivity|]. apply G2. lia.
Qed.

Lemma get_ok b i : wf b -> exists a, rb_get dim b i = Ok a.
Proof.
  intros [H1 H2]. unfold rb_get, vget. pose proof (rb_index_lt b i) as L.
  destruct (nth_error (rb_data b) (rb_index dim b i)) as [a|] eqn:E; [now exists a|].
  apply nth_error_None in E. lia.
Qed.

(** Overwriting slot 0. *)
Lemma set0_ok b a : wf b -> exists b', rb_set dim b 0 a = Ok b' /\ wf b' /\ rb_get dim b' 0 = Ok a
  /\ forall i, (0 < i < dim)%nat -> rb_get dim b' i = rb_get dim b i.
Proof.
  intros Hb. pose proof Hb as [H1 H2]. destruct (vset_ok (rb_data b) (rb_index dim b 0) a) as (l' & E & L & G1 & G2).
  { rewrite H1. apply rb_index_lt. }
  exists (mkRb l' (rb_first b)). unfold rb_set. rewrite E. cbn [rbind]. split; [reflexivity|].
  split; [split; [cbn; lia|exact H2]|]. split.
  - unfold rb_get, vget. cbn [rb_data]. change (rb_index dim (mkRb l' (rb_first b)) 0) with (rb_index dim b 0). now rewrite G1.
  - intros i Hi. unfold rb_get, vget. cbn [rb_data]. change (rb_index dim (mkRb l' (rb_first b)) i) with (rb_index dim b i).
    rewrite G2; [reflexivity|]. intro Q. apply (index_inj b) in Q; [lia|exact Hb|lia|lia].
Qed.

(** Rotating and overwriting slot 0 is pushing onto the queue. *)
Lemma push_ok b a : wf b -> exists b', rb_set dim (rb_rotate dim b) 0 a = Ok b' /\ wf b' /\ rb_get dim b' 0 = Ok a
  /\ forall i, (S i < dim)%nat -> rb_get dim b' (S i) = rb_get dim b i.
Proof.
  intro Hb. destruct (set0_ok (rb_rotate dim b) a (rotate_wf b Hb)) as (b' & E & W & G0 & GS).
  exists b'. split; [exact E|]. split; [exact W|]. split; [exact G0|]. intros i Hi. rewrite GS by lia.
  unfold rb_get. cbn [rb_data rb_rotate]. now rewrite (rotate_index b i Hb).
Qed.

(** The buffer holds the first entries of [l], latest first. *)
Definition holds (b : rb A) (l : list A) : Prop := forall i a, (i < dim)%nat -> nth_error l i = Some a -> rb_get dim b i = Ok a.
Lemma holds_push b l a : wf b -> holds b l -> exists b', rb_set dim (rb_rotate dim b) 0 a = Ok b' /\ wf b' /\ holds b' (a :: l).
Proof.
  intros Hb Hl. destruct (push_ok b a Hb) as (b' & E & W & G0 & GS). exists b'. split; [exact E|]. split; [exact W|].
  intros [|i] c Hi Hc; [injection Hc as <-; exact G0|]. rewrite GS by exact Hi. apply Hl; [lia|exact Hc].
Qed.
End Rot.

Section AB.
Context {N : Num} {I IS : Type}.
Variable steps : nat.
Hypothesis Hs : (0 < steps)%nat.

Lemma adams_sum_lmm dt coef (x : vec N I) ds : adams_sum dt coef x ds = lmm dt coef x ds.
Proof.
  apply functional_extensionality. intro j. unfold adams_sum, lmm, scale_sum.
  generalize (nmul (nofZ 1) (x j)). revert ds. induction coef as [|c coef IH]; intros [|d ds] a; cbn [combine map fold_left fst snd]; try reflexivity.
  apply IH.
Qed.

Lemma rb_gets_holds (b : rb (vec N I)) l : holds steps b l -> forall n i, (i + n <= steps)%nat -> (i + n <= length l)%nat ->
  rb_gets steps b i n = Ok (firstn n (skipn i l)).
Proof.
  intro Hl. induction n as [|n IH]; intros i H1 H2; cbn [rb_gets]; [reflexivity|].
  destruct (nth_error l i) as [a|] eqn:E; [|apply nth_error_None in E; lia].
  rewrite (Hl i a ltac:(lia) E). cbn [rbind]. rewrite IH by lia. cbn [rbind]. do 2 f_equal.
  clear -E. revert i E. induction l as [|c l IH]; intros [|i] E; cbn in *; try discriminate.
  - now injection E as <-.
  - now apply IH.
Qed.

(** [ab_hist s l]: the object is well formed, the buffer holds the derivatives [l] of the calls since the
    start (latest first), and the counter knows whether they suffice. *)
Definition ab_hist (s : ab N I IS) (l : list (vec N I)) : Prop :=
  rb_wf steps (ab_buf s) /\ holds steps (ab_buf s) l
  /\ (if Nat.ltb (ab_init s + 1) steps then ab_init s = length l else (steps - 1 <= length l)%nat).

Variable istep : (vec N I -> N -> vec N I) -> IS -> bool -> vec N I -> vec N I -> N -> N -> res (IS * vec N I).

(** One call. *)
Lemma ab_call sys io s l x t dt : ab_hist s l ->
  if Nat.ltb (ab_init s + 1) steps then
    match istep sys (ab_is s) io x (sys x t) t dt with
    | Ok (is', out) => exists s', ab_do_step steps sys (istep sys) false io s x t dt = Ok (s', out, [(x, t)])
        /\ ab_hist s' (sys x t :: l) /\ ab_init s' = S (ab_init s) /\ ab_is s' = is'
    | Exc e => ab_do_step steps sys (istep sys) false io s x t dt = Exc e
    | UB => ab_do_step steps sys (istep sys) false io s x t dt = UB
    | Fuel => ab_do_step steps sys (istep sys) false io s x t dt = Fuel
    end
  else exists s', ab_do_step steps sys (istep sys) false io s x t dt
        = Ok (s', lmm dt (ab_coef steps) x (sys x t :: firstn (steps - 1) l), [(x, t)])
        /\ ab_hist s' (sys x t :: l) /\ ab_init s' = ab_init s /\ ab_is s' = ab_is s.
Proof.
  intros (W & Hl & Hc). unfold ab_do_step. destruct (Nat.ltb_spec (ab_init s + 1) steps) as [Q|Q].
  - assert (E : exists b', rb_set steps (if Nat.eqb (ab_init s) 0 then ab_buf s else rb_rotate steps (ab_buf s)) 0 (sys x t) = Ok b'
       /\ rb_wf steps b' /\ holds steps b' (sys x t :: l)).
    { destruct (Nat.eqb_spec (ab_init s) 0) as [Z|Z]; [|now apply holds_push].
      destruct (set0_ok steps Hs (ab_buf s) (sys x t) W) as (b' & E & W' & G0 & _). exists b'. split; [exact E|]. split; [exact W'|].
      destruct l; [|simpl in Hc; lia]. intros [|i] c Hi H; [now injection H as <-|destruct i; discriminate]. }
    destruct E as (b' & E & W' & H'). rewrite E. cbn [rbind].
    destruct (istep sys (ab_is s) io x (sys x t) t dt) as [[is' out]| | |]; cbn [rbind]; try reflexivity.
    eexists. split; [reflexivity|]. split; [|split; reflexivity]. split; [exact W'|]. split; [exact H'|]. cbn [ab_init length].
    destruct (Nat.ltb_spec (S (ab_init s) + 1) steps); lia.
  - destruct (holds_push steps Hs (ab_buf s) l (sys x t) W Hl) as (b' & E & W' & H'). rewrite E. cbn [rbind].
    rewrite (rb_gets_holds b' (sys x t :: l) H' steps 0) by (cbn [length]; lia). cbn [rbind skipn]. rewrite adams_sum_lmm.
    replace (firstn steps (sys x t :: l)) with (sys x t :: firstn (steps - 1) l) by (destruct steps; [lia|]; cbn; now rewrite Nat.sub_0_r).
    eexists. split; [reflexivity|]. split; [|split; reflexivity]. split; [exact W'|]. split; [exact H'|]. cbn [ab_init length].
    destruct (Nat.ltb_spec (ab_init s + 1) steps); lia.
Qed.

Lemma ab_call_hist sys io s l x t dt s' out log : ab_hist s l ->
  ab_do_step steps sys (istep sys) false io s x t dt = Ok (s', out, log) -> ab_hist s' (sys x t :: l) /\ log = [(x, t)].
Proof.
  intros H E. pose proof (ab_call sys io s l x t dt H) as C. destruct (Nat.ltb (ab_init s + 1) steps).
  - destruct (istep sys (ab_is s) io x (sys x t) t dt) as [[is' o]| | |]; try (rewrite E in C; discriminate C).
    destruct C as (s2 & E2 & H2 & _). rewrite E in E2. injection E2 as <- _ <-. now split.
  - destruct C as (s2 & E2 & H2 & _). rewrite E in E2. injection E2 as <- _ <-. now split.
Qed.

Lemma ab_trace_hist s l calls s' : ab_hist s l -> ab_trace steps istep s calls s' -> ab_hist s' (map c_dx calls ++ l).
Proof.
  intros H T. induction T as [|c calls s1 s2 out log T IH E]; [exact H|]. cbn [map app]. apply (ab_call_hist _ _ _ _ _ _ _ _ _ _ IH E).
Qed.

Lemma ab_reset_hist s : rb_wf steps (ab_buf s) -> ab_hist (ab_reset s) [].
Proof.
  intro W. split; [exact W|]. split; [intros i a _ H; destruct i; discriminate|]. cbn [ab_reset ab_init length].
  destruct (Nat.ltb_spec (0 + 1) steps); lia.
Qed.

Lemma ab_init_enough s l : ab_hist s l -> (steps - 1 <= length l)%nat -> Nat.ltb (ab_init s + 1) steps = false.
Proof. intros (_ & _ & H) L. destruct (Nat.ltb_spec (ab_init s + 1) steps); [lia|reflexivity]. Qed.

(** initialize: the starting points and their derivatives. *)
Inductive start_points {ES} (estep : ES -> vec N I -> vec N I -> N -> N -> res (ES * vec N I)) sys dt : ES -> vec N I -> N -> list (vec N I * N) -> ES -> vec N I -> N -> Prop :=
| sp_nil e x t : start_points estep sys dt e x t [] e x t
| sp_cons e x t e1 x1 r e' x' t' : estep e x (sys x t) t dt = Ok (e1, x1) ->
    start_points estep sys dt e1 x1 (nadd t dt) r e' x' t' -> start_points estep sys dt e x t ((x, t) :: r) e' x' t'.

Lemma init_loop_ok {ES} (estep : ES -> vec N I -> vec N I -> N -> N -> res (ES * vec N I)) sys dt :
  forall n i e b x t l e' b' x' t', rb_wf steps b -> holds steps b l -> i = length l ->
  ab_init_loop steps sys estep n i e b x t dt = Ok (e', b', x', t') ->
  exists pts, start_points estep sys dt e x t pts e' x' t' /\ length pts = n
    /\ rb_wf steps b' /\ holds steps b' (rev (map (fun p => sys (fst p) (snd p)) pts) ++ l).
Proof.
  induction n as [|n IH]; intros i e b x t l e' b' x' t' W Hl Hi E; cbn [ab_init_loop] in E.
  - injection E as <- <- <- <-. exists []. split; [constructor|]. auto.
  - assert (P : exists b1, rb_set steps (if Nat.eqb i 0 then b else rb_rotate steps b) 0 (sys x t) = Ok b1
       /\ rb_wf steps b1 /\ holds steps b1 (sys x t :: l)).
    { destruct (Nat.eqb_spec i 0) as [Z|Z]; [|now apply holds_push].
      destruct (set0_ok steps Hs b (sys x t) W) as (b1 & E1 & W' & G0 & _). exists b1. split; [exact E1|]. split; [exact W'|].
      destruct l; [|simpl in Hi; lia]. intros [|j] c Hj H; [now injection H as <-|destruct j; discriminate]. }
    destruct P as (b1 & E1 & W1 & H1). rewrite E1 in E. cbn [rbind] in E.
    destruct (estep e x (sys x t) t dt) as [[e1 x1]| | |] eqn:Ee; cbn [rbind] in E; try discriminate E.
    destruct (IH (S i) e1 b1 x1 (nadd t dt) (sys x t :: l) e' b' x' t' W1 H1 ltac:(simpl; lia) E) as (pts & P1 & P2 & P3 & P4).
    exists ((x, t) :: pts). split; [econstructor; [exact Ee|exact P1]|]. split; [simpl; lia|]. split; [exact P3|].
    cbn [map rev fst snd]. now rewrite <- app_assoc.
Qed.

Lemma ab_initialize_hist {ES} (estep : ES -> vec N I -> vec N I -> N -> N -> res (ES * vec N I)) sys e s x t dt e' s' x' t' :
  rb_wf steps (ab_buf s) -> ab_initialize steps sys estep e s x t dt = Ok (e', s', x', t') ->
  exists pts, start_points estep sys dt e x t pts e' x' t' /\ length pts = (steps - 1)%nat
    /\ ab_hist s' (rev (map (fun p => sys (fst p) (snd p)) pts)).
Proof.
  intros W E. unfold ab_initialize in E.
  destruct (ab_init_loop steps sys estep (steps - 1) 0 e (ab_buf s) x t dt) as [[[[e1 b] x1] t1]| | |] eqn:El; cbn [rbind] in E; try discriminate E.
  injection E as <- <- <- <-.
  destruct (init_loop_ok estep sys dt (steps - 1) 0 e (ab_buf s) x t [] e1 b x1 t1 W) as (pts & P1 & P2 & P3 & P4); [intros i a _ H; destruct i; discriminate|reflexivity|exact El|].
  rewrite app_nil_r in P4. exists pts. split; [exact P1|]. split; [exact P2|]. split; [exact P3|]. split; [exact P4|]. cbn [ab_init].
  destruct (Nat.ltb_spec (steps + 1) steps); [lia|]. rewrite rev_length, map_length. lia.
Qed.

(** adams_bashforth_moulton. *)
Lemma abm_trace_ab s calls s' : abm_trace steps istep s calls s' -> exists calls', ab_trace steps istep (abm_ab s) calls' (abm_ab s')
  /\ map c_dx calls' = map c_dx calls.
Proof.
  induction 1 as [|c calls s1 s2 out log T (calls' & IH & IHm) E].
  - exists []. split; [constructor|reflexivity].
  - unfold abm_do_step in E. destruct (ab_is_initialized steps (abm_ab s1)).
    + destruct (ab_do_step steps (c_sys c) (istep (c_sys c)) false false (abm_ab s1) (c_x c) (c_t c) (c_dt c)) as [[[a p] l1]| | |] eqn:Ea;
        cbn [rbind] in E; try discriminate E.
      destruct (am_do_step steps (c_sys c) (c_x c) p (nadd (c_t c) (c_dt c)) (c_dt c) (ab_buf a)) as [[[d o] l2]| | |]; cbn [rbind] in E; try discriminate E.
      injection E as <- _ _. exists (mkCall (c_sys c) (c_x c) (c_t c) (c_dt c) false :: calls'). split; [|cbn; unfold c_dx in *; cbn; now rewrite IHm].
      econstructor; [exact IH|]. exact Ea.
    + destruct (ab_do_step steps (c_sys c) (istep (c_sys c)) false (c_io c) (abm_ab s1) (c_x c) (c_t c) (c_dt c)) as [[[a p] l1]| | |] eqn:Ea;
        cbn [rbind] in E; try discriminate E.
      injection E as <- _ _. exists (c :: calls'). split; [|cbn; now rewrite IHm]. econstructor; [exact IH|exact Ea].
Qed.

Lemma abm_step sys io s l x t dt : ab_hist (abm_ab s) l -> (steps - 1 <= length l)%nat ->
  let p := lmm dt (ab_coef steps) x (sys x t :: firstn (steps - 1) l) in
  exists s', abm_do_step steps sys (istep sys) false io s x t dt
   = Ok (s', lmm dt (am_coef steps) x (sys p (nadd t dt) :: firstn (steps - 1) (sys x t :: l)), [(x, t); (p, nadd t dt)])
   /\ ab_hist (abm_ab s') (sys x t :: l).
Proof.
  intros H L p. unfold abm_do_step, ab_is_initialized.
  pose proof (ab_init_enough _ _ H L) as Q. apply Nat.ltb_ge in Q.
  destruct (Nat.leb_spec (steps - 1) (ab_init (abm_ab s))) as [_|Q2]; [|lia].
  pose proof (ab_call sys false (abm_ab s) l x t dt H) as C. rewrite (ab_init_enough _ _ H L) in C.
  destruct C as (a & E & Ha & _ & _). rewrite E. cbn [rbind]. unfold am_do_step.
  rewrite (rb_gets_holds (ab_buf a) (sys x t :: l) (proj1 (proj2 Ha)) (steps - 1) 0) by (cbn [length]; lia).
  cbn [rbind skipn]. rewrite adams_sum_lmm. eexists. split; [reflexivity|exact Ha].
Qed.
End AB.

(** Convergence of bulirsch_stoer_dense_out on smooth nonlinear systems (C135). *)
From Coq Require Import List Arith Bool ZArith Reals Lia Lra FunctionalExtensionality.
From Verif Require Import M_Num M_Sign M_Run M_Plain S_Grid M_RK S_RK M_CtrlRK M_Midpoint M_BS M_BSDense S_Real S_CtrlRK S_Quad
  S_Integrate S_Conv S_BSeries S_Midpoint S_BS P_Run P_R P_RKOrder P_Midpoint P_BSInd P_BSDInd P_BSDVal P_BSDVal2 P_BSDPoly P_BSPolyE X_Inst X_BS P_Neville P_Extrap
  P_Conv P_ConvRun P_ConvOrd P_Gragg P_GraggConv P_GraggStab P_OneStep T_Butcher T_BS T_BSPoly T_Gragg S_BSDPoints.
Import ListNotations.
Local Open Scope R_scope.
Local Ltac toR := match goal with |- @eq _ ?l ?r => change (@eq R l r) end.

Lemma bsd_inc K : forall i j, (i < j <= K)%nat -> (0 < bsd_seq i < bsd_seq j)%nat.
Proof. intros i j Hij. unfold bsd_seq. lia. Qed.

Lemma bsd_columns eps (I : Type) M H : 0 <= M -> 0 <= H -> forall m, exists E, 0 <= E /\ forall k, (1 <= k <= m)%nat -> (k <= 8)%nat ->
  forall (f : (I -> R) -> R -> (I -> R)) y DD (T : R -> Prop),
  (forall s u c, T s -> T u -> 0 <= c <= 1 -> T (s + c * (u - s))) ->
  taylor 4 M (fun v => exists t, T t /\ v = point (y t) t) (autonomous f) DD -> solution T f y ->
  forall t h, T t -> T (t + h) -> Rabs h <= H ->
  forall i, Rabs (nev (N := RNum eps) bsd_seq (fun l => mm_val (N := RNum eps) f (bsd_seq l) (y t) (f (y t) t) t h) k k i - y (t + h) i) <= E * Rabs h ^ 5.
Proof.
  intros HM HH. induction m as [|m (E1 & P1 & B1)].
  - exists 0. split; [lra|]. intros k Hk. lia.
  - destruct (le_lt_dec (S m) 8) as [Hm|Hm].
    + destruct (extrapolated eps 4 ltac:(lia) (I := I) M H HM HH bsd_seq 8 (S m) (S m) (bsd_inc 8) (fun i _ => even_of _ (bsd_even i)) ltac:(lia) ltac:(lia)) as (E2 & P2 & B2).
      exists (E1 + E2). split; [lra|]. intros k Hk Hk8 f y DD T Tc Tay Sol t h Ht Hth Hh i.
      pose proof (pow_le _ 5 (Rabs_pos h)) as P.
      assert (Q1 : 0 <= E1 * Rabs h ^ 5) by now apply Rmult_le_pos. assert (Q2 : 0 <= E2 * Rabs h ^ 5) by now apply Rmult_le_pos.
      rewrite Rmult_plus_distr_r. destruct (Nat.eq_dec k (S m)) as [->|Hne].
      * specialize (B2 f y DD T Tc Tay Sol t h Ht Hth Hh i). eapply Rle_trans; [exact B2|]. lra.
      * specialize (B1 k ltac:(lia) Hk8 f y DD T Tc Tay Sol t h Ht Hth Hh i). eapply Rle_trans; [exact B1|]. lra.
    + exists E1. split; [exact P1|]. intros k Hk Hk8. apply B1; lia.
Qed.

Definition bsd_growth (L H : R) : R := sumn 9 (fun k => ext_growth bsd_seq 8 k k L H).
Definition bsd_Step eps {I : Type} (f : (I -> R) -> R -> (I -> R)) (x : I -> R) (t h : R) (x' : I -> R) : Prop := exists k, (1 <= k <= 8)%nat /\
    x' = nev (N := RNum eps) bsd_seq (fun l => mm_val (N := RNum eps) f (bsd_seq l) x (f x t) t h) k k.

(** One do_step. *)
Lemma bsd_one eps (I : Type) (idx : list I) pw (cfg : err_cfg (RNum eps)) max_dt ci (s s' : bsd (RNum eps) I) (f : (I -> R) -> R -> (I -> R)) :
  bsd_reach idx pw cfg max_dt ci (fun s => bd_kopt s <= 6)%nat s ->
  bd_first s = true \/ bd_curdx s = f (bd_curx s) (bd_t s) ->
  bsd_do_step (N := RNum eps) idx pw cfg max_dt ci f s = Ok s' ->
  bd_curdx s' = f (bd_curx s') (bd_t s') /\ bsd_Step eps f (bd_curx s) (bd_t s) (bd_t s' - bd_t s) (bd_curx s').
Proof.
  intros Hr Hf E.
  pose proof (bsd_step_val (N := RNum eps) idx pw cfg max_dt ci f s s' (bsd_reach_inv _ _ _ _ _ _ Hr) E) as V. cbv zeta in V.
  assert (V2 : bd_curdx s' = f (bd_curx s') (bd_t s') /\ exists dt,
    stepped (N := RNum eps) f (bd_curx s) (f (bd_curx s) (bd_t s)) (bd_t s) dt s'
    /\ bd_curx s' = bsd_T (N := RNum eps) f (bd_curx s) (f (bd_curx s) (bd_t s)) (bd_t s) dt (bd_kfinal s') (bd_kfinal s')).
  { destruct (bd_first s); [exact (proj2 (proj2 V))|]. destruct Hf as [Hf|Hf]; [discriminate|]. rewrite <- Hf. exact (proj2 (proj2 V)). }
  destruct V2 as (C & dt & D & F). pose proof (sd_t _ _ _ _ _ _ D) as D1. pose proof (sd_k _ _ _ _ _ _ D) as D2. cbn [nadd RNum] in D1.
  split; [exact C|]. exists (bd_kfinal s'). split; [exact D2|].
  assert (Ed : bd_t s' - bd_t s = dt) by (rewrite D1; toR; ring). rewrite F. 
  assert (Ed' : dt = bd_t s' - bd_t s) by (symmetry; exact Ed). rewrite Ed' at 1. reflexivity.
Qed.

(** ** C135: a step misses a smooth solution by at most E |h|^5. *)
Theorem C135_step : forall eps (I : Type) M H, 0 <= M -> 0 <= H -> exists E, 0 <= E /\
  forall (f : (I -> R) -> R -> (I -> R)) y D (T : R -> Prop),
  (forall s u c, T s -> T u -> 0 <= c <= 1 -> T (s + c * (u - s))) ->
  taylor 4 M (fun v => exists t, T t /\ v = point (y t) t) (autonomous f) D -> solution T f y ->
  forall (idx : list I) pw (cfg : err_cfg (RNum eps)) max_dt ci (s s' : bsd (RNum eps) I),
  bsd_reach idx pw cfg max_dt ci (fun s => bd_kopt s <= 6)%nat s ->
  bd_first s = true \/ bd_curdx s = f (bd_curx s) (bd_t s) ->
  bsd_do_step (N := RNum eps) idx pw cfg max_dt ci f s = Ok s' ->
  T (bd_t s) -> T (bd_t s') -> Rabs (bd_t s' - bd_t s) <= H -> bd_curx s = y (bd_t s) ->
  forall i, Rabs (bd_curx s' i - y (bd_t s') i) <= E * Rabs (bd_t s' - bd_t s) ^ 5.
Proof.
  intros eps I M H HM HH. destruct (bsd_columns eps I M H HM HH 8) as (E & PE & B). exists E. split; [exact PE|].
  intros f y D T Tc Tay Sol idx pw cfg max_dt ci s s' Hr Hf Es Ht Ht' Hh Hx i.
  destruct (bsd_one eps I idx pw cfg max_dt ci s s' f Hr Hf Es) as (_ & k & Hk & ->). rewrite Hx.
  assert (Et : bd_t s + (bd_t s' - bd_t s) = bd_t s') by (toR; ring).
  pose proof (B k Hk ltac:(lia) f y D T Tc Tay Sol (bd_t s) (bd_t s' - bd_t s) Ht ltac:(rewrite Et; exact Ht') Hh i) as Q.
  rewrite Et in Q. exact Q.
Qed.
Print Assumptions C135_step.

Lemma bsd_points_head {N : Num} {I} (idx : list I) pw (cfg : err_cfg N) max_dt ci f m (s : bsd N I) :
  exists l, bsd_points idx pw cfg max_dt ci f m s = (bd_curx s, bd_t s) :: l.
Proof. destruct m; eexists; reflexivity. Qed.

Lemma bsd_points_linked eps (I : Type) (idx : list I) pw (cfg : err_cfg (RNum eps)) max_dt ci (f : (I -> R) -> R -> (I -> R)) sg (T : R -> Prop) hm : forall m (s : bsd (RNum eps) I),
  bsd_reach idx pw cfg max_dt ci (fun s => bd_kopt s <= 6)%nat s ->
  bd_first s = true \/ bd_curdx s = f (bd_curx s) (bd_t s) ->
  let l := bsd_points (N := RNum eps) idx pw cfg max_dt ci f m s in
  linked (fun p q : (I -> R) * R => 0 < sg * (snd q - snd p) <= hm) l -> (forall p : (I -> R) * R, In p l -> T (snd p)) ->
  linked (stepT (bsd_Step eps f) sg T hm) l.
Proof.
  induction m as [|m IH]; intros s Hr Hf l Hl HT; [split; exact Logic.I|]. unfold l in *. clear l. cbn [bsd_points] in *.
  destruct (bsd_do_step (N := RNum eps) idx pw cfg max_dt ci f s) as [s'| | |] eqn:Es; try (split; exact Logic.I).
  destruct (bsd_one eps I idx pw cfg max_dt ci s s' f Hr Hf Es) as [Hd HS].
  assert (Hr' : bsd_reach idx pw cfg max_dt ci (fun s => bd_kopt s <= 6)%nat s') by (eapply dr_step; eassumption).
  specialize (IH s' Hr' (or_intror Hd)). cbv zeta in IH.
  destruct (bsd_points_head (N := RNum eps) idx pw cfg max_dt ci f m s') as [l' El]. rewrite El in *.
  destruct Hl as [Hl1 Hl2]. split.
  - split; [exact HS|]. split; [exact Hl1|]. apply (HT (bd_curx s', bd_t s')). right. now left.
  - apply IH; [exact Hl2|]. intros p Hp. apply HT. now right.
Qed.

(** Any number of do_step calls after initialize( x , t0 , dt ): where the steps go in one direction and are at most
    [hm] wide, every point is within exp( G a ) ( d + E hm^4 a ) of the solution, a = |t'-t0|. *)
Theorem C135_runs : forall eps (I : Type) M H L, 0 <= M -> 0 <= H -> 0 <= L -> exists G E, 0 <= G /\ 0 <= E /\
  forall (f : (I -> R) -> R -> (I -> R)) y D (T : R -> Prop),
  (forall s u c, T s -> T u -> 0 <= c <= 1 -> T (s + c * (u - s))) ->
  taylor 4 M (fun v => exists t, T t /\ v = point (y t) t) (autonomous f) D -> solution T f y -> lipschitz T L f ->
  forall (idx : list I) pw (cfg : err_cfg (RNum eps)) max_dt ci (s : bsd (RNum eps) I) (x : I -> R) (t0 dt d sg hm : R) m,
  bsd_fresh s \/ (bsd_reach idx pw cfg max_dt ci (fun s => bd_kopt s <= 6)%nat s /\ bd_kopt s <= 6)%nat ->
  sg = 1 \/ sg = -1 -> 0 <= hm <= H -> 0 <= d -> (forall j, Rabs (x j - y t0 j) <= d) ->
  let l := bsd_points (N := RNum eps) idx pw cfg max_dt ci f m (bsd_init s x t0 dt) in
  linked (fun p q : (I -> R) * R => 0 < sg * (snd q - snd p) <= hm) l -> (forall p : (I -> R) * R, In p l -> T (snd p)) ->
  forall x' t', In (x', t') l -> forall i,
  Rabs (x' i - y t' i) <= exp (G * Rabs (t' - t0)) * (d + E * hm ^ 4 * Rabs (t' - t0)).
Proof.
  intros eps I M H L HM HH HL. destruct (bsd_columns eps I M H HM HH 8) as (E & PE & B).
  assert (PG : 0 <= bsd_growth L H).
  { pose proof (sumn_term 9 (fun k => ext_growth bsd_seq 8 k k L H) 0 (fun j => ext_growth_nonneg bsd_seq 8 j j L H HL HH) ltac:(lia)) as Q.
    pose proof (ext_growth_nonneg bsd_seq 8 0 0 L H HL HH). unfold bsd_growth. lra. }
  exists (bsd_growth L H), E. split; [exact PG|]. split; [exact PE|].
  intros f y D T Tc Tay Sol Lip idx pw cfg max_dt ci s x t0 dt d sg hm m Hs Hsg Hhm Hd Hx l Hl HT x' t' Hin.
  assert (Hr : bsd_reach idx pw cfg max_dt ci (fun s => bd_kopt s <= 6)%nat (bsd_init s x t0 dt)).
  { destruct Hs as [Hs|[Hs Hk]]; [now apply dr_new|now apply dr_init]. }
  pose proof (bsd_points_linked eps I idx pw cfg max_dt ci f sg T hm m _ Hr (or_introl eq_refl) Hl HT) as Hk.
  destruct (bsd_points_head (N := RNum eps) idx pw cfg max_dt ci f m (bsd_init s x t0 dt)) as [l' El].
  assert (E0 : (bd_curx (bsd_init (N := RNum eps) s x t0 dt), bd_t (bsd_init (N := RNum eps) s x t0 dt)) = (x, t0)).
  { unfold bd_curx, bsd_init. cbn. destruct (bd_cur1 s); reflexivity. }
  rewrite E0 in El. unfold l in *. rewrite El in Hk, Hin, HT.
  refine (proj2 (onestep_error (bsd_Step eps f) sg Hsg T (bsd_growth L H) E H 4 PG PE y _ hm Hhm l' x t0 d Hd (HT (x, t0) (or_introl eq_refl)) Hx Hk x' t' Hin)).
  intros x0 t h D0 x1 HD Ht Hth Hhh Hx0 (k & Hkk & ->) i.
  eapply Rle_trans; [apply (ext_local eps T Tc f L H HL Lip y E 4 bsd_seq 8 k k x0 t h D0 (bsd_inc 8) (fun i _ => proj1 (even_of _ (bsd_even i))) ltac:(lia) HD Ht Hth Hhh Hx0
    (B k Hkk ltac:(lia) f y D T Tc Tay Sol t h Ht Hth Hhh))|].
  apply Rplus_le_compat_r. apply Rmult_le_compat_r; [exact HD|]. apply Rplus_le_compat_l. apply Rmult_le_compat_l; [apply Rabs_pos|].
  exact (sumn_term 9 (fun k => ext_growth bsd_seq 8 k k L H) k (fun j => ext_growth_nonneg bsd_seq 8 j j L H HL HH) ltac:(lia)).
Qed.
Print Assumptions C135_runs.

(** ** Example: x' = 3 + 2 t, x(0) = 7, one step of width 2; start within 1/100 of the solution. *)
Definition quad_y (t : R) (_ : unit) : R := 7 + 3 * t + t * t.
Definition quad_D (v : option unit -> R) (l : list (option unit -> R)) : option unit -> R :=
  fun k => match k with
  | None => match l with [] => 1 | _ => 0 end
  | Some _ => match l with [] => 3 + 2 * v None | [u] => 2 * u None | _ => 0 end
  end.
Definition T02 (t : R) : Prop := 0 <= t <= 2.
Lemma quad_taylor : taylor 4 7 (fun v => exists t, T02 t /\ v = point (quad_y t) t) (autonomous lin_f) quad_D.
Proof.
  assert (Z : forall rs l, Forall2 (bnd (J := option unit)) rs l -> 0 <= fold_right Rmult 1 rs).
  { intros rs l F. induction F as [|r u rs l Hu F IH]; cbn; [lra|]. apply Rmult_le_pos; [|exact IH].
    specialize (Hu None). pose proof (Rabs_pos (u None)). lra. }
  split.
  - intros y l l' a b u v [i|] _; cbn [quad_D].
    + destruct l as [|x1 [|x2 l]]; cbn [app]; [destruct l'; ring|ring|ring].
    + destruct l; cbn [app]; ring.
  - intros y l rs [i|] (t & Ht & ->) _ F; cbn [quad_D]; pose proof (Z rs l F) as P; unfold T02 in Ht.
    + destruct F as [|r u rs l Hu F]; [cbn [point fold_right]; rewrite Rabs_pos_eq; lra|].
      destruct F as [|r2 u2 rs l Hu2 F]; [|rewrite Rabs_R0; lra].
      cbn [fold_right] in *. rewrite Rabs_mult, (Rabs_pos_eq 2) by lra. specialize (Hu None). pose proof (Rabs_pos (u None)). lra.
    + destruct F as [|r u rs l Hu F]; [cbn; rewrite Rabs_R1; lra|]. rewrite Rabs_R0. lra.
  - intros y w r m [i|] _ Hm Hw; pose proof (Hw None) as Hn; pose proof (Rabs_pos (w None)) as Pn; assert (Pr : 0 <= r ^ m) by (apply pow_le; lra).
    + cbn [autonomous quad_D]. unfold lin_f. destruct m as [|[|m]]; [lia| |].
      * unfold sumn. cbn. replace (3 + 2 * (y None + w None) - ((3 + 2 * y None) / 1 + 0)) with (2 * w None) by field.
        rewrite Rabs_mult, (Rabs_pos_eq 2) by lra. lra.
      * rewrite !sumn_shift. cbn [repeat fact INR]. rewrite sumn_zero by (intros k _; cbn [repeat]; unfold Rdiv; ring).
        cbn. replace (3 + 2 * (y None + w None) - ((3 + 2 * y None) / 1 + (2 * w None / 1 + 0))) with 0 by field. rewrite Rabs_R0. cbn in Pr. lra.
    + cbn [autonomous quad_D]. destruct m as [|m]; [lia|]. rewrite sumn_shift. cbn [repeat fact INR].
      rewrite sumn_zero by (intros k _; cbn [repeat]; unfold Rdiv; ring).
      replace (1 - (1 / 1 + 0)) with 0 by field. rewrite Rabs_R0. lra.
Qed.
Lemma quad_solution : solution T02 lin_f quad_y.
Proof.
  intros t i _. unfold quad_y, lin_f. replace (3 + 2 * t) with (0 + 3 * 1 + (1 * t + t * 1)) by ring.
  apply derivable_pt_lim_plus.
  - apply derivable_pt_lim_plus; [apply derivable_pt_lim_const|]. apply (derivable_pt_lim_scal (fun s => s)), derivable_pt_lim_id.
  - apply (derivable_pt_lim_mult (fun s => s) (fun s => s)); apply derivable_pt_lim_id.
Qed.
Example C135_example : forall (cfg : err_cfg (RNum 0)), exists G E, 0 <= G /\ 0 <= E /\ exists x',
  bsd_points (N := RNum 0) [tt] rpow cfg 0%R false lin_f 1 (bsd_init (N := RNum 0) (bsdR 0) (fun _ => 7 + 1 / 100) 0%R 2%R)
    = [(fun _ => 7 + 1 / 100, 0); (x', 2)]
  /\ Rabs (x' tt - 17) <= exp (G * 2) * (1 / 100 + E * 2 ^ 4 * 2).
Proof.
  intro cfg. destruct (C135_runs 0 unit 7 2 0 ltac:(lra) ltac:(lra) ltac:(lra)) as (G & E & PG & PE & B).
  exists G, E. split; [exact PG|]. split; [exact PE|].
  set (s := bsd_init (N := RNum 0) (bsdR 0) (fun _ => 7 + 1 / 100) 0%R 2%R).
  assert (Hr : bsd_reach (N := RNum 0) [tt] rpow cfg 0%R false (fun s => bd_kopt s <= 6)%nat s) by (apply dr_new, bsdR_fresh).
  assert (L : forall i, (length (lin_p i) <= 2)%nat) by (intro i; cbn; lia).
  destruct (bsd_linear_accepts 0 lin_p lin_f lin_quad [tt] rpow cfg s L (bsd_reach_inv _ _ _ _ _ _ Hr)) as (s' & Es & Ht); [discriminate|].
  assert (T2 : bd_t s' = 2) by (rewrite Ht; cbn; ring).
  exists (bd_curx s').
  assert (Ep : bsd_points (N := RNum 0) [tt] rpow cfg 0%R false lin_f 1 s = [(fun _ => 7 + 1 / 100, 0); (bd_curx s', 2)]).
  { cbn [bsd_points]. rewrite Es. cbn [bsd_points]. rewrite T2. reflexivity. }
  split; [exact Ep|].
  assert (Q := B lin_f quad_y quad_D T02 ltac:(unfold T02; intros a b c Ha Hb Hc; split; nra) quad_taylor quad_solution
    ltac:(intros u v t D0 _ _ i; unfold lin_f; rewrite Rminus_diag_eq, Rabs_R0 by reflexivity; lra)
    [tt] rpow cfg 0%R false (bsdR 0) (fun _ => 7 + 1 / 100) 0 2 (1 / 100) 1 2 1%nat (or_introl (bsdR_fresh 0)) (or_introl eq_refl) ltac:(lra) ltac:(lra)
    ltac:(intro j; unfold quad_y; rewrite Rabs_pos_eq; lra)).
  cbv zeta in Q. fold s in Q.
  assert (Hl : linked (fun p q : (unit -> R) * R => 0 < 1 * (snd q - snd p) <= 2) (bsd_points (N := RNum 0) [tt] rpow cfg 0%R false lin_f 1 s)).
  { refine (eq_ind_r (linked (fun p q : (unit -> R) * R => 0 < 1 * (snd q - snd p) <= 2)) _ Ep). cbn. repeat split; lra. }
  specialize (Q Hl).
  assert (HT : forall p : (unit -> R) * R, In p (bsd_points (N := RNum 0) [tt] rpow cfg 0%R false lin_f 1 s) -> T02 (snd p)).
  { intros p Hp. rewrite Ep in Hp. destruct Hp as [<-|[<-|[]]]; unfold T02; cbn; lra. }
  specialize (Q HT (bd_curx s') 2 ltac:(rewrite Ep; right; now left) tt).
  rewrite Rminus_0_r, (Rabs_pos_eq 2) in Q by lra. replace (quad_y 2 tt) with 17 in Q by (unfold quad_y; ring). exact Q.
Qed.

(** Specification of explicit Runge-Kutta methods, independent of the programs
    in M_RK: Butcher tableaux, stage equations, rooted trees and order
    conditions, polynomial right-hand sides, linear systems. *)
From Coq Require Import ZArith List Bool Reals QArith.
From Verif Require Import M_Num M_RK.
Import ListNotations.

(** ** Stage equations in the order of evaluation of the code (any arithmetic). *)
Section Butcher.
Context {N : Num} {I : Type}.
Local Open Scope num_scope.

(** [1*x + (a_1*dt)*k_1 + (a_2*dt)*k_2 + ...] componentwise. *)
Definition stage_arg (x : vec N I) (dt : N) (row : list N) (ks : list (vec N I)) : vec N I :=
  fun j => fold_left (fun s p => s + (fst p * dt) * (snd p j)) (combine row ks) (nofZ 1 * x j).

(** [(b_1*dt)*k_1 + (b_2*dt)*k_2 + ...] componentwise. *)
Definition err_arg (dt : N) (row : list N) (ks : list (vec N I)) : vec N I :=
  fun j => match combine row ks with
           | [] => nofZ 0
           | (b, k) :: r => fold_left (fun s p => s + (fst p * dt) * (snd p j)) r ((b * dt) * k j)
           end.

(** A tableau of an explicit method with [S (length a)] stages. *)
Record wf_tableau (tb : tableau N) : Prop := {
  wf_c : length (tab_c tb) = S (length (tab_a tb));
  wf_b : length (tab_b tb) = S (length (tab_a tb));
  wf_row : forall s row, nth_error (tab_a tb) s = Some row -> length row = S s
}.

(** [ks] are the stage derivatives of the method for the system [f]:
    k_1 = dx and k_{s+2} = f( x + dt*sum_j a_sj k_j , t + c_s dt ). *)
Record rk_stages (tb : tableau N) (f : vec N I -> N -> vec N I) (x dx : vec N I) (t dt : N)
    (ks : list (vec N I)) : Prop := {
  rks_len : length ks = S (length (tab_a tb));
  rks_0 : nth_error ks 0 = Some dx;
  rks_S : forall s row c, nth_error (tab_a tb) s = Some row ->
          nth_error (tab_c tb) (S s) = Some c ->
          nth_error ks (S s) = Some (f (stage_arg x dt row (firstn (S s) ks)) (t + c * dt))
}.

(** The points at which the system has to be evaluated, in order. *)
Definition stage_points (tb : tableau N) (x : vec N I) (t dt : N) (ks : list (vec N I))
  : list (vec N I * N) :=
  (x, t) :: map (fun s => (stage_arg x dt (nth s (tab_a tb) []) (firstn (S s) ks),
                           t + nth (S s) (tab_c tb) (nofZ 0) * dt))
                (seq 0 (length (tab_a tb))).
End Butcher.

(** The Dormand-Prince 5(4) method as published (7 stages, first same as last;
    Hairer, Norsett, Wanner I, table II.5.2), with [b2] the difference of the 5th
    and the 4th order weights. *)
Definition dopri5_tab7 {N : Num} : tableau N := mkTableau
  [ [nfrac 1 5];
    [nfrac 3 40; nfrac 9 40];
    [nfrac 44 45; nfrac (-56) 15; nfrac 32 9];
    [nfrac 19372 6561; nfrac (-25360) 2187; nfrac 64448 6561; nfrac (-212) 729];
    [nfrac 9017 3168; nfrac (-355) 33; nfrac 46732 5247; nfrac 49 176; nfrac (-5103) 18656];
    [nfrac 35 384; nofZ 0; nfrac 500 1113; nfrac 125 192; nfrac (-2187) 6784; nfrac 11 84] ]
  [nfrac 35 384; nofZ 0; nfrac 500 1113; nfrac 125 192; nfrac (-2187) 6784; nfrac 11 84; nofZ 0]
  [nofZ 0; nfrac 1 5; nfrac 3 10; nfrac 4 5; nfrac 8 9; nofZ 1; nofZ 1]
  [nfrac 71 57600; nofZ 0; nfrac (-71) 16695; nfrac 71 1920; nfrac (-17253) 339200;
   nfrac 22 525; nfrac (-1) 40].

(** The explicit Euler method. *)
Definition euler_tab {N : Num} : tableau N := mkTableau [] [nofZ 1] [nofZ 0] [].

(** The method a stepper stands for. *)
Definition tab_of {N : Num} (n : rk_name) : tableau N :=
  match n with
  | rk_euler => euler_tab
  | rk_rk4 | rk_rk4_classic => rk4_tab
  | rk_ck54 | rk_ck54_classic => ck54_tab
  | rk_dopri5 => dopri5_tab7
  | rk_f78 => f78_tab
  end.

(** ** Exact arithmetic: the textbook formulas over the reals. *)
Section RealRK.
Context {I : Type} (eps : R).
Local Open Scope R_scope.
Notation NN := (RNum eps).

Definition rsum (l : list R) : R := fold_right Rplus 0 l.

(** sum_j a_j * k_j(i). *)
Definition wsum (row : list R) (ks : list (I -> R)) (i : I) : R :=
  rsum (map (fun p => fst p * snd p i) (combine row ks)).

(** The stage equations and the result of one step, [dx = f x t]. *)
Record rk_stages_R (tb : tableau NN) (f : (I -> R) -> R -> (I -> R)) (x : I -> R) (t dt : R)
    (ks : list (I -> R)) : Prop := {
  rkR_len : length ks = S (length (tab_a tb));
  rkR_0 : nth_error ks 0 = Some (f x t);
  rkR_S : forall s row c, nth_error (tab_a tb) s = Some row ->
          nth_error (tab_c tb) (S s) = Some c ->
          nth_error ks (S s)
          = Some (f (fun i => x i + dt * wsum row (firstn (S s) ks) i) (t + c * dt))
}.

(** [y] is the result of one step of the method, [e] its error estimate. *)
Definition rk_result (tb : tableau NN) f (x : I -> R) (t dt : R) (y : I -> R) : Prop :=
  exists ks, rk_stages_R tb f x t dt ks /\ (forall i, y i = x i + dt * wsum (tab_b tb) ks i).
Definition rk_error (tb : tableau NN) f (x : I -> R) (t dt : R) (e : I -> R) : Prop :=
  exists ks, rk_stages_R tb f x t dt ks /\ (forall i, e i = dt * wsum (tab_b2 tb) ks i).

(** Linear functionals and maps on states. *)
Definition linear_functional (l : (I -> R) -> R) : Prop :=
  forall a b u v, l (fun i => a * u i + b * v i) = a * l u + b * l v.
End RealRK.

Definition linear_map {I J : Type} (T : (I -> R) -> (J -> R)) : Prop :=
  forall a b u v j, T (fun i => a * u i + b * v i)%R j = (a * T u j + b * T v j)%R.

(** Polynomials by coefficient lists. *)
Section Poly.
Local Open Scope R_scope.
Fixpoint peval (p : list R) (s : R) : R :=
  match p with [] => 0 | a :: p' => a + s * peval p' s end.
Fixpoint pder_from (k : nat) (p : list R) : list R :=
  match p with [] => [] | a :: p' => INR k * a :: pder_from (S k) p' end.
(** The derivative. *)
Definition pder (p : list R) : list R := match p with [] => [] | _ :: p' => pder_from 1 p' end.
End Poly.

(** ** Rooted trees and order conditions (Butcher). *)
Inductive tree : Type := Node (children : list tree).

Fixpoint tsize (t : tree) : nat :=
  match t with Node cs => S (fold_right (fun c n => tsize c + n)%nat 0%nat cs) end.

(** The density gamma(t). *)
Fixpoint gamma (t : tree) : Z :=
  match t with Node cs => (Z.of_nat (tsize t) * fold_right (fun c z => gamma c * z) 1 cs)%Z end.

Section Trees.
Local Open Scope Q_scope.

Definition qdot (row w : list Q) : Q := fold_right Qplus 0 (map (fun p => fst p * snd p) (combine row w)).

(** Stage weights: phi_i([t1..tm]) = prod_k sum_j a_ij phi_j(t_k); the rows of
    [a] are those of the stages 2,3,...; the first stage has an empty row. *)
Fixpoint phi (rows : list (list Q)) (t : tree) : list Q :=
  match t with
  | Node cs => map (fun row => fold_right (fun c q => qdot row (phi rows c) * q) 1 cs) rows
  end.

(** The order condition of the tree [t]: sum_i b_i phi_i(t) = 1/gamma(t). *)
Definition order_condition (rows : list (list Q)) (b : list Q) (t : tree) : Prop :=
  qdot b (phi rows t) == 1 / inject_Z (gamma t).

(** All order conditions up to order [p], and c_i = sum_j a_ij. *)
Definition has_order (rows : list (list Q)) (b c : list Q) (p : nat) : Prop :=
  (forall t, (tsize t <= p)%nat -> order_condition rows b t)
  /\ length rows = length b /\ length rows = length c
  /\ Forall2 (fun row ci => fold_right Qplus 0 row == ci) rows c.
End Trees.

(** The real tableau of a stepper is the image of its rational tableau. *)
Definition twin (eps : R) (tb : tableau (RNum eps)) (tq : tableau (QNum 0)) : Prop :=
  tab_a tb = map (map Q2R) (tab_a tq) /\ tab_b tb = map Q2R (tab_b tq)
  /\ tab_c tb = map Q2R (tab_c tq) /\ tab_b2 tb = map Q2R (tab_b2 tq).

(** sum over m < n. *)
Definition sumn (n : nat) (g : nat -> R) : R := rsum (map g (seq 0 n)).

(** Powers of a linear map. *)
Fixpoint mpow {I : Type} (A : (I -> R) -> (I -> R)) (k : nat) (x : I -> R) : I -> R :=
  match k with O => x | S k' => A (mpow A k' x) end.

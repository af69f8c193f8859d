(** Sizes of the internal buffers of the explicit Runge-Kutta steppers.

    Source: util/resizer.hpp:29-86, util/resize.hpp:38-56, util/same_size.hpp:38-57,
    base/explicit_stepper_base.hpp:161-239, base/explicit_error_stepper_base.hpp:254-304,
    base/explicit_error_stepper_fsal_base.hpp:309-337, explicit_generic_rk.hpp:144-174,
    runge_kutta4_classic.hpp:87-158, runge_kutta_cash_karp54_classic.hpp:148-202,
    runge_kutta_dopri5.hpp:128,273-300.

    Simplified: only the SIZES of the containers are modelled (the contents are in
    M_RK); containers are resizeable ranges (std::vector). *)
From Coq Require Import List Bool Arith.
From Verif Require Import M_Num M_RK.
Import ListNotations.

(* Source: The sizes of the containers resized by util/resizer.hpp and util/resize.hpp. *)
Definition sizes := loc -> nat.

(** util/resizer.hpp:48-86. *)
Inductive resizer : Set := always_resizer | initially_resizer | never_resizer.

(** adjust_size_by_resizeability, util/resizer.hpp:29-40, on one buffer. *)
Definition set_size (sz : sizes) (l : loc) (n : nat) : sizes :=
  fun l' => if loc_eqb l l' then n else sz l'.

(** A resize_impl: every listed buffer whose size differs is resized; true if
    there was one.  E.g. explicit_generic_rk.hpp:164-174. *)
Definition resize_impl (ls : list loc) (n : nat) (sz : sizes) : bool * sizes :=
  (existsb (fun l => negb (sz l =? n)) ls, fold_left (fun s l => set_size s l n) ls sz).

(** Resizer::adjust_size, util/resizer.hpp:48-86; [ini] is m_initialized (of
    initially_resizer). *)
Definition adjust (r : resizer) (ini : bool) (ls : list loc) (n : nat) (sz : sizes)
  : bool * bool * sizes :=
  match r with
  | always_resizer => (fst (resize_impl ls n sz), ini, snd (resize_impl ls n sz))
  | initially_resizer =>
      if ini then (false, true, sz)
      else (fst (resize_impl ls n sz), true, snd (resize_impl ls n sz))
  | never_resizer => (false, ini, sz)
  end.

(** Accesses of one algebra / system / copy call: a pair (a,b) means that the call
    touches as many elements of [b] as [a] has.  for_eachN runs over the size of
    its FIRST range (algebra/detail/for_each.hpp:27-…); boost::range::copy over the
    size of the source (util/copy.hpp:34-38); a system function is taken to
    compute as many derivatives as the state it is given has components. *)
Definition accesses {N : Num} (al : alias) (i : instr N) : list (loc * loc) :=
  match i with
  | ISum d ts => map (fun p => (resolve al d, resolve al (snd p))) ts
  | ISys d s _ => [(resolve al s, resolve al d)]
  | ICopy d s => [(resolve al s, resolve al d)]
  end.

(** True: no access beyond the end of a buffer. *)
(* Source: The loops of algebra/detail/for_each.hpp run over the first range. *)
Definition in_bounds {N : Num} (al : alias) (p : list (instr N)) (sz : sizes) : bool :=
  forallb (fun ab => sz (fst ab) <=? sz (snd ab)) (flat_map (accesses al) p).

(** The temporaries a stepper resizes in do_step_impl: m_x_tmp and
    m_F[0..StageCount-2] / m_k2.. / m_dxt, m_dxm, m_dxh; euler has none. *)
(* Source: resize_impl of explicit_generic_rk.hpp, runge_kutta4_classic.hpp, runge_kutta_cash_karp54_classic.hpp, runge_kutta_dopri5.hpp. *)
Definition rk_temps (n : rk_name) : list loc :=
  match n with
  | rk_euler => []
  | rk_rk4 | rk_rk4_classic => LTmp :: map LK (seq 0 3)
  | rk_ck54 | rk_ck54_classic | rk_dopri5 => LTmp :: map LK (seq 0 5)
  | rk_f78 => LTmp :: map LK (seq 0 12)
  end.

(** The stepper object: buffer sizes, m_initialized of the base class's and of
    its own resizer, m_first_call (used by dopri5 only). *)
(* Source: util/resizer.hpp: m_initialized; base/explicit_error_stepper_fsal_base.hpp:97. *)
Record sstate := mkSState { ss_size : sizes ; ss_ini1 : bool ; ss_ini2 : bool ; ss_first : bool }.

(** A default constructed stepper. *)
(* Source: util/resizer.hpp: m_initialized; base/explicit_error_stepper_fsal_base.hpp:97. *)
Definition fresh : sstate := mkSState (fun _ => 0) false false true.

(** adjust_size( x ), explicit_generic_rk.hpp:155-160, runge_kutta_dopri5.hpp:273-278;
    m_dxdt_tmp of dopri5 included. *)
Definition adjust_size (name : rk_name) (n : nat) (st : sstate) : sstate :=
  let ls := rk_temps name ++ (match name with rk_dopri5 => [LDxTmp] | _ => [] end) ++ [LDx] in
  mkSState (snd (resize_impl ls n (ss_size st))) (ss_ini1 st) (ss_ini2 st) (ss_first st).

(** do_step( sys , x , t , dt ) on a state with [n] components: base class's
    resizer adjusts m_dxdt, the system is called (dopri5: only if the resizer
    reported a resize or on the first call), do_step_impl adjusts the temporaries
    and computes.  [None]: an access beyond the end of a buffer. *)
(* Source: base/explicit_stepper_base.hpp:225-231; base/explicit_error_stepper_fsal_base.hpp:180-290. *)
Definition step_sizes {N : Num} (r : resizer) (name : rk_name) (t dt : N) (st : sstate) (n : nat)
  : option sstate :=
  let sz := set_size (ss_size st) LIn n in
  let '(resized, i1, sz1) := adjust r (ss_ini1 st) [LDx] n sz in
  let al := mkAlias true true in
  let call := match name with rk_dopri5 => resized || ss_first st | _ => true end in
  let ok1 := if call then in_bounds (N := N) al [ISys LDx LIn t] sz1 else true in
  let '(_, i2, sz2) :=
    match rk_temps name with
    | [] => (false, ss_ini2 st, sz1)
    | ls => adjust r (ss_ini2 st) ls n sz1
    end in
  if ok1 && in_bounds al (rk_impl name t dt) sz2
  then Some (mkSState sz2 i1 i2 false) else None.

(** A sequence of steps on states of the given sizes. *)
(* Source: base/explicit_stepper_base.hpp:225-231; base/explicit_error_stepper_fsal_base.hpp:180-290. *)
Fixpoint run_sizes {N : Num} (r : resizer) (name : rk_name) (t dt : N) (st : sstate) (ns : list nat)
  : option sstate :=
  match ns with
  | [] => Some st
  | n :: ns' => match step_sizes r name t dt st n with
                | Some st' => run_sizes r name t dt st' ns'
                | None => None
                end
  end.

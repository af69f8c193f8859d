# odeint-v2: design of the machine-checked model

Source under study: `/repo/include/boost/numeric/odeint` (paths below are relative to it).
The properties are in `properties.jsonl` (ids C01, C02, ...), the claims in `MANIFEST.json`,
the mutation experiments in `seeded/LOG.jsonl`, the Coq development in `rocq/theories`.

## 1. Approach

odeint is a header-only template library: almost every function is a template over a number
type, a state type, a system function, a stepper and an observer.  The model keeps exactly this
genericity:

* **Arithmetic** is a record `Num` (carrier, `+ - * /`, `abs`, comparisons as booleans,
  `numeric_limits::epsilon`, conversion from integers) *without any laws*.  Theorems stated for
  every `Num` ("law-free") hold for every C++ arithmetic type, including IEEE floats with
  NaN and infinities.  Theorems that need algebra or order are stated for
  * `RNum eps` - real numbers with an arbitrary `eps >= 0` (ideal arithmetic; uses the axioms of
    the standard library's classical reals), or
  * an abstract commutative ring / field when only ring identities are needed, or
  * `QNum` - rationals, computable; used for refutation witnesses, or
  * `F64` - IEEE binary64 as defined by the standard library's `SpecFloat`
    (prec 53, emax 1024; computable, axiom free); used for NaN and rounding witnesses.
* **System functions, steppers, observers** are oracles: Section variables of arbitrary type.
  A theorem quantified over them covers every user-supplied object, with any internal state.
* **Effects** are explicit: the drivers return the chronological list of events (observer calls,
  step attempts, initialisations, interpolations) paired with a result which is one of
  `Ok v`, `Exc e` (C++ exception), `UB` (undefined behaviour), `Fuel` (loop bound of the model
  exhausted - never a normal-looking value).  "For every run that returns" means: for every fuel
  value for which the result is `Ok`.  Termination theorems exhibit a sufficient fuel.
* **Mutation through references** becomes state passing.  Where aliasing is the issue (in-place
  steps) the code is modelled over an explicit store of buffers.
* `int`/`size_t` counters are unbounded `nat` unless the property is about wrap-around
  (`split_offsets`, which is modelled modulo 2^64).  Precondition recorded here: fewer than 2^31
  steps per call (`int step` in `integrate_const.hpp:54`).

File naming in `rocq/theories`: `M_*.v` model (definitions only, each citing the source),
`S_*.v` independent specifications, `P_*.v` proofs, `T_*.v` the property theorems (nothing but
statements closed by `exact`, with `Print Assumptions`), `X_*.v` examples showing that hypotheses
are satisfiable (or such examples beside the theorems).

## 2. Trusted base

* Coq 8.16.1's kernel (and `vm_compute`).
* What `Print Assumptions` lists; it is printed under every property theorem.  Law-free, `nat`,
  `Z`, `Q`, `SpecFloat` theorems: nothing ("Closed under the global context").  Theorems about
  `R`: the three axioms of `Coq.Reals` (`sig_not_dec`, `sig_forall_dec`,
  `functional_extensionality_dep`), plus `Classical_Prop.classic` where the analysis part of the standard
  library uses it.  No axiom is added.
* The reading of the C++ source: nothing links the model to the code except the cited lines.

## 3. What is modelled and how it is proved

| Property | Model | Proof |
|---|---|---|
| C01, C02, C03 | `integrate_n_steps/const/adaptive(stepper_tag)` as fuelled loops over an arbitrary stepper | law-free induction on the loop against an independent "k-th state, k-th time" specification; termination and coverage over `RNum eps` |
| C04, C15 | `integrate_adaptive(controlled_stepper_tag)`, `failed_step_checker` | invariant on the loop, stepper contract as hypothesis, contract shown for the controllers of C22/C30 |
| C05, C06 | `integrate_const/n_steps(controlled)` on top of C04's function | law-free induction |
| C07 | `integrate_const(dense_output)` with events for `initialize/do_step/calc_state` | refuted by computed witnesses; positive part proved |
| C08, C09, C10, C13 | the other dense drivers | invariants; C10 refuted by witness |
| C11, C12, C14 | `integrate_times` | invariants on remaining times; C14: `UB` outcome computed for the empty range |
| C16, C17 | `max_step_checker`, `checked_stepper`, `checked_observer` as state transformers around the same drivers | automaton over event histories; simulation |
| C18 | drivers over `RNum` | mirrored run simulation |
| C19, C20 | iterator increments and `for_each` over them | law-free equality with C01/C02/C04 traces; C20 boundary witness |
| C21 | `observer_collection` | induction |
| C22-C29 | `controlled_runge_kutta` (explicit and FSAL), error checker, step adjuster | case analysis; real analysis of `x^(-1/n)` for the bounds (`Rpower`); NaN witness in `F64`; refutations for order >= 7 growth and for backward step limit |
| C30 | `rosenbrock4_controller` | real analysis; NaN in `F64`/law-free |
| C31-C33 | control flow of `bulirsch_stoer` and `bulirsch_stoer_dense_out` with checked table accesses, errors as oracle | invariant on the order index; refutations by computed runs |
| C34-C38 | generic RK algorithm over an abstract module (vector space) | induction over stages; rooted-tree order conditions; polynomial exactness |
| C39, C40 | buffer store with aliasing | law-free equality; C40 refuted over `Q` |
| C41, C42 | `calc_state` | ring identities |
| C43, C44 | coefficient tables, multistep formulas | exactness on the monomial basis lifted by linearity; C44 refuted |
| C45 | `rotating_buffer`, AB history | refinement to a list queue |
| C46-C48 | symplectic composition, velocity Verlet | induction over stages; linear tangent maps; reversal |
| C49, C50 | extrapolation table, modified midpoint | Neville/Lagrange uniqueness |
| C51, C52 | implicit Euler Newton loop with LU | linear algebra; witness for the refactorisation |
| C53, C54 | `split_offsets` modulo 2^64, split/unsplit | `lia`/`nia`, list induction |
| C55, C56 | for-each under arbitrary schedules, `norm_inf` | permutation induction |
| C57, C58 | resizer policies with checked buffer access | induction over call histories; witness |
| C59, C60, C61 | adaptive Adams coefficients, order control, PID adjuster | Newton interpolation; invariants; bounds on `atan` |
| C62 | `integrate_const` in `F64` | computed witness |
| C63, C64 | same drivers | computed witnesses over `Q` |
| C65-C68 | iterators over dense steppers and times | witnesses; positive parts by simulation |
| C69 | all drivers | law-free invariant |
| C70, C73 | controllers as steppers of the drivers | contract from C22-C27; termination by a lower bound on the step |
| C71, C72 | fehlberg78 weights; FSAL cache | refuted by computation |
| C74-C77 | `bulirsch_stoer` | independence of uninitialised members by relational induction; witnesses; contract and termination as C70/C73 |
| C78-C80 | Adams steppers | rational witnesses |
| C81-C84 | symplectic steppers | law-free aliasing; invariants; Taylor polynomials for linear forces |
| C85-C87 | rosenbrock4 through the LU model | linear algebra of the stage equations; C86 refuted by an estimate of the local error |
| C88-C91 | operations of the back ends | witnesses over `Q` and `F64`, positive parts law-free |
| C92-C98 | controlled Adams and PID adjuster | checked table access; history refinement; witnesses |
| C99-C103 | `dense_output_runge_kutta` around the FSAL controller | abstraction of the toggled buffers; refinement to a total stepper that meets the contract of C08; witnesses |
| C104-C111 | MKL operations on the buffer store, implicit_euler_mtl4 with a solver oracle, gsl heap, multi_array offsets | law-free equality by an aliasing check on the programs; linear algebra; checked heap; mixed-radix offsets; witnesses |
| C112, C113 | runs of controlled steppers in the integrate functions | link relation between neighbouring observations, by induction over the run |
| C114-C116 | explicit Runge-Kutta steppers, error propagation | Lipschitz growth per step, discrete Gronwall by induction over the observations |
| C117-C119 | make_controlled, Eigen/uBLAS norms | witnesses, law-free equality |
| C120, C121 | explicit Runge-Kutta steppers, dopri5 dense output | B-series over all rooted trees; order conditions computed once per tableau |
| C122, C123, C127, C128, C135 | modified midpoint, extrapolation, Bulirsch-Stoer and its dense output | even expansion of Gragg's method in the step number; cancellation by the extrapolation weights; values of the finite differences |
| C136 | rosenbrock4 on autonomous systems | series of the stages in elementary differentials with the Jacobian term absorbed; order conditions computed from the decimals; growth of a difference through the six stages |
| C137 | implicit_euler | bound of the Newton update by absorbing the Jacobian term; induction over the steps with an explicit error bound |
| C124 | make_dense_output | factory parameters carried through the controller to the attempts of a step |
| C125, C134 | velocity_verlet, symplectic steppers | Taylor with remainder; drifts and kicks as the stages of two Runge-Kutta methods on phase space |
| C126, C130, C131 | Adams steppers, their initialisation | quadrature exactness of the coefficients, Gronwall over the history |
| C129, C133 | FSAL base with the resizer | simulation between the object and the specification for every call sequence; witness |
| C132 | const-step and n-step iterators over dense output | invariant of the traversal, from the contract of C08 |
| C138-C141 | `controlled_runge_kutta`, explicit steppers and `integrate_adaptive` over `mpi_state` | ranks as programs with collective calls, run in lockstep; simulation by the serial run, induction over the statements and the calls; witness |

## 4. Modelled source files

| Model | Source files (relative to `include/boost/numeric/odeint`) |
|---|---|
| `M_AABM.v` | stepper/adaptive_adams_bashforth_moulton.hpp, stepper/controlled_adams_bashforth_moulton.hpp, stepper/detail/adaptive_adams_coefficients.hpp, stepper/detail/rotating_buffer.hpp |
| `M_Adams.v` | stepper/adams_bashforth.hpp, stepper/adams_bashforth_moulton.hpp, stepper/adams_moulton.hpp, stepper/base/explicit_error_stepper_base.hpp, stepper/base/explicit_stepper_base.hpp, stepper/detail/adams_bashforth_call_algebra.hpp, stepper/detail/adams_bashforth_coefficients.hpp, stepper/detail/adams_moulton_call_algebra.hpp, stepper/detail/adams_moulton_coefficients.hpp, stepper/detail/rotating_buffer.hpp, stepper/extrapolation_stepper.hpp |
| `M_BS.v` | stepper/bulirsch_stoer.hpp, stepper/bulirsch_stoer_dense_out.hpp |
| `M_BSDense.v` | stepper/bulirsch_stoer_dense_out.hpp, stepper/modified_midpoint.hpp |
| `M_Checked.v` | integrate/check_adapter.hpp, integrate/integrate_const.hpp |
| `M_Checker.v` | integrate/max_step_checker.hpp |
| `M_Controlled.v` | integrate/detail/integrate_adaptive.hpp, integrate/detail/integrate_const.hpp, integrate/detail/integrate_n_steps.hpp, integrate/detail/integrate_times.hpp |
| `M_CtrlRK.v` | algebra/array_algebra.hpp, algebra/default_operations.hpp, algebra/detail/norm_inf.hpp, algebra/range_algebra.hpp, stepper/base/explicit_error_stepper_base.hpp, stepper/base/explicit_error_stepper_fsal_base.hpp, stepper/controlled_runge_kutta.hpp, stepper/rosenbrock4_controller.hpp, stepper/runge_kutta_dopri5.hpp |
| `M_Dense.v` | integrate/check_adapter.hpp, integrate/detail/integrate_adaptive.hpp, integrate/detail/integrate_const.hpp, integrate/detail/integrate_n_steps.hpp, integrate/detail/integrate_times.hpp, integrate/integrate_adaptive.hpp, integrate/integrate_const.hpp, integrate/integrate_n_steps.hpp, integrate/integrate_times.hpp |
| `M_DenseRK.v` | integrate/detail/integrate_const.hpp, stepper/base/explicit_stepper_base.hpp, stepper/dense_output_runge_kutta.hpp, stepper/euler.hpp, stepper/runge_kutta_dopri5.hpp |
| `M_Factory.v` | stepper/controlled_adams_bashforth_moulton.hpp, stepper/detail/pid_step_adjuster.hpp, stepper/detail/rotating_buffer.hpp, stepper/generation/generation_controlled_adams_bashforth_moulton.hpp, stepper/generation/make_controlled.hpp |
| `M_FsalSized.v` | stepper/base/explicit_error_stepper_fsal_base.hpp, stepper/runge_kutta_dopri5.hpp, util/resizer.hpp |
| `M_Gsl.v` | algebra/detail/for_each.hpp, external/gsl/gsl_wrapper.hpp, util/resizer.hpp |
| `M_Implicit.v` | stepper/implicit_euler.hpp, stepper/rosenbrock4.hpp, stepper/rosenbrock4_controller.hpp, stepper/rosenbrock4_dense_output.hpp |
| `M_Integrate.v` | integrate/integrate.hpp, stepper/controlled_runge_kutta.hpp, stepper/generation/generation_controlled_runge_kutta.hpp, stepper/generation/generation_runge_kutta_dopri5.hpp, stepper/generation/make_controlled.hpp |
| `M_Iter.v` | integrate/integrate_adaptive.hpp, integrate/observer_collection.hpp, iterator/const_step_time_iterator.hpp, iterator/detail/ode_iterator_base.hpp, iterator/impl/adaptive_iterator_impl.hpp, iterator/impl/const_step_iterator_impl.hpp, iterator/impl/n_step_iterator_impl.hpp, iterator/impl/times_iterator_impl.hpp, iterator/integrate/detail/functors.hpp, iterator/integrate/detail/integrate_adaptive.hpp, iterator/integrate/detail/integrate_const.hpp |
| `M_LU.v` | stepper/implicit_euler.hpp, stepper/rosenbrock4.hpp |
| `M_MArray.v` | algebra/detail/for_each.hpp, algebra/multi_array_algebra.hpp, stepper/base/explicit_stepper_base.hpp, stepper/euler.hpp, util/multi_array_adaption.hpp, util/resizer.hpp, util/state_wrapper.hpp |
| `M_MMStep.v` | stepper/base/explicit_stepper_base.hpp, stepper/modified_midpoint.hpp |
| `M_MakeDense.v` | stepper/controlled_runge_kutta.hpp, stepper/dense_output_runge_kutta.hpp, stepper/generation/generation_dense_output_runge_kutta.hpp, stepper/generation/generation_rosenbrock4.hpp, stepper/generation/make_dense_output.hpp, stepper/rosenbrock4.hpp, stepper/rosenbrock4_controller.hpp, stepper/rosenbrock4_dense_output.hpp |
| `M_Midpoint.v` | algebra/default_operations.hpp, stepper/base/explicit_error_stepper_base.hpp, stepper/base/explicit_stepper_base.hpp, stepper/bulirsch_stoer.hpp, stepper/bulirsch_stoer_dense_out.hpp, stepper/extrapolation_stepper.hpp, stepper/modified_midpoint.hpp |
| `M_Mkl.v` | algebra/vector_space_algebra.hpp, external/mkl/mkl_operations.hpp |
| `M_Mpi.v` | external/mpi/mpi_nested_algebra.hpp, external/mpi/mpi_state.hpp, integrate/detail/integrate_adaptive.hpp, stepper/controlled_runge_kutta.hpp, util/state_wrapper.hpp |
| `M_MpiFsal.v` | external/mpi/mpi_state.hpp, integrate/detail/integrate_adaptive.hpp, stepper/controlled_runge_kutta.hpp |
| `M_MpiInt.v` | integrate/detail/integrate_adaptive.hpp, stepper/controlled_runge_kutta.hpp |
| `M_MpiStep.v` | external/mpi/mpi_nested_algebra.hpp, stepper/base/explicit_error_stepper_base.hpp, stepper/base/explicit_stepper_base.hpp |
| `M_Mtl.v` | external/mtl4/implicit_euler_mtl4.hpp |
| `M_Num.v` | algebra/default_operations.hpp, integrate/detail/integrate_const.hpp, stepper/controlled_runge_kutta.hpp, util/detail/less_with_sign.hpp |
| `M_Par.v` | algebra/array_algebra.hpp, algebra/default_operations.hpp, algebra/detail/for_each.hpp, algebra/detail/norm_inf.hpp, algebra/fusion_algebra.hpp, algebra/range_algebra.hpp, external/compute/compute_operations.hpp, external/mpi/mpi_nested_algebra.hpp, external/mpi/mpi_vector_state.hpp, external/openmp/openmp_nested_algebra.hpp, external/openmp/openmp_range_algebra.hpp, external/openmp/openmp_state.hpp, external/thrust/thrust_algebra.hpp, external/thrust/thrust_operations.hpp, util/split_adaptor.hpp |
| `M_Pid.v` | stepper/detail/pid_step_adjuster.hpp, stepper/detail/pid_step_adjuster_coefficients.hpp |
| `M_Plain.v` | integrate/detail/integrate_adaptive.hpp, integrate/detail/integrate_const.hpp, integrate/detail/integrate_n_steps.hpp, integrate/detail/integrate_times.hpp |
| `M_RK.v` | algebra/default_operations.hpp, algebra/detail/for_each.hpp, stepper/base/explicit_error_stepper_base.hpp, stepper/base/explicit_error_stepper_fsal_base.hpp, stepper/base/explicit_stepper_base.hpp, stepper/detail/generic_rk_algorithm.hpp, stepper/detail/generic_rk_call_algebra.hpp, stepper/detail/generic_rk_operations.hpp, stepper/euler.hpp, stepper/explicit_error_generic_rk.hpp, stepper/explicit_generic_rk.hpp, stepper/runge_kutta4.hpp, stepper/runge_kutta4_classic.hpp, stepper/runge_kutta_cash_karp54.hpp, stepper/runge_kutta_cash_karp54_classic.hpp, stepper/runge_kutta_dopri5.hpp, stepper/runge_kutta_fehlberg78.hpp |
| `M_Resize.v` | algebra/detail/for_each.hpp, stepper/base/explicit_error_stepper_base.hpp, stepper/base/explicit_error_stepper_fsal_base.hpp, stepper/base/explicit_stepper_base.hpp, stepper/explicit_generic_rk.hpp, stepper/runge_kutta4_classic.hpp, stepper/runge_kutta_cash_karp54_classic.hpp, stepper/runge_kutta_dopri5.hpp, util/copy.hpp, util/resize.hpp, util/resizer.hpp, util/same_size.hpp |
| `M_Run.v` | integrate/detail/integrate_adaptive.hpp, integrate/detail/integrate_const.hpp, integrate/max_step_checker.hpp, integrate/null_observer.hpp, iterator/impl/adaptive_iterator_impl.hpp, util/odeint_error.hpp |
| `M_Sign.v` | util/detail/less_with_sign.hpp |
| `M_Symp.v` | stepper/base/symplectic_rkn_stepper_base.hpp, stepper/symplectic_euler.hpp, stepper/symplectic_rkn_sb3a_m4_mclachlan.hpp, stepper/symplectic_rkn_sb3a_mclachlan.hpp, stepper/velocity_verlet.hpp |
| `M_Ublas.v` | algebra/algebra_dispatcher.hpp, algebra/vector_space_algebra.hpp, stepper/controlled_runge_kutta.hpp, util/ublas_wrapper.hpp |

ublas (`lu_factorize`, `lu_substitute`, `norm_2`), `std::for_each`, `std::copy`, `std::vector`, `std::pow`, `std::atan`, OpenMP, MPI and thrust primitives are external: they are modelled from their documentation or are parameters of the model.

### Not modelled

* Headers that only dispatch types, forward declarations or includes, without behaviour at run time: algebra/detail/extract_value_type.hpp, algebra/detail/macros.hpp, algebra/fusion_algebra_dispatcher.hpp, algebra/norm_result_type.hpp, algebra/operations_dispatcher.hpp, config.hpp, external/blaze/blaze_algebra_dispatcher.hpp, external/compute/compute.hpp, external/compute/compute_algebra_dispatcher.hpp, external/compute/compute_operations_dispatcher.hpp, external/eigen/eigen.hpp, external/eigen/eigen_algebra_dispatcher.hpp, external/mpi/mpi.hpp, external/mtl4/mtl4.hpp, external/mtl4/mtl4_algebra_dispatcher.hpp, external/nt2/nt2_algebra_dispatcher.hpp, external/openmp/openmp.hpp, external/thrust/thrust.hpp, external/thrust/thrust_algebra_dispatcher.hpp, external/thrust/thrust_operations_dispatcher.hpp, external/vexcl/vexcl.hpp, external/vexcl/vexcl_algebra_dispatcher.hpp, external/vexcl/vexcl_same_instance.hpp, stepper/generation.hpp, stepper/stepper_categories.hpp, util/bind.hpp, util/detail/is_range.hpp, util/is_pair.hpp, util/n_ary_helper.hpp, util/same_instance.hpp, util/split.hpp, util/stepper_traits.hpp, util/unit_helper.hpp, util/unwrap_reference.hpp, version.hpp.
* Everything else: external/blaze/blaze_resize.hpp, external/compute/compute_algebra.hpp, external/compute/compute_resize.hpp, external/eigen/eigen_algebra.hpp, external/eigen/eigen_resize.hpp, external/mtl4/mtl4_resize.hpp, external/nt2/nt2_copy.hpp, external/nt2/nt2_norm_inf.hpp, external/nt2/nt2_resize.hpp, external/thrust/thrust_resize.hpp, external/vexcl/vexcl_abs.hpp, external/vexcl/vexcl_copy.hpp, external/vexcl/vexcl_norm_inf.hpp, external/vexcl/vexcl_resize.hpp, external/viennacl/viennacl_operations.hpp, external/viennacl/viennacl_resize.hpp, iterator/adaptive_iterator.hpp, iterator/adaptive_time_iterator.hpp, iterator/const_step_iterator.hpp, iterator/n_step_iterator.hpp, iterator/n_step_time_iterator.hpp, iterator/times_iterator.hpp, iterator/times_time_iterator.hpp, stepper/base/algebra_stepper_base.hpp, stepper/controlled_step_result.hpp, stepper/generation/generation_runge_kutta_cash_karp54.hpp, stepper/generation/generation_runge_kutta_cash_karp54_classic.hpp, stepper/generation/generation_runge_kutta_fehlberg78.hpp, util/is_resizeable.hpp. These are adapters for other containers and libraries or factories; what they adapt is outside the repository.
* Inside modelled files: units (Boost.Units), copy constructors and assignment of steppers, `adjust_size` overloads unless listed under C57/C58, documentation-only members.

## 5. Status of the properties

The module is the file in `rocq/theories` that holds the theorem. Axioms: 0 = closed under the global context; E = `functional_extensionality_dep`; R = the two axioms `sig_forall_dec`, `sig_not_dec` of the real numbers (with E); C = `Classical_Prop.classic`.

| Id | Status | Theorems (module, axioms) | Note |
|---|---|---|---|
| C01 | proved | `C01_n_steps_run` (T_Plain, 0), `C01_n_steps` (T_Plain, 0) | integrate_n_steps with a fixed-step stepper: exact step and observation schedule: Any number type, any (also throwing) stepper and observer; the schedule is an independent definition. |
| C02 | proved | `C02_const_run` (T_Plain, 0), `C02_const_returns` (T_Plain, 0), `C02_const_observations` (T_Plain, 0), `C02_const_interval` (T_Plain, RE) | integrate_const with a fixed-step stepper: observation grid, step count, and coverage of the interval: Law-free schedule plus termination and interval bounds over the reals with any eps. |
| C03 | proved | `C03_adaptive_run` (T_Plain, 0), `C03_adaptive_covers` (T_Plain, RE) | integrate_adaptive with a fixed-step stepper lands exactly on the end time: Law-free schedule; coverage of the interval over the reals for eps >= 0. |
| C04 | proved | `C04_adaptive_controlled` (T_Ctrl, RE) | integrate_adaptive with a controlled stepper: monotone observations, never past the end, ends at the end: Over the reals, any eps >= 0, any controlled stepper obeying try_contract; also for runs ending in an exception. |
| C05 | proved | `C05_const_controlled_grid` (T_Ctrl, 0), `C05_const_controlled_cover` (T_Ctrl, RE) | integrate_const with a controlled stepper observes on the equidistant grid whatever the controller does: Grid part law-free for any stepper; coverage of each grid interval over the reals. |
| C06 | proved | `C06_n_steps_controlled` (T_Ctrl, 0), `C06_n_steps_controlled_cover` (T_Ctrl, RE) | integrate_n_steps with a controlled stepper: n grid intervals, n+1 observations: Grid part law-free for any stepper; coverage of each grid interval over the reals. |
| C07 | refuted | `C07_const_dense_no_step_refuted` (T_Dense, 0), `C07_const_dense_past_end_refuted` (T_Dense, 0), `C07_const_dense_extrapolates_refuted` (T_Dense, 0), `C07_const_dense_partial` (T_Dense, RE) | integrate_const with a dense-output stepper only evaluates the interpolant where it is valid: REFUTED in three ways (interpolant used before any step; observations past the end; final observation extrapolated). The partial theorem proves everything else: grid, validity of all other interpolations, coverage, result. |
| C08 | proved | `C08_adaptive_dense` (T_Dense, RE), `C08_adaptive_dense_count` (T_Dense, 0) | integrate_adaptive with a dense-output stepper: monotone observations, ends at the end, final state returned: Over the reals, any eps >= 0, any dense stepper obeying dense_contract; also for runs cut off. |
| C09 | proved | `C09_n_steps_dense` (T_Dense, RE) | integrate_n_steps with a dense-output stepper observes n+1 grid points: Over the reals, any eps >= 0, both directions. |
| C10 | refuted | `C10_n_steps_dense_state_refuted` (T_Dense, 0) | integrate_n_steps leaves the final state in the caller's variable for every stepper kind: REFUTED for dense output steppers: the caller variable holds the state of the last interpolated grid point (n-1), not the final state. |
| C11 | proved | `C11_times_run` (T_Plain, RE) | integrate_times with a fixed-step stepper observes at exactly the given times: Over the reals, any eps >= 0, any stepper and observer. |
| C12 | proved | `C12_times_controlled` (T_Ctrl, RE) | integrate_times with a controlled stepper observes at exactly the given times and never steps over one: Over the reals, any eps >= 0, any controlled stepper obeying try_contract. |
| C13 | proved | `C13_times_dense` (T_Dense, RE) | integrate_times with a dense-output stepper observes at exactly the given times with a valid interpolant: Over the reals, any eps >= 0, times more than eps apart. |
| C14 | refuted | `C14_times_plain_refuted` (T_Plain, 0), `C14_times_controlled_refuted` (T_Ctrl, 0), `C14_times_dense_empty` (T_Dense, 0) | integrate_times accepts an empty time sequence: REFUTED: integrate_times with a plain or controlled stepper and an empty range dereferences the end iterator (undefined behaviour); proved for dense output steppers. |
| C15 | proved | `C15_rejections_bounded` (T_Ctrl, 0), `C15_persistent_rejection_throws` (T_Ctrl, 0), `C15_exception_only_after_rejections` (T_Ctrl, 0) | Step-size search is bounded: persistent rejection ends in an exception, never in an endless loop: Law-free, all four controlled drivers. |
| C16 | proved | `C16_throws_iff` (T_Check, 0) | max_step_checker throws exactly when more than max_steps steps happen without an observation: Law-free; all nine driver/stepper combinations; step checkers never raise on a run within the limit and always raise on one that is not. |
| C17 | refuted | `C17_const_controlled_refuted` (T_Check, 0), `C17_const_null_observer_refuted` (T_Check, 0), `C17_plain` (T_Check, 0), `C17_times_controlled` (T_Check, 0), `C17_const_n_steps_controlled_partial` (T_Check, 0), `C17_const_n_steps_controlled_by_ref` (T_Check, 0), `C17_dense` (T_Check, 0) | Step checking is transparent: a checked run that does not throw equals the unchecked run: REFUTED for integrate_const with a controlled stepper with internal state (checked: shared by reference, unchecked: copied per interval) and for integrate_const without observer (checked call runs integrate_adaptive). Proved for all other combinations. |
| C18 | proved | `C18_plain` (T_Mirror, RE), `C18_controlled` (T_Mirror, RE), `C18_dense` (T_Mirror, RE) | Backward integration is the mirror image of forward integration: Over the reals, any eps >= 0; plain, controlled and dense output steppers; whole event trace, result and exceptions are mirrored. |
| C19 | proved | `C19_const` (T_Iter, 0), `C19_n_steps` (T_Iter, 0), `C19_adaptive` (T_Iter, 0), `C19_adaptive_dense` (T_Iter, RE) | ODE iterators traverse exactly the observations of the corresponding integrate function: Law-free equality of whole runs for plain and controlled steppers (up to the different attempt limits 500 / 1000); reals, contract and step sizes above 2 eps for dense output. |
| C20 | refuted | `C20_last_attempt_refuted` (T_Iter, 0), `C20_exception_partial` (T_Iter, 0), `C20_success_partial` (T_Iter, 0) | An ODE iterator accepts every step that the stepper can complete: REFUTED: when the 1000th attempt succeeds the increment still throws overflow_error. Proved: the exception implies 999 rejections. |
| C21 | proved | `C21_call` (T_Iter, 0), `C21_n_steps` (T_Iter, 0), `C21_const` (T_Iter, 0) | observer_collection forwards every observation to every observer in order: Law-free; one call for any member list, whole runs of integrate_n_steps and integrate_const for any number of members. |
| C22 | proved | `C22_explicit` (T_CtrlRK, 0), `C22_in_place` (T_CtrlRK, 0), `C22_fsal` (T_CtrlRK, 0), `C22_no_memory` (T_CtrlRK, E), `C22_method` (T_CtrlRK, RE) | A rejected step of controlled_runge_kutta has no effect on state and time; an accepted one advances by the attempted step: Law-free; C22_method identifies the accepted state with one step of the Butcher tableau over the reals. |
| C23 | proved | `C23_explicit` (T_CtrlRK, REC), `C23_fsal` (T_CtrlRK, REC) | An accepted step of controlled_runge_kutta meets the user's tolerance in every component: Over the reals, any underlying stepper. FSAL form under the cache invariant established by C22_fsal. |
| C24 | refuted | `C24_nan_accepted_refuted` (T_CtrlRK, 0), `C24_run_refuted` (T_CtrlRK, 0) | controlled_runge_kutta never accepts a step whose error estimate is not a number: REFUTED: norm_inf computes max(0,NaN)=0, so an estimate that is NaN in every component is accepted; binary64 run with Cash-Karp. |
| C25 | proved | `C25_rejection` (T_CtrlRK, REC), `C25_fsal` (T_CtrlRK, REC), `C25_geometric` (T_CtrlRK, REC) | A rejected step is shortened by a bounded factor and keeps its direction: Over the reals with the real power function. |
| C26 | refuted | `C26_acceptance_partial` (T_CtrlRK, REC), `C26_fsal_partial` (T_CtrlRK, REC), `C26_fehlberg78_refuted` (T_CtrlRK, REC) | After acceptance the step never shrinks and grows by at most a factor 4.5: REFUTED for fehlberg78 (order 8: 0.9*0.49^(-1/8) < 1); proved for orders up to 6, upper bound 4.5 for all orders. |
| C27 | proved | `C27_explicit` (T_CtrlRK, REC), `C27_fsal` (T_CtrlRK, REC), `C27_rosenbrock` (T_CtrlRK, REC) | The maximal step size is respected when it has the direction of integration: Over the reals; the limit test tolerates machine epsilon. |
| C28 | refuted | `C28_refuted` (T_CtrlRK, REC), `C28_rosenbrock_refuted` (T_CtrlRK, REC), `C28_run_refuted` (T_CtrlRK, 0), `C28_partial` (T_CtrlRK, REC) | A step limit never reverses the direction of integration: REFUTED: positive max_dt with backward integration gives dt := +max_dt; run of integrate_adaptive that ends at the wrong side. Proved when max_dt has the sign of dt. |
| C29 | proved | `C29_controlled` (T_CtrlRK, E), `C29_do_step` (T_CtrlRK, E), `C29_do_step_error` (T_CtrlRK, E), `C29_integrate_adaptive` (T_CtrlRK, E) | FSAL caching is invisible: the cached derivative always equals the system evaluated at the current point: Law-free, every call sequence; whole runs of integrate_adaptive. |
| C30 | proved | `C30_effect` (T_CtrlRK, 0), `C30_bounds` (T_CtrlRK, REC), `C30_flag` (T_CtrlRK, REC), `C30_nan` (T_CtrlRK, 0) | rosenbrock4_controller: acceptance, step bounds and NaN rejection: Bounds over the reals, NaN rejection in binary64 for pow and sqrt that propagate NaN. |
| C31 | proved | `C31_tables` (T_BS, E), `C31_step_size` (T_BS, REC) | Bulirsch-Stoer stays inside its tables and within its order bounds for every error history: Tables law-free for every call sequence of the three try_step overloads and reset; step size bounds over the reals. |
| C32 | refuted | `C32_tables_partial` (T_BS, 0), `C32_refuted` (T_BS, 0), `C32_calc_refuted` (T_BS, 0) | bulirsch_stoer_dense_out stays inside its tables even when it is re-initialized: REFUTED: initialize keeps m_current_k_opt = 7 and the next first step reads m_cost out of bounds (rational run); calc_state before the first step uses an unset m_k_final. Proved for re-initialization while k_opt <= 6. |
| C33 | refuted | `C33_forward_partial` (T_BS, REC), `C33_backward_refuted` (T_BS, REC), `C33_refuted` (T_BS, 0) | bulirsch_stoer_dense_out makes progress backward as well as forward: REFUTED: backward the second rejection in a row keeps dt (comparison new_h < dt ignores the sign), do_step then always throws. Proved forward. |
| C34 | proved | `C34_generic` (T_RK, E), `C34_generic_error` (T_RK, E), `C34_textbook` (T_RK, RE) | The generic Runge-Kutta algorithm computes the method of its Butcher tableau: Law-free for any number of stages and any tableau, states indexed by any type; buffers with aliasing; plus the textbook formulas over the reals. |
| C35 | proved | `C35_rk4` (T_RK, RE), `C35_cash_karp` (T_RK, RE), `C35_cash_karp_noerror` (T_RK, RE) | The hand-written classic steppers equal their generic counterparts: Over the reals; equality of the whole memory and of the system calls. |
| C36 | proved | `C36_order` (T_RK, RE), `C36_polynomial` (T_RK, RE), `C36_linear_system` (T_RK, RE), `C36_sharp` (T_RK, 0) | The Runge-Kutta steppers have the order they report: All order conditions of all rooted trees up to order() (complete enumeration proved sound), polynomial exactness and linear systems over the reals. That the order conditions imply local error O(dt^(p+1)) for smooth nonlinear systems is the classical theorem and is not part of the development. |
| C37 | proved | `C37_error` (T_RK, RE), `C37_polynomial` (T_RK, RE) | The embedded error estimate is the difference of two consistent methods of the reported orders: Over the reals, all error steppers. |
| C38 | proved | `C38_linear_map` (T_RK, RE), `C38_invariant` (T_RK, RE), `C38_invariant_generic` (T_RK, RE), `C38_integrate` (T_RK, RE), `C38_adams_bashforth` (T_Adams, RE), `C38_adams_bashforth_moulton` (T_Adams, RE), `C38_dopri5` (T_Adams, RE) | Runge-Kutta and Adams steps preserve every linear invariant and commute with linear changes of variables: Single steps of every explicit Runge-Kutta stepper and whole runs of the four plain integrate functions with Runge-Kutta, dopri5 (kept derivative), Adams-Bashforth and Adams-Bashforth-Moulton. |
| C39 | proved | `C39_in_place_partial` (T_RK, E), `C39_in_place_error_partial` (T_RK, E), `C39_midpoint` (T_Midpoint, E), `C39_rosenbrock` (T_Implicit, E) | In-place and out-of-place do_step agree for the Runge-Kutta steppers: Law-free for all Runge-Kutta steppers (the two theorems named _partial), modified_midpoint and rosenbrock4; together the whole list. |
| C40 | refuted | `C40_refuted` (T_Midpoint, 0), `C40_dxdt_partial` (T_Midpoint, E) | In-place and out-of-place do_step agree for extrapolation_stepper: REFUTED: the in-place call overwrites the initial state that later midpoint runs start from; 7/3 instead of 1 for x prime = 1. |
| C41 | proved | `C41_dopri5_dense` (T_RK, RE), `C41_dense_order` (T_RK, RE), `C41_dense_polynomial` (T_RK, RE) | dopri5 dense output interpolates both ends of the step smoothly: Over the reals, dt <> 0; also order 4 of the interpolant at every theta. |
| C42 | proved | `C42_euler_partial` (T_RK, RE), `C42_rosenbrock` (T_Implicit, RE) | rosenbrock4 and euler dense output interpolate both ends of the step: C42_euler_partial is the Euler half, C42_rosenbrock the rosenbrock4_dense_output half; together the whole property. |
| C43 | proved | `C43_adams_bashforth` (T_Adams, RE), `C43_adams_moulton` (T_Adams, RE), `C43_run` (T_Adams, RE), `C43_moulton_run` (T_Adams, RE), `C43_start` (T_Adams, RE) | Adams-Bashforth and Adams-Moulton steps are exact for polynomials of the method's degree: Over the reals, every order 1..8, single steps with exact history and whole runs from an exact start. |
| C44 | refuted | `C44_refuted` (T_Adams, RE) | adams_moulton reports its true order: REFUTED: for every k = 1..8 order() of adams_moulton is k+1 while the step is not exact at degree k+1; the corrector of k steps has order k. |
| C45 | proved | `C45_history` (T_Adams, E), `C45_step` (T_Adams, E), `C45_start` (T_Adams, E), `C45_initialize` (T_Adams, E), `C45_queue` (T_Adams, 0), `C45_resize` (T_Adams, 0) | adams_bashforth keeps a correctly aligned history: Law-free, every call sequence. |
| C46 | proved | `C46_step` (T_Symp, RE), `C46_run` (T_Symp, RE), `C46_named` (T_Symp, RE) | Symplectic steppers preserve the symplectic form: Actual derivatives along curves; every dimension and coefficients, any sequence of steps. |
| C47 | proved | `C47_sb3a_mclachlan` (T_Symp, RE), `C47_sb3a_m4_mclachlan` (T_Symp, RE), `C47_velocity_verlet` (T_Symp, RE) | The symmetric symplectic steppers and velocity_verlet are time reversible: Over the reals; velocity_verlet for forces that do not depend on the velocity. |
| C48 | proved | `C48_cache` (T_Symp, 0), `C48_calls` (T_Symp, 0) | velocity_verlet's cached acceleration equals the freshly computed one: Law-free, every sequence of steps, resets, resizes and initializations. |
| C49 | proved | `C49_table` (T_Midpoint, RE), `C49_extrapolation_stepper` (T_Midpoint, RE), `C49_bulirsch_stoer` (T_BS, REC) | Extrapolation reproduces the Aitken-Neville limit: Over the reals; all table sizes and step sequences with distinct entries. |
| C50 | proved | `C50_gragg` (T_Midpoint, E), `C50_unique` (T_Midpoint, E), `C50_linear` (T_Midpoint, RE) | modified_midpoint is the Gragg scheme of the configured number of steps: Law-free Gragg scheme with evaluation log, exactness over the reals. |
| C51 | refuted | `C51_refuted` (T_Implicit, RE), `C51_linear_partial` (T_Implicit, RE), `C51_dim1_partial` (T_Implicit, RE) | implicit_euler solves the implicit equation for linear systems: REFUTED: from dimension 2 on do_step can call exit(0) for an affine system with invertible I - dt J, because the LU factors are factorised again in the second Newton iteration. Holds in dimension 1; a returned state always solves the equation. |
| C52 | refuted | `C52_refuted` (T_Implicit, RE), `C52_first_partial` (T_Implicit, RE), `C52_dim1_partial` (T_Implicit, RE) | implicit_euler uses the system's Jacobian in every Newton iteration: REFUTED: from the second Newton iteration on the matrix is the packed LU factors, not dt J - I. Holds for the first iteration and in dimension 1. |
| C53 | proved | `C53_cuts` (T_Par, 0), `C53_bound_sharp` (T_Par, 0) | Splitting a range into parts is a partition: For lengths below 2^64 and up to 2^63 parts; beyond that the signed conversion is wrong (C53_bound_sharp). |
| C54 | proved | `C54_openmp` (T_Par, 0), `C54_mpi` (T_Par, 0) | split followed by unsplit is the identity: For mpi_state the target of unsplit must already have room (it is not resized). |
| C55 | proved | `C55_range` (T_Par, 0), `C55_nested` (T_Par, 0), `C55_norm_range` (T_Par, 0), `C55_norm_nested` (T_Par, 0), `C55_norm_mpi` (T_Par, 0), `C55_norm_f64` (T_Par, 0) | Parallel algebra results do not depend on the schedule: Iterations are interleaved at the level of single assignments; reductions for every partition and combination tree, in double precision including NaN. |
| C56 | proved | `C56_real` (T_Par, RE), `C56_parallel` (T_Par, RE), `C56_f64` (T_Par, 0) | norm_inf is the maximum absolute component for every algebra:  |
| C57 | proved | `C57_always` (T_Resize, 0), `C57_initially` (T_Resize, 0), `C57_adjust_size` (T_Resize, 0) | always_resizer keeps buffers large enough; initially_resizer is safe as long as the size does not change: Sizes only; the system function is assumed to write as many derivatives as the state has components. |
| C58 | refuted | `C58_refuted` (T_Resize, 0), `C58_larger` (T_Resize, 0), `C58_smaller` (T_Resize, 0) | A stepper can be reused with a state of a different size: REFUTED: with initially_resizer every explicit Runge-Kutta stepper leaves its buffers on a larger state, all but euler also on a smaller one. |
| C59 | proved | `C59_in_bounds` (T_AABM, 0), `C59_exact_extrapolation` (T_AABM, REC), `C59_quadrature` (T_AABM, REC), `C59_controlled` (T_AABM, REC) | adaptive_adams_bashforth_moulton predicts by exact polynomial extrapolation on non-uniform steps: Over the reals for the exactness, law-free for the bounds. Every sequence of steps with pairwise different times, starting from new, reset or initialized objects; also for the attempts of controlled_adams_bashforth_moulton. |
| C60 | proved | `C60_order` (T_AABM, 0), `C60_history` (T_AABM, 0), `C60_order_by_one` (T_AABM, 0) | controlled_adams_bashforth_moulton keeps its order within bounds: Any norm, step adjuster and threshold, any number type. |
| C61 | proved | `C61_forward` (T_Pid, REC), `C61_backward` (T_Pid, REC) | The PID step adjuster keeps direction, bounds the growth and rejects invalid errors: Over the reals with the function atan; any pow and coefficients. Errors whose norm is 0 are excluded (division by zero in the source). |
| C62 | refuted | `C62_refuted` (T_Float, 0), `C62_exact_grid` (T_Float, 0), `C62_operations` (T_Float, 0) | integrate_const reaches an end time that is an exact multiple of dt away, in double precision: REFUTED: 1024 + 2*(1 + 3*2^-43) is a double and the end time, but integrate_const makes one step and stops a full step before the end. Proved in binary64 for all start times and steps whose grid points are all doubles (C62_exact_grid). |
| C63 | refuted | `C63_n_steps_dense_backward_refuted` (T_Dense, 0), `C09_n_steps_dense` (T_Dense, RE) | integrate_n_steps with a dense-output stepper labels its final observation with the stepper's time: REFUTED for backward integration (plain < in line 140); the forward case is proved in the last conjunct of C09_n_steps_dense. |
| C64 | refuted | `C64_last_step_stepper_refuted` (T_Plain, 0) | The last shortened step of integrate_adaptive with a plain stepper continues with the stepper used before: REFUTED: integrate_const receives a copy of the stepper; the last step is made with the original object, so a multistep history is lost. |
| C65 | refuted | `C65_dense_refuted` (T_Iter, 0) | Const-step and n-step iterators of dense-output steppers show what integrate_const / integrate_n_steps observe: REFUTED: the iterator does not shorten the last step, so the state shown at the end point differs from the one integrate_const observes. |
| C66 | refuted | `C66_empty_refuted` (T_Iter, 0), `C66_dense_state_refuted` (T_Iter, 0), `C66_const_partial` (T_Iter, 0), `C66_adaptive_partial` (T_Iter, 0) | The iterator-based integrate functions compute the same result as the plain ones: REFUTED: empty interval returns 2^64-1 steps; integrate_adaptive with a dense output stepper leaves start_state unchanged. Proved on non-empty intervals for plain and controlled steppers. |
| C67 | refuted | `C67_binary64_refuted` (T_Iter, 0), `C67_times_partial` (T_Iter, RE) | A times iterator visits exactly the requested times: REFUTED in double precision: the label is an accumulated time (0.2 -> 0.9 shows 0.8999...). Proved in exact arithmetic (eps = 0, plain steppers). |
| C68 | refuted | `C68_empty_times_refuted` (T_Iter, 0) | A times iterator over an empty range is an end iterator: REFUTED: the constructor dereferences the begin iterator before testing for an empty range. |
| C69 | proved | `C69_plain` (T_RK, 0), `C69_controlled` (T_RK, 0), `C69_dense` (T_RK, 0) | State invariants kept by one step are kept by every integrate function: Law-free, any outcome of the run. |
| C70 | proved | `C70_explicit` (T_CtrlRK, REC), `C70_fsal` (T_CtrlRK, REC), `C70_rosenbrock` (T_CtrlRK, REC), `C70_adaptive` (T_CtrlRK, REC) | The controllers of the library satisfy the contract under which the integrate functions are correct: Over the reals, without step limit. |
| C71 | refuted | `C71_fehlberg78_refuted` (T_CtrlRK, REC) | The error estimate of a controlled stepper sees the error of a quadrature: REFUTED: the error weights of fehlberg78 pair equal abscissae, every step is accepted and the step grows by 4.5. |
| C72 | refuted | `C72_stale_refuted` (T_CtrlRK, 0) | A first-same-as-last stepper may be applied to any state: REFUTED: the cached derivative of the previous state is used (documented requirement to call reset()). |
| C73 | proved | `C73_explicit` (T_CtrlTerm, REC), `C73_fsal` (T_CtrlTerm, REC) | integrate_adaptive with a controlled Runge-Kutta stepper terminates and reaches the end for every bounded system: Over the reals; all error steppers. |
| C74 | proved | `C74_uninitialised` (T_BS, E) | Members of bulirsch_stoer that the constructor leaves uninitialised never influence a result: Law-free, every call sequence. |
| C75 | refuted | `C75_refuted` (T_BS, 0) | bulirsch_stoer backward is the mirror image of bulirsch_stoer forward: REFUTED: work per unit step is negative for dt < 0, the order selection is reversed; rational witness. |
| C76 | proved | `C76_contract` (T_BS, REC) | bulirsch_stoer satisfies the contract under which the integrate functions are correct: Over the reals, without step limit. |
| C77 | proved | `C77_terminates` (T_BS, REC) | integrate_adaptive with bulirsch_stoer terminates and reaches the end for every bounded system: Over the reals, bounded systems, without step limit. |
| C78 | refuted | `C78_refuted` (T_Adams, 0), `C78_run_refuted` (T_Adams, 0), `C78_runge_kutta_init` (T_Adams, E) | adams_bashforth in place and out of place agree: REFUTED with the default initializing stepper (extrapolation_stepper reads its overwritten input); proved for every Runge-Kutta initializing stepper. |
| C79 | refuted | `C79_refuted` (T_Adams, 0) | adams_bashforth_moulton restarts after a resize: REFUTED: the corrector keeps its own history, which the resize does not reset. |
| C80 | refuted | `C80_refuted` (T_Adams, 0) | adams_bashforth under a changing step width: REFUTED: integrate_times shortens steps without a restart; rational witness. |
| C81 | proved | `C81_aliasing` (T_Symp, 0), `C81_overloads` (T_Symp, 0), `C81_single` (T_Symp, 0) | All do_step overloads of the symplectic steppers agree: Law-free. |
| C82 | proved | `C82_step` (T_Symp, RE), `C82_verlet` (T_Symp, RE), `C82_integrate` (T_Symp, RE) | Symplectic steppers and velocity_verlet conserve linear functions of the momenta: Over the reals. |
| C83 | refuted | `C83_refuted` (T_Symp, RE) | velocity_verlet reports its order: REFUTED: order() returns 1, the scheme is exact for solutions of degree 2 and not for degree 3. |
| C84 | proved | `C84_sb3a_m4_mclachlan` (T_Symp, RE), `C84_sb3a_mclachlan` (T_Symp, RE) | Order four of the McLachlan steppers for linear forces: Over the reals; sqrt(7/8) enters through its square. |
| C85 | proved | `C85_invariant` (T_Implicit, RE) | rosenbrock4 preserves linear invariants:  |
| C86 | refuted | `C86_refuted` (T_Implicit, RE), `C86_reversed_sign` (T_Implicit, RE) | rosenbrock4 has its documented order 4 for time-dependent right-hand sides: REFUTED: the coefficient d4 has the wrong sign; for the ramp system the local error is between 0.03 and 0.04 dt^2. |
| C87 | proved | `C87_stages` (T_Implicit, RE) | Every stage of rosenbrock4 solves its stage equation:  |
| C88 | refuted | `C88_refuted` (T_Par, 0), `C88_double_refuted` (T_Par, 0), `C88_partial` (T_Par, RE) | thrust_algebra::norm_inf is the largest absolute component: REFUTED: the reduction keeps the sign; only the absolute value of the result is the norm. |
| C89 | refuted | `C89_refuted` (T_Par, RE), `C89_partial` (T_Par, RE) | rel_error of the thrust and compute operations agrees with default_operations: REFUTED: misplaced parenthesis; agrees for non-negative x and a_x = 1. |
| C90 | refuted | `C90_refuted` (T_Par, 0), `C90_partial` (T_Par, 0) | split of an openmp_state is balanced: REFUTED: the last block takes the whole remainder n mod p. |
| C91 | refuted | `C91_refuted` (T_Par, 0), `C91_thrust` (T_Par, 0), `C91_partial` (T_Par, 0) | scale_sum_swap2 stores the old first container in the second: REFUTED for thrust: the temporary is a reference to the first element, both containers receive the new value. Holds for default_operations. |
| C92 | refuted | `C92_in_bounds` (T_AABM, 0), `C92_large_order_out_of_bounds` (T_AABM, 0), `C92_large_order_refuted` (T_AABM, 0) | controlled_adams_bashforth_moulton stays inside its table of error constants: REFUTED for orders from 14 on: the read is out of bounds as soon as the working order is 14. Proved for orders up to 13. |
| C93 | refuted | `C93_order_from_this_step_refuted` (T_AABM, 0) | The order of controlled_adams_bashforth_moulton is chosen from estimates of the current step: REFUTED: the first steps compare with m_xerr[3], which the step has not computed. |
| C94 | refuted | `C94_initialize_controlled_exact_refuted` (T_AABM, 0) | initialize_controlled fills the history with the times of the steps taken: REFUTED: the history is stored with the step size proposed for the next step instead of the one taken. |
| C95 | proved | `C95_history` (T_Pid, REC) | The PID step adjuster combines the errors of the last accepted steps: Over the reals with the functions Rpower; any atan. |
| C96 | refuted | `C96_backward_limit_refuted` (T_Pid, REC), `C96_negative_limit_accepts_all` (T_Pid, REC), `C96_error_control_refuted` (T_Pid, REC) | The PID step adjuster respects the maximal step in both directions: REFUTED: a positive dtmax does not limit backward steps, and with a negative dtmax every step is accepted, whatever its error. Forwards it holds (C61_forward). |
| C97 | refuted | `C97_deadbeat` (T_Pid, REC), `C97_H0312_off` (T_Pid, REC), `C97_H0312_refuted` (T_Pid, REC) | The dead-beat controllers of the PID adjuster reach the tolerance in one step: REFUTED for H0312, whose coefficient 2/2 should be 2/4; proved for BASIC, H0211 and H0321. |
| C98 | refuted | `C98_nan_refuted` (T_Pid, 0) | The PID step adjuster rejects an error that is not a number: REFUTED: the maximum norm of NaNs is 0, so the step is accepted and grows by 1 + pi/2. |
| C99 | proved | `C99_dopri5` (T_DenseRK, E), `C99_euler` (T_DenseRK, 0) | dense_output_runge_kutta: initialize makes earlier use irrelevant: Any number type. Before the first do_step calc_state still works on the old interval (Example C99_before_step). |
| C100 | proved | `C100_interpolant` (T_DenseRK, REC), `C100_smooth` (T_DenseRK, REC) | dopri5 dense output is a C1 interpolant over the whole run: Over the reals; pow is Rpower. |
| C101 | proved | `C101_adaptive` (T_DenseRK, REC), `C101_times` (T_DenseRK, REC), `C101_n_steps` (T_DenseRK, REC) | integrate functions with the dopri5 dense output stepper: No step limit. Runs that throw (500 rejections) or whose fuel runs out are not covered by the conclusion. |
| C102 | refuted | `C102_refuted` (T_DenseRK, REC), `C102_partial` (T_DenseRK, 0), `C102_rosenbrock_partial` (T_Limit, 0), `C102_bulirsch_stoer_partial` (T_Limit, 0) | Dense output do_step throws only if no attempt was accepted: REFUTED: the check comes after the attempt, so an acceptance at the 501st attempt throws, with the time advanced and the state not. The _partial theorems state what happens in all cases, for dense_output_runge_kutta, rosenbrock4_dense_output and bulirsch_stoer_dense_out. |
| C103 | refuted | `C103_refuted` (T_DenseRK, 0), `C103_euler` (T_DenseRK, 0), `C103_reals` (T_DenseRK, RE) | Dense output with euler returns the current state at the current time: REFUTED in double precision: the copy at current_time is overwritten (no return). The formula of the interpolant holds in every arithmetic and meets the current state over the reals. |
| C104 | proved | `C104_mkl_steppers` (T_Back, E) | mkl_operations give the same steps as default_operations: Law-free, every aliasing; BLAS routines by their standard meaning; mkl_operations has no sums of more than five operands, so other steppers do not compile with it |
| C105 | refuted | `C105_refuted` (T_Back, 0), `C105_partial` (T_Back, RE) | The sums of mkl_operations may overwrite any of their operands: REFUTED: scale_sum2(out,a,out) copies a over out first and then reads the copy. Holds when the output is at most the first operand |
| C106 | proved | `C106_affine` (T_Back, RE) | implicit_euler_mtl4 solves the implicit equation for linear systems: Real arithmetic; bicgstab as an oracle that is exact on nonsingular matrices |
| C107 | refuted | `C107_refuted` (T_Back, RE), `C107_partial` (T_Back, RE) | implicit_euler_mtl4 solves the implicit equation up to its epsilon: REFUTED: one Newton step, m_epsilon is never read; the defect exceeds any epsilon for some right-hand side. Defect bounded by /dt/ K /x1-x/^2 |
| C108 | proved | `C108_gsl_iterator` (T_Back, 0), `C108_gsl_advance` (T_Back, 0) | gsl_vector iterators visit exactly the elements of the vector: Checked reads; termination with fuel = size |
| C109 | refuted | `C109_copy_refuted` (T_Back, 0), `C109_assign_refuted` (T_Back, 0), `C109_partial` (T_Back, 0) | Wrapped gsl_vector states can be copied: REFUTED: the copy constructor frees an indeterminate pointer, the implicit assignment leads to a double free and a leak. adjust_size is correct |
| C110 | proved | `C110_resize` (T_Back, 0), `C110_same_size` (T_Back, 0) | resize and same_size of boost::multi_array agree: Law-free, all dimensions |
| C111 | refuted | `C111_refuted` (T_Back, 0), `C111_partial` (T_Back, 0), `C111_for_each` (T_Back, 0) | Steps on boost::multi_array states act index by index: REFUTED: with Fortran storage order the derivative buffer keeps C order and its transpose is added. Holds for C storage order |
| C112 | proved | `C112_explicit` (T_Integrate, REC), `C112_dopri5` (T_Integrate, REC), `C112_integrate` (T_Integrate, REC), `C112_total` (T_Integrate, REC) | Every observation of an adaptive integration is one tolerance-respecting Runge-Kutta step after the previous one: Over the reals; observers may throw. Termination under a bound of the right-hand side between start and end |
| C113 | proved | `C113_integrate` (T_Integrate, REC), `C113_explicit` (T_Integrate, REC) | integrate() solves polynomial quadratures exactly, whatever step widths the controller chooses: Over the reals |
| C114 | proved | `C114_const` (T_Conv, REC), `C114_n_steps` (T_Conv, REC) | Runs of a Runge-Kutta stepper depend continuously on the initial state: Over the reals, maximum norm; the constant is explicit (S_Conv: growth) |
| C115 | proved | `C115_const` (T_Conv, REC), `C115_adaptive_plain` (T_Conv, REC), `C115_controlled` (T_Conv, REC), `C115_dopri5` (T_Conv, REC), `C115_const_converges` (T_Conv, REC), `C115_dopri5_converges` (T_Conv, REC) | The integrate functions converge to the solution of the differential equation: Over the reals; bound of first order in the step for all methods (the constants are explicit, S_Conv); the higher orders of the methods are the order conditions of C36 |
| C116 | proved | `C116_consistent` (T_ConvOrd, REC), `C116_consistent_controlled` (T_ConvOrd, REC), `C116_linear` (T_ConvOrd, REC) | The integrate functions converge with the order of the method: Over the reals. Consistency of order p is a hypothesis of the first two; it is proved for linear systems here and for smooth nonlinear systems in C120 |
| C117 | refuted | `C117_refuted` (T_Ublas, REC), `C117_partial` (T_Ublas, REC), `C117_exact` (T_Ublas, REC), `C117_one_column` (T_Ublas, REC) | With matrix states a step within the tolerance is accepted: REFUTED: ublas::norm_inf of a matrix is the largest row sum, so a 1x2 matrix whose elements use 3/4 of the tolerance is rejected. Proved: the exact criterion, accepted steps are within the tolerance in every element, steps using at most 1/cols of it are accepted, one-column matrices behave as vectors. uBLAS norm_inf itself is outside /repo |
| C118 | refuted | `C118_explicit` (T_Factory, REC), `C118_dopri5` (T_Factory, REC), `C118_adams_refuted` (T_Factory, REC), `C118_adams_limit` (T_Factory, RE), `C118_adams_zero` (T_Factory, RE) | make_controlled without max_dt imposes no limit on the step: REFUTED for adaptive_adams_bashforth_moulton: the default dtmax = 1.0 makes every attempt longer than 10/9 fail whatever its error, and max_dt = 0 makes every forward attempt fail; proved for the Runge-Kutta error steppers |
| C119 | refuted | `C119_refuted` (T_Factory, 0) | make_controlled controls the stepper it is given: REFUTED: the factory for adaptive_adams_bashforth_moulton drops the stepper passed in; the controller starts from a default constructed one (other steppers carry no history) |
| C120 | proved | `C120_step` (T_Butcher, REC), `C120_runs` (T_Butcher, REC), `C120_controlled` (T_Butcher, REC), `C120_estimate` (T_Butcher, REC) | On smooth nonlinear systems every explicit Runge-Kutta stepper converges with the order it reports: Over the reals. Butcher series: the order conditions of all rooted trees (C36, C37) imply the order on every system with bounded derivatives; smoothness is stated by Taylor's formula with multilinear derivatives along the solution (S_BSeries) |
| C121 | proved | `C121_interpolant` (T_DenseConv, REC), `C121_limited` (T_DenseConv, REC), `C121_times` (T_DenseConv, REC), `C121_adaptive` (T_DenseConv, REC), `C121_n_steps` (T_DenseConv, REC) | Dense output of dopri5 is as accurate between the steps as at the steps, up to order four: Over the reals; the integrate functions with exact comparisons and no step limit. Gronwall along the steps plus the order-4 conditions of the continuous weights; h is the longest step the controller made (read off the run), or max_dt when that is set |
| C122 | proved | `C122_extrapolation_stepper` (T_BSPoly, REC), `C122_extrapolation_error` (T_BSPoly, REC), `C122_bulirsch_stoer` (T_BSPoly, REC), `C122_bulirsch_stoer_accepts` (T_BSPoly, REC), `C122_dense_step` (T_BSPoly, REC), `C122_dense_run` (T_BSPoly, REC) | The extrapolation steppers integrate polynomials in time exactly: Over the reals. Dense output objects re-initialized only while the order index is at most 6 (C32) |
| C123 | refuted | `C123_refuted` (T_BSPoly, 0), `C123_quadrature_partial` (T_BSPoly, REC) | Dense output of bulirsch_stoer_dense_out meets the ends of the step: REFUTED: the interpolant is built from the midpoint value and its differences only; for x' = x with one step of length 1 calc_state(1) is 3125/1152, current_state() 42241/15552 and calc_state(0) is 10357/10368, so the dense output jumps between steps. Holds for polynomials in time of degree at most 2k |
| C124 | proved | `C124_dopri5` (T_MakeDense, REC), `C124_adaptive` (T_MakeDense, REC), `C124_rosenbrock` (T_MakeDense, REC) | Every step of a stepper built by make_dense_output meets the tolerances and the maximal step given to it: Over the reals; integrate_adaptive for the call without max_dt (a limit against the direction of integration is C28) |
| C125 | proved | `C125_run` (T_VVConv, REC), `C125_second_order` (T_VVConv, REC), `C125_integrate` (T_VVConv, REC), `C125_velocity_sharp` (T_VVConv, REC) | velocity_verlet converges with second order, with first order when the force depends on the velocity: Over the reals. Taylor remainder of one step, error of the stored acceleration carried along, Gronwall over the call sequence |
| C126 | proved | `C126_adams_bashforth` (T_AdamsConv, REC), `C126_adams_bashforth_moulton` (T_AdamsConv, REC), `C126_order` (T_AdamsConv, REC) | adams_bashforth and adams_bashforth_moulton converge with order k on nonlinear systems: Over the reals. Taylor remainder of the quadrature rules, invariant on state and history (every stored derivative is close to that of the solution), Gronwall over the steps. Starting steps by the explicit Runge-Kutta steppers; the default extrapolation_stepper of adams_bashforth is not covered here |
| C127 | proved | `C127_midpoint` (T_Gragg, REC), `C127_midpoint_runs` (T_Gragg, REC), `C127_extrapolation` (T_Gragg, REC), `C127_estimate` (T_Gragg, REC) | The modified midpoint and extrapolation steppers converge with their order on smooth nonlinear systems: real arithmetic. The extrapolation_stepper part is about the overloads with a second state or a given derivative; do_step in place reads its own output (C40) |
| C128 | proved | `C128_step` (T_Gragg, REC), `C128_runs` (T_Gragg, REC) | bulirsch_stoer converges at least with order four whatever orders and step widths it chooses: real arithmetic, max_dt = 0 for the runs; hm is read off the observed times |
| C129 | proved | `C129_calls` (T_FsalCalls, E), `C129_values` (T_FsalVals, RE) | Any sequence of calls of a runge_kutta_dopri5 object gives, call by call, what new objects give: A call of adjust_size with another size between two steps is outside the sequences allowed: C129_adjust_refuted shows that the next do_step then uses an old derivative |
| C130 | proved | `C130_initialize` (T_AABMInit, REC), `C130_next_step` (T_AABMInit, REC) | initialize of adaptive_adams_bashforth_moulton builds a consistent history and the next step has full order: Over the reals |
| C131 | proved | `C131_default` (T_AdamsDefault, REC) | adams_bashforth with its default initializing stepper converges with order k: Over the reals. In place do_step calls of an object that has not been initialized are not covered: they read their own output (C78) |
| C132 | proved | `C132_n_steps` (T_IterDense, RE), `C132_const` (T_IterDense, RE) | The const-step and n-step iterators of dense output steppers visit exactly the grid points and never extrapolate: Over the reals. Termination is left to the stepper (the contract lets step widths shrink): the states are described for every finished or unfinished traversal |
| C133 | refuted | `C129_adjust_refuted` (T_FsalCalls, 0) | adjust_size does not change what the following steps of an FSAL stepper give: REFUTED: adjust_size to another size between two steps hides the change of size from the resizer, so the next do_step uses the derivative of the old point; with the same size, or while no derivative is stored, nothing changes (C129_calls) |
| C134 | proved | `C134_symplectic_euler` (T_SympConv, REC), `C134_sb3a_m4_mclachlan` (T_SympConv, REC), `C134_sb3a_mclachlan` (T_SympConv, REC) | The symplectic steppers converge with their order on nonlinear separable systems: Over the reals; the order conditions for all trees of order up to 4 are checked by computation in Q(sqrt(7/8)) and transferred by a B-series argument for any such system |
| C135 | proved | `C135_step` (T_BSDConv, REC), `C135_runs` (T_BSDConv, REC) | bulirsch_stoer_dense_out converges with at least order four on smooth nonlinear systems: Over the reals; for steps that return (an arbitrary pow and arbitrary tolerances steer the choice of width and order) |
| C136 | proved | `C136_rosenbrock4` (T_RosConv, REC) | rosenbrock4 converges with order four on autonomous nonlinear systems: Over the reals; the order conditions for all trees of order up to 4 are computed exactly from the decimal coefficients and hold up to 10^-15; for systems that depend on time see C86 |
| C137 | proved | `C137_implicit_euler` (T_IEConv, REC) | implicit_euler converges with order one for short steps, without a second Newton iteration: Over the reals; for longer steps, where the loop factorises the factorised matrix again, see C51 and C52 |
| C138 | proved | `C138_ranks` (T_Mpi, 0), `C138_f64` (T_Mpi, 0), `C138_fsal` (T_MpiFsal, 0) | A controlled stepper on a state distributed over MPI ranks makes the steps of the serial run: The ranks are programs that stop at collective calls, matched in order; the all_reduce in same_size is represented only by the ranks agreeing on whether the temporaries were resized |
| C139 | refuted | `C139_refuted` (T_Mpi, 0) | Integrations on disjoint MPI communicators do not influence each other: REFUTED: the controller's m_xerr is a default constructed mpi_state on MPI_COMM_WORLD and resize does not copy the communicator, so norm_inf takes the maximum over all processes: a step that is accepted is rejected when an unrelated group has a large error |
| C140 | proved | `C140_steps` (T_MpiStep, 0) | Explicit steppers on a state distributed over MPI ranks make the steps of the serial run: The in-place form of do_step; the members keep their sizes between the calls |
| C141 | proved | `C141_adaptive` (T_MpiInt, 0), `C141_fsal` (T_MpiInt, 0), `C141_f64` (T_MpiInt, 0) | integrate_adaptive on a state distributed over MPI ranks observes the serial run: The observer records; the FSAL controller with no resize after its first call |

Totals: 89 proved, 52 refuted. "refuted" appears as "partial" in `MANIFEST.json`.

## 6. Findings

Theorem names in parentheses; findings without a theorem are observations made while reading.

**integrate functions**

* `integrate_const` with dense output: the interpolant is shown before any `do_step` was made, observations past the end are possible, the last observation can be an extrapolation (C07).
* `integrate_n_steps` with dense output leaves the last interpolated state, not the final one, in the caller's variable (C10); integrating backwards the final observation carries a time that is not the stepper's (C63). With |dt| <= 2 eps the loop need not end.
* `integrate_adaptive` with a plain stepper passes a copy of the stepper to `integrate_const` and makes the last step with the original (C64).
* `integrate_times` on an empty range dereferences the end iterator for plain and controlled steppers (C14).
* Step checking is not transparent: controlled steppers are copied per interval unchecked and shared by reference checked; `integrate_const` without observer redirects to `integrate_adaptive` and drops the checker (C17).
* In double precision `integrate_const` may stop a full step before an end time that is an exact multiple of dt away (C62).
* Iterators: success at the 1000th attempt throws (C20); the dense constant-step iterator differs from `integrate_const` at the end point (C65); the iterator-based `integrate_const` returns 2^64-1 on an empty interval and the dense `integrate_adaptive` never writes the start state (C66); a times iterator shows the accumulated, not the requested time (C67) and reads an empty range (C68).

**Error control**

* An error estimate that is NaN in all components is accepted by `controlled_runge_kutta` (C24) and by `pid_step_adjuster` (C98); `rosenbrock4_controller` rejects it (C30).
* A positive `max_dt` together with backward integration makes steps forward (C28). `limit` tolerates machine epsilon.
* `fehlberg78` (order 8) shrinks the step after an acceptance (C26), and its error estimate is identically 0 for quadratures (C71).
* `controlled_runge_kutta` (FSAL), `try_step` version 2 (lines 677-686) calls an overload that does not exist (template, not instantiated). Version 1 evaluates the system before the limit is checked.
* FSAL steppers use a stale derivative when applied to another state without `reset` (C72).
* `dense_output_runge_kutta`: an acceptance at the 501st attempt throws with the time advanced and the state not (C102); `calc_state` at the current time is overwritten by the interpolation (C103); `initialize` does not set `m_t_old` (Example C99_before_step); `adjust_size` of the plain version calls a member that `euler` does not have.

* For `ublas::matrix` states the error norm is the largest row sum, not the largest element, so steps within the tolerance are rejected (C117).
* The documentation of `integrate()` (integrate.hpp:86) promises a dense output stepper; the code uses the plain controlled `runge_kutta_dopri5` (C112).

**Bulirsch-Stoer and extrapolation**

* `extrapolation_stepper` in place reads its overwritten input (C40); through it `adams_bashforth` with the default initializing stepper is wrong in place (C78).
* The order control of `bulirsch_stoer` is reversed backwards (C75). `m_dt_last` is uninitialised but harmless (C74).
* `bulirsch_stoer_dense_out`: `m_cost` is read out of bounds after re-initialisation with k_opt = 7 (C32); backwards a second rejection keeps dt and `do_step` throws (C33); `calc_state` before the first step reads an indeterminate member; `calc_state` at the ends of the last step does not return the stored states, so the dense output jumps at every step (C123).
* `modified_midpoint` with zero steps wraps around.

**Multistep**

* `adams_moulton::order()` returns k+1, the true order is k (C44). `adams_bashforth_moulton` keeps the history of the corrector across a resize (C79). A changed step width is not noticed (C80).
* The implicit copy constructor of `adams_moulton` copies a reference to the algebra of the source object.
* `controlled_adams_bashforth_moulton`: table read out of bounds from order 14 on (C92), order chosen with a stale estimate (C93), wrong times in `initialize_controlled` (C94). The constants `gs` change sign convention at index 9.
* `pid_step_adjuster`: the limit fails backwards (C96), coefficient typo in H0312 (C97).
* `generation_controlled_adams_bashforth_moulton.hpp:43-52` drops the stepper passed in (C119). Without `max_dt` the step is silently limited to 1.0, and `max_dt = 0`, which means no limit elsewhere, rejects every forward step (C118).

**Implicit and symplectic**

* `implicit_euler` factorises the LU factors again in every further Newton iteration and never resets the permutation (C51, C52); on a singular matrix it calls `exit(0)`.
* `rosenbrock4` ignores the result of `lu_factorize`; the coefficient d4 has the wrong sign (C86). `rosenbrock4_dense_output::initialize` keeps the controller's history.
* `velocity_verlet::order()` returns 1, the scheme has order 2 for forces without velocity (C83, C125). The acceleration at the end of the step is evaluated with the old velocity (velocity_verlet.hpp:120), so with friction or a magnetic field only order 1 is reached. The symplectic steppers ignore t.
* The constants of `symplectic_rkn_sb3a_mclachlan` satisfy the order conditions only up to 1e-20 (C84, C134).

**Parallel and GPU back ends**

* `thrust_algebra::norm_inf` keeps the sign (C88); `rel_error` of thrust and compute has a misplaced parenthesis (C89); `scale_sum_swap2` of thrust keeps a reference instead of a copy (C91); the last block of an `openmp_state` takes the whole remainder (C90).
* `openmp_state` `copy_impl` copies to the outer begin; the compute kernel of `scale_sum_swap2` has a trailing comma; `split_offsets` is wrong beyond 2^63 parts (C53_bound_sharp); `unsplit` of an `mpi_state` does not resize its target.
* With `initially_resizer` a stepper used with a larger state writes out of bounds (C58).
* `mkl_operations` read an operand that aliases the output after it was overwritten (C105). `implicit_euler_mtl4` never reads its epsilon and makes one Newton step (C107). `state_wrapper<gsl_vector*>` frees an indeterminate pointer when copied and twice when assigned (C109). `boost::multi_array` states with Fortran storage order get the transposed derivative (C111).
* `adjust_size( x )` of the FSAL steppers called between two steps with a state of another size resizes `m_dxdt` behind the back of the resizer: the next `do_step` sees no change of size and uses the old derivative (C129_adjust_refuted).
* The temporaries of a stepper over `mpi_state` are default constructed, on `MPI_COMM_WORLD`; `resize` copies only the data. With a state on a smaller communicator the error norm of a controlled stepper is the maximum over all processes (C139), and the collective `same_size` waits for processes outside the group.

## 7. Seeded mutations

`seeded/LOG.jsonl` has 371 entries. Each is an edit of one model definition in a scratch copy, a rebuild, and the theorems that fail to build. 347 were killed; 18 survived at first (each says which theorem was added, or why the claim is not falsified); 6 are inconclusive: the edited model did not type-check or the build ran into the time limit, so they say nothing about the theorems.

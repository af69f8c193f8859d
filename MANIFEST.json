{
 "claims": [
  {
   "property": "C01",
   "status": "proved",
   "theorems": [
    "C01_n_steps_run",
    "C01_n_steps"
   ],
   "note": "Any number type, any (also throwing) stepper and observer; the schedule is an independent definition."
  },
  {
   "property": "C02",
   "status": "proved",
   "theorems": [
    "C02_const_run",
    "C02_const_returns",
    "C02_const_observations",
    "C02_const_interval"
   ],
   "note": "Law-free schedule plus termination and interval bounds over the reals with any eps."
  },
  {
   "property": "C03",
   "status": "proved",
   "theorems": [
    "C03_adaptive_run",
    "C03_adaptive_covers"
   ],
   "note": "Law-free schedule; coverage of the interval over the reals for eps >= 0."
  },
  {
   "property": "C04",
   "status": "proved",
   "theorems": [
    "C04_adaptive_controlled"
   ],
   "note": "Over the reals, any eps >= 0, any controlled stepper obeying try_contract; also for runs ending in an exception."
  },
  {
   "property": "C05",
   "status": "proved",
   "theorems": [
    "C05_const_controlled_grid",
    "C05_const_controlled_cover"
   ],
   "note": "Grid part law-free for any stepper; coverage of each grid interval over the reals."
  },
  {
   "property": "C06",
   "status": "proved",
   "theorems": [
    "C06_n_steps_controlled",
    "C06_n_steps_controlled_cover"
   ],
   "note": "Grid part law-free for any stepper; coverage of each grid interval over the reals."
  },
  {
   "property": "C11",
   "status": "proved",
   "theorems": [
    "C11_times_run"
   ],
   "note": "Over the reals, any eps >= 0, any stepper and observer."
  },
  {
   "property": "C12",
   "status": "proved",
   "theorems": [
    "C12_times_controlled"
   ],
   "note": "Over the reals, any eps >= 0, any controlled stepper obeying try_contract."
  },
  {
   "property": "C14",
   "status": "partial",
   "theorems": [
    "C14_times_plain_refuted",
    "C14_times_controlled_refuted",
    "C14_times_dense_empty"
   ],
   "note": "REFUTED: integrate_times with a plain or controlled stepper and an empty range dereferences the end iterator (undefined behaviour); proved for dense output steppers."
  },
  {
   "property": "C15",
   "status": "proved",
   "theorems": [
    "C15_rejections_bounded",
    "C15_persistent_rejection_throws",
    "C15_exception_only_after_rejections"
   ],
   "note": "Law-free, all four controlled drivers."
  },
  {
   "property": "C07",
   "status": "partial",
   "theorems": [
    "C07_const_dense_no_step_refuted",
    "C07_const_dense_past_end_refuted",
    "C07_const_dense_extrapolates_refuted",
    "C07_const_dense_partial"
   ],
   "note": "REFUTED in three ways (interpolant used before any step; observations past the end; final observation extrapolated). The partial theorem proves everything else: grid, validity of all other interpolations, coverage, result."
  },
  {
   "property": "C08",
   "status": "proved",
   "theorems": [
    "C08_adaptive_dense",
    "C08_adaptive_dense_count"
   ],
   "note": "Over the reals, any eps >= 0, any dense stepper obeying dense_contract; also for runs cut off."
  },
  {
   "property": "C09",
   "status": "proved",
   "theorems": [
    "C09_n_steps_dense"
   ],
   "note": "Over the reals, any eps >= 0, both directions."
  },
  {
   "property": "C10",
   "status": "partial",
   "theorems": [
    "C10_n_steps_dense_state_refuted"
   ],
   "note": "REFUTED for dense output steppers: the caller variable holds the state of the last interpolated grid point (n-1), not the final state."
  },
  {
   "property": "C13",
   "status": "proved",
   "theorems": [
    "C13_times_dense"
   ],
   "note": "Over the reals, any eps >= 0, times more than eps apart."
  },
  {
   "property": "C63",
   "status": "partial",
   "theorems": [
    "C63_n_steps_dense_backward_refuted",
    "C09_n_steps_dense"
   ],
   "note": "REFUTED for backward integration (plain < in line 140); the forward case is proved in the last conjunct of C09_n_steps_dense."
  },
  {
   "property": "C64",
   "status": "partial",
   "theorems": [
    "C64_last_step_stepper_refuted"
   ],
   "note": "REFUTED: integrate_const receives a copy of the stepper; the last step is made with the original object, so a multistep history is lost."
  },
  {
   "property": "C16",
   "status": "proved",
   "theorems": [
    "C16_throws_iff"
   ],
   "note": "Law-free; all nine driver/stepper combinations; step checkers never raise on a run within the limit and always raise on one that is not."
  },
  {
   "property": "C17",
   "status": "partial",
   "theorems": [
    "C17_const_controlled_refuted",
    "C17_const_null_observer_refuted",
    "C17_plain",
    "C17_times_controlled",
    "C17_const_n_steps_controlled_partial",
    "C17_const_n_steps_controlled_by_ref",
    "C17_dense"
   ],
   "note": "REFUTED for integrate_const with a controlled stepper with internal state (checked: shared by reference, unchecked: copied per interval) and for integrate_const without observer (checked call runs integrate_adaptive). Proved for all other combinations."
  },
  {
   "property": "C18",
   "status": "proved",
   "theorems": [
    "C18_plain",
    "C18_controlled",
    "C18_dense"
   ],
   "note": "Over the reals, any eps >= 0; plain, controlled and dense output steppers; whole event trace, result and exceptions are mirrored."
  },
  {
   "property": "C19",
   "status": "proved",
   "theorems": [
    "C19_const",
    "C19_n_steps",
    "C19_adaptive",
    "C19_adaptive_dense"
   ],
   "note": "Law-free equality of whole runs for plain and controlled steppers (up to the different attempt limits 500 / 1000); reals, contract and step sizes above 2 eps for dense output."
  },
  {
   "property": "C20",
   "status": "partial",
   "theorems": [
    "C20_last_attempt_refuted",
    "C20_exception_partial",
    "C20_success_partial"
   ],
   "note": "REFUTED: when the 1000th attempt succeeds the increment still throws overflow_error. Proved: the exception implies 999 rejections."
  },
  {
   "property": "C21",
   "status": "proved",
   "theorems": [
    "C21_call",
    "C21_n_steps",
    "C21_const"
   ],
   "note": "Law-free; one call for any member list, whole runs of integrate_n_steps and integrate_const for any number of members."
  },
  {
   "property": "C65",
   "status": "partial",
   "theorems": [
    "C65_dense_refuted"
   ],
   "note": "REFUTED: the iterator does not shorten the last step, so the state shown at the end point differs from the one integrate_const observes."
  },
  {
   "property": "C66",
   "status": "partial",
   "theorems": [
    "C66_empty_refuted",
    "C66_dense_state_refuted",
    "C66_const_partial",
    "C66_adaptive_partial"
   ],
   "note": "REFUTED: empty interval returns 2^64-1 steps; integrate_adaptive with a dense output stepper leaves start_state unchanged. Proved on non-empty intervals for plain and controlled steppers."
  },
  {
   "property": "C67",
   "status": "partial",
   "theorems": [
    "C67_binary64_refuted",
    "C67_times_partial"
   ],
   "note": "REFUTED in double precision: the label is an accumulated time (0.2 -> 0.9 shows 0.8999...). Proved in exact arithmetic (eps = 0, plain steppers)."
  },
  {
   "property": "C68",
   "status": "partial",
   "theorems": [
    "C68_empty_times_refuted"
   ],
   "note": "REFUTED: the constructor dereferences the begin iterator before testing for an empty range."
  },
  {
   "property": "C34",
   "status": "proved",
   "theorems": [
    "C34_generic",
    "C34_generic_error",
    "C34_textbook"
   ],
   "note": "Law-free for any number of stages and any tableau, states indexed by any type; buffers with aliasing; plus the textbook formulas over the reals."
  },
  {
   "property": "C35",
   "status": "proved",
   "theorems": [
    "C35_rk4",
    "C35_cash_karp",
    "C35_cash_karp_noerror"
   ],
   "note": "Over the reals; equality of the whole memory and of the system calls."
  },
  {
   "property": "C36",
   "status": "proved",
   "theorems": [
    "C36_order",
    "C36_polynomial",
    "C36_linear_system",
    "C36_sharp"
   ],
   "note": "All order conditions of all rooted trees up to order() (complete enumeration proved sound), polynomial exactness and linear systems over the reals. That the order conditions imply local error O(dt^(p+1)) for smooth nonlinear systems is the classical theorem and is not part of the development."
  },
  {
   "property": "C37",
   "status": "proved",
   "theorems": [
    "C37_error",
    "C37_polynomial"
   ],
   "note": "Over the reals, all error steppers."
  },
  {
   "property": "C38",
   "status": "proved",
   "theorems": [
    "C38_linear_map",
    "C38_invariant",
    "C38_invariant_generic",
    "C38_integrate",
    "C38_adams_bashforth",
    "C38_adams_bashforth_moulton",
    "C38_dopri5"
   ],
   "note": "Single steps of every explicit Runge-Kutta stepper and whole runs of the four plain integrate functions with Runge-Kutta, dopri5 (kept derivative), Adams-Bashforth and Adams-Bashforth-Moulton."
  },
  {
   "property": "C39",
   "status": "proved",
   "theorems": [
    "C39_in_place_partial",
    "C39_in_place_error_partial",
    "C39_midpoint",
    "C39_rosenbrock"
   ],
   "note": "Law-free for all Runge-Kutta steppers (the two theorems named _partial), modified_midpoint and rosenbrock4; together the whole list."
  },
  {
   "property": "C41",
   "status": "proved",
   "theorems": [
    "C41_dopri5_dense",
    "C41_dense_order",
    "C41_dense_polynomial"
   ],
   "note": "Over the reals, dt <> 0; also order 4 of the interpolant at every theta."
  },
  {
   "property": "C42",
   "status": "proved",
   "theorems": [
    "C42_euler_partial",
    "C42_rosenbrock"
   ],
   "note": "C42_euler_partial is the Euler half, C42_rosenbrock the rosenbrock4_dense_output half; together the whole property."
  },
  {
   "property": "C69",
   "status": "proved",
   "theorems": [
    "C69_plain",
    "C69_controlled",
    "C69_dense"
   ],
   "note": "Law-free, any outcome of the run."
  },
  {
   "property": "C22",
   "status": "proved",
   "theorems": [
    "C22_explicit",
    "C22_in_place",
    "C22_fsal",
    "C22_no_memory",
    "C22_method"
   ],
   "note": "Law-free; C22_method identifies the accepted state with one step of the Butcher tableau over the reals."
  },
  {
   "property": "C23",
   "status": "proved",
   "theorems": [
    "C23_explicit",
    "C23_fsal"
   ],
   "note": "Over the reals, any underlying stepper. FSAL form under the cache invariant established by C22_fsal."
  },
  {
   "property": "C24",
   "status": "partial",
   "theorems": [
    "C24_nan_accepted_refuted",
    "C24_run_refuted"
   ],
   "note": "REFUTED: norm_inf computes max(0,NaN)=0, so an estimate that is NaN in every component is accepted; binary64 run with Cash-Karp."
  },
  {
   "property": "C25",
   "status": "proved",
   "theorems": [
    "C25_rejection",
    "C25_fsal",
    "C25_geometric"
   ],
   "note": "Over the reals with the real power function."
  },
  {
   "property": "C26",
   "status": "partial",
   "theorems": [
    "C26_acceptance_partial",
    "C26_fsal_partial",
    "C26_fehlberg78_refuted"
   ],
   "note": "REFUTED for fehlberg78 (order 8: 0.9*0.49^(-1/8) < 1); proved for orders up to 6, upper bound 4.5 for all orders."
  },
  {
   "property": "C27",
   "status": "proved",
   "theorems": [
    "C27_explicit",
    "C27_fsal",
    "C27_rosenbrock"
   ],
   "note": "Over the reals; the limit test tolerates machine epsilon."
  },
  {
   "property": "C28",
   "status": "partial",
   "theorems": [
    "C28_refuted",
    "C28_rosenbrock_refuted",
    "C28_run_refuted",
    "C28_partial"
   ],
   "note": "REFUTED: positive max_dt with backward integration gives dt := +max_dt; run of integrate_adaptive that ends at the wrong side. Proved when max_dt has the sign of dt."
  },
  {
   "property": "C29",
   "status": "proved",
   "theorems": [
    "C29_controlled",
    "C29_do_step",
    "C29_do_step_error",
    "C29_integrate_adaptive"
   ],
   "note": "Law-free, every call sequence; whole runs of integrate_adaptive."
  },
  {
   "property": "C30",
   "status": "proved",
   "theorems": [
    "C30_effect",
    "C30_bounds",
    "C30_flag",
    "C30_nan"
   ],
   "note": "Bounds over the reals, NaN rejection in binary64 for pow and sqrt that propagate NaN."
  },
  {
   "property": "C70",
   "status": "proved",
   "theorems": [
    "C70_explicit",
    "C70_fsal",
    "C70_rosenbrock",
    "C70_adaptive"
   ],
   "note": "Over the reals, without step limit."
  },
  {
   "property": "C71",
   "status": "partial",
   "theorems": [
    "C71_fehlberg78_refuted"
   ],
   "note": "REFUTED: the error weights of fehlberg78 pair equal abscissae, every step is accepted and the step grows by 4.5."
  },
  {
   "property": "C72",
   "status": "partial",
   "theorems": [
    "C72_stale_refuted"
   ],
   "note": "REFUTED: the cached derivative of the previous state is used (documented requirement to call reset())."
  },
  {
   "property": "C73",
   "status": "proved",
   "theorems": [
    "C73_explicit",
    "C73_fsal"
   ],
   "note": "Over the reals; all error steppers."
  },
  {
   "property": "C31",
   "status": "proved",
   "theorems": [
    "C31_tables",
    "C31_step_size"
   ],
   "note": "Tables law-free for every call sequence of the three try_step overloads and reset; step size bounds over the reals."
  },
  {
   "property": "C32",
   "status": "partial",
   "theorems": [
    "C32_tables_partial",
    "C32_refuted",
    "C32_calc_refuted"
   ],
   "note": "REFUTED: initialize keeps m_current_k_opt = 7 and the next first step reads m_cost out of bounds (rational run); calc_state before the first step uses an unset m_k_final. Proved for re-initialization while k_opt <= 6."
  },
  {
   "property": "C33",
   "status": "partial",
   "theorems": [
    "C33_forward_partial",
    "C33_backward_refuted",
    "C33_refuted"
   ],
   "note": "REFUTED: backward the second rejection in a row keeps dt (comparison new_h < dt ignores the sign), do_step then always throws. Proved forward."
  },
  {
   "property": "C40",
   "status": "partial",
   "theorems": [
    "C40_refuted",
    "C40_dxdt_partial"
   ],
   "note": "REFUTED: the in-place call overwrites the initial state that later midpoint runs start from; 7/3 instead of 1 for x prime = 1."
  },
  {
   "property": "C49",
   "status": "proved",
   "theorems": [
    "C49_table",
    "C49_extrapolation_stepper",
    "C49_bulirsch_stoer"
   ],
   "note": "Over the reals; all table sizes and step sequences with distinct entries."
  },
  {
   "property": "C50",
   "status": "proved",
   "theorems": [
    "C50_gragg",
    "C50_unique",
    "C50_linear"
   ],
   "note": "Law-free Gragg scheme with evaluation log, exactness over the reals."
  },
  {
   "property": "C74",
   "status": "proved",
   "theorems": [
    "C74_uninitialised"
   ],
   "note": "Law-free, every call sequence."
  },
  {
   "property": "C75",
   "status": "partial",
   "theorems": [
    "C75_refuted"
   ],
   "note": "REFUTED: work per unit step is negative for dt < 0, the order selection is reversed; rational witness."
  },
  {
   "property": "C76",
   "status": "proved",
   "theorems": [
    "C76_contract"
   ],
   "note": "Over the reals, without step limit."
  },
  {
   "property": "C77",
   "status": "proved",
   "theorems": [
    "C77_terminates"
   ],
   "note": "Over the reals, bounded systems, without step limit."
  },
  {
   "property": "C43",
   "status": "proved",
   "theorems": [
    "C43_adams_bashforth",
    "C43_adams_moulton",
    "C43_run",
    "C43_moulton_run",
    "C43_start"
   ],
   "note": "Over the reals, every order 1..8, single steps with exact history and whole runs from an exact start."
  },
  {
   "property": "C44",
   "status": "partial",
   "theorems": [
    "C44_refuted"
   ],
   "note": "REFUTED: for every k = 1..8 order() of adams_moulton is k+1 while the step is not exact at degree k+1; the corrector of k steps has order k."
  },
  {
   "property": "C45",
   "status": "proved",
   "theorems": [
    "C45_history",
    "C45_step",
    "C45_start",
    "C45_initialize",
    "C45_queue",
    "C45_resize"
   ],
   "note": "Law-free, every call sequence."
  },
  {
   "property": "C78",
   "status": "partial",
   "theorems": [
    "C78_refuted",
    "C78_run_refuted",
    "C78_runge_kutta_init"
   ],
   "note": "REFUTED with the default initializing stepper (extrapolation_stepper reads its overwritten input); proved for every Runge-Kutta initializing stepper."
  },
  {
   "property": "C79",
   "status": "partial",
   "theorems": [
    "C79_refuted"
   ],
   "note": "REFUTED: the corrector keeps its own history, which the resize does not reset."
  },
  {
   "property": "C80",
   "status": "partial",
   "theorems": [
    "C80_refuted"
   ],
   "note": "REFUTED: integrate_times shortens steps without a restart; rational witness."
  },
  {
   "property": "C46",
   "status": "proved",
   "theorems": [
    "C46_step",
    "C46_run",
    "C46_named"
   ],
   "note": "Actual derivatives along curves; every dimension and coefficients, any sequence of steps."
  },
  {
   "property": "C47",
   "status": "proved",
   "theorems": [
    "C47_sb3a_mclachlan",
    "C47_sb3a_m4_mclachlan",
    "C47_velocity_verlet"
   ],
   "note": "Over the reals; velocity_verlet for forces that do not depend on the velocity."
  },
  {
   "property": "C48",
   "status": "proved",
   "theorems": [
    "C48_cache",
    "C48_calls"
   ],
   "note": "Law-free, every sequence of steps, resets, resizes and initializations."
  },
  {
   "property": "C81",
   "status": "proved",
   "theorems": [
    "C81_aliasing",
    "C81_overloads",
    "C81_single"
   ],
   "note": "Law-free."
  },
  {
   "property": "C82",
   "status": "proved",
   "theorems": [
    "C82_step",
    "C82_verlet",
    "C82_integrate"
   ],
   "note": "Over the reals."
  },
  {
   "property": "C83",
   "status": "partial",
   "theorems": [
    "C83_refuted"
   ],
   "note": "REFUTED: order() returns 1, the scheme is exact for solutions of degree 2 and not for degree 3."
  },
  {
   "property": "C84",
   "status": "proved",
   "theorems": [
    "C84_sb3a_m4_mclachlan",
    "C84_sb3a_mclachlan"
   ],
   "note": "Over the reals; sqrt(7/8) enters through its square."
  },
  {
   "property": "C51",
   "status": "partial",
   "theorems": [
    "C51_refuted",
    "C51_linear_partial",
    "C51_dim1_partial"
   ],
   "note": "REFUTED: from dimension 2 on do_step can call exit(0) for an affine system with invertible I - dt J, because the LU factors are factorised again in the second Newton iteration. Holds in dimension 1; a returned state always solves the equation."
  },
  {
   "property": "C52",
   "status": "partial",
   "theorems": [
    "C52_refuted",
    "C52_first_partial",
    "C52_dim1_partial"
   ],
   "note": "REFUTED: from the second Newton iteration on the matrix is the packed LU factors, not dt J - I. Holds for the first iteration and in dimension 1."
  },
  {
   "property": "C85",
   "status": "proved",
   "theorems": [
    "C85_invariant"
   ],
   "note": ""
  },
  {
   "property": "C86",
   "status": "partial",
   "theorems": [
    "C86_refuted",
    "C86_reversed_sign"
   ],
   "note": "REFUTED: the coefficient d4 has the wrong sign; for the ramp system the local error is between 0.03 and 0.04 dt^2."
  },
  {
   "property": "C87",
   "status": "proved",
   "theorems": [
    "C87_stages"
   ],
   "note": ""
  },
  {
   "property": "C53",
   "status": "proved",
   "theorems": [
    "C53_cuts",
    "C53_bound_sharp"
   ],
   "note": "For lengths below 2^64 and up to 2^63 parts; beyond that the signed conversion is wrong (C53_bound_sharp)."
  },
  {
   "property": "C54",
   "status": "proved",
   "theorems": [
    "C54_openmp",
    "C54_mpi"
   ],
   "note": "For mpi_state the target of unsplit must already have room (it is not resized)."
  },
  {
   "property": "C55",
   "status": "proved",
   "theorems": [
    "C55_range",
    "C55_nested",
    "C55_norm_range",
    "C55_norm_nested",
    "C55_norm_mpi",
    "C55_norm_f64"
   ],
   "note": "Iterations are interleaved at the level of single assignments; reductions for every partition and combination tree, in double precision including NaN."
  },
  {
   "property": "C56",
   "status": "proved",
   "theorems": [
    "C56_real",
    "C56_parallel",
    "C56_f64"
   ],
   "note": ""
  },
  {
   "property": "C57",
   "status": "proved",
   "theorems": [
    "C57_always",
    "C57_initially",
    "C57_adjust_size"
   ],
   "note": "Sizes only; the system function is assumed to write as many derivatives as the state has components."
  },
  {
   "property": "C58",
   "status": "partial",
   "theorems": [
    "C58_refuted",
    "C58_larger",
    "C58_smaller"
   ],
   "note": "REFUTED: with initially_resizer every explicit Runge-Kutta stepper leaves its buffers on a larger state, all but euler also on a smaller one."
  },
  {
   "property": "C88",
   "status": "partial",
   "theorems": [
    "C88_refuted",
    "C88_double_refuted",
    "C88_partial"
   ],
   "note": "REFUTED: the reduction keeps the sign; only the absolute value of the result is the norm."
  },
  {
   "property": "C89",
   "status": "partial",
   "theorems": [
    "C89_refuted",
    "C89_partial"
   ],
   "note": "REFUTED: misplaced parenthesis; agrees for non-negative x and a_x = 1."
  },
  {
   "property": "C90",
   "status": "partial",
   "theorems": [
    "C90_refuted",
    "C90_partial"
   ],
   "note": "REFUTED: the last block takes the whole remainder n mod p."
  },
  {
   "property": "C91",
   "status": "partial",
   "theorems": [
    "C91_refuted",
    "C91_thrust",
    "C91_partial"
   ],
   "note": "REFUTED for thrust: the temporary is a reference to the first element, both containers receive the new value. Holds for default_operations."
  },
  {
   "property": "C59",
   "status": "proved",
   "theorems": [
    "C59_in_bounds",
    "C59_exact_extrapolation",
    "C59_quadrature",
    "C59_controlled"
   ],
   "note": "Over the reals for the exactness, law-free for the bounds. Every sequence of steps with pairwise different times, starting from new, reset or initialized objects; also for the attempts of controlled_adams_bashforth_moulton."
  },
  {
   "property": "C60",
   "status": "proved",
   "theorems": [
    "C60_order",
    "C60_history",
    "C60_order_by_one"
   ],
   "note": "Any norm, step adjuster and threshold, any number type."
  },
  {
   "property": "C61",
   "status": "proved",
   "theorems": [
    "C61_forward",
    "C61_backward"
   ],
   "note": "Over the reals with the function atan; any pow and coefficients. Errors whose norm is 0 are excluded (division by zero in the source)."
  },
  {
   "property": "C62",
   "status": "partial",
   "theorems": [
    "C62_refuted",
    "C62_exact_grid",
    "C62_operations"
   ],
   "note": "REFUTED: 1024 + 2*(1 + 3*2^-43) is a double and the end time, but integrate_const makes one step and stops a full step before the end. Proved in binary64 for all start times and steps whose grid points are all doubles (C62_exact_grid)."
  },
  {
   "property": "C92",
   "status": "partial",
   "theorems": [
    "C92_in_bounds",
    "C92_large_order_out_of_bounds",
    "C92_large_order_refuted"
   ],
   "note": "REFUTED for orders from 14 on: the read is out of bounds as soon as the working order is 14. Proved for orders up to 13."
  },
  {
   "property": "C93",
   "status": "partial",
   "theorems": [
    "C93_order_from_this_step_refuted"
   ],
   "note": "REFUTED: the first steps compare with m_xerr[3], which the step has not computed."
  },
  {
   "property": "C94",
   "status": "partial",
   "theorems": [
    "C94_initialize_controlled_exact_refuted"
   ],
   "note": "REFUTED: the history is stored with the step size proposed for the next step instead of the one taken."
  },
  {
   "property": "C95",
   "status": "proved",
   "theorems": [
    "C95_history"
   ],
   "note": "Over the reals with the functions Rpower; any atan."
  },
  {
   "property": "C96",
   "status": "partial",
   "theorems": [
    "C96_backward_limit_refuted",
    "C96_negative_limit_accepts_all",
    "C96_error_control_refuted"
   ],
   "note": "REFUTED: a positive dtmax does not limit backward steps, and with a negative dtmax every step is accepted, whatever its error. Forwards it holds (C61_forward)."
  },
  {
   "property": "C97",
   "status": "partial",
   "theorems": [
    "C97_deadbeat",
    "C97_H0312_off",
    "C97_H0312_refuted"
   ],
   "note": "REFUTED for H0312, whose coefficient 2/2 should be 2/4; proved for BASIC, H0211 and H0321."
  },
  {
   "property": "C98",
   "status": "partial",
   "theorems": [
    "C98_nan_refuted"
   ],
   "note": "REFUTED: the maximum norm of NaNs is 0, so the step is accepted and grows by 1 + pi/2."
  },
  {
   "property": "C99",
   "status": "proved",
   "theorems": [
    "C99_dopri5",
    "C99_euler"
   ],
   "note": "Any number type. Before the first do_step calc_state still works on the old interval (Example C99_before_step)."
  },
  {
   "property": "C100",
   "status": "proved",
   "theorems": [
    "C100_interpolant",
    "C100_smooth"
   ],
   "note": "Over the reals; pow is Rpower."
  },
  {
   "property": "C101",
   "status": "proved",
   "theorems": [
    "C101_adaptive",
    "C101_times",
    "C101_n_steps"
   ],
   "note": "No step limit. Runs that throw (500 rejections) or whose fuel runs out are not covered by the conclusion."
  },
  {
   "property": "C102",
   "status": "partial",
   "theorems": [
    "C102_refuted",
    "C102_partial",
    "C102_rosenbrock_partial",
    "C102_bulirsch_stoer_partial"
   ],
   "note": "REFUTED: the check comes after the attempt, so an acceptance at the 501st attempt throws, with the time advanced and the state not. The _partial theorems state what happens in all cases, for dense_output_runge_kutta, rosenbrock4_dense_output and bulirsch_stoer_dense_out."
  },
  {
   "property": "C103",
   "status": "partial",
   "theorems": [
    "C103_refuted",
    "C103_euler",
    "C103_reals"
   ],
   "note": "REFUTED in double precision: the copy at current_time is overwritten (no return). The formula of the interpolant holds in every arithmetic and meets the current state over the reals."
  },
  {
   "property": "C104",
   "status": "proved",
   "theorems": [
    "C104_mkl_steppers"
   ],
   "note": "Law-free, every aliasing; BLAS routines by their standard meaning; mkl_operations has no sums of more than five operands, so other steppers do not compile with it"
  },
  {
   "property": "C105",
   "status": "partial",
   "theorems": [
    "C105_refuted",
    "C105_partial"
   ],
   "note": "REFUTED: scale_sum2(out,a,out) copies a over out first and then reads the copy. Holds when the output is at most the first operand"
  },
  {
   "property": "C106",
   "status": "proved",
   "theorems": [
    "C106_affine"
   ],
   "note": "Real arithmetic; bicgstab as an oracle that is exact on nonsingular matrices"
  },
  {
   "property": "C107",
   "status": "partial",
   "theorems": [
    "C107_refuted",
    "C107_partial"
   ],
   "note": "REFUTED: one Newton step, m_epsilon is never read; the defect exceeds any epsilon for some right-hand side. Defect bounded by |dt| K |x1-x|^2"
  },
  {
   "property": "C108",
   "status": "proved",
   "theorems": [
    "C108_gsl_iterator",
    "C108_gsl_advance"
   ],
   "note": "Checked reads; termination with fuel = size"
  },
  {
   "property": "C109",
   "status": "partial",
   "theorems": [
    "C109_copy_refuted",
    "C109_assign_refuted",
    "C109_partial"
   ],
   "note": "REFUTED: the copy constructor frees an indeterminate pointer, the implicit assignment leads to a double free and a leak. adjust_size is correct"
  },
  {
   "property": "C110",
   "status": "proved",
   "theorems": [
    "C110_resize",
    "C110_same_size"
   ],
   "note": "Law-free, all dimensions"
  },
  {
   "property": "C111",
   "status": "partial",
   "theorems": [
    "C111_refuted",
    "C111_partial",
    "C111_for_each"
   ],
   "note": "REFUTED: with Fortran storage order the derivative buffer keeps C order and its transpose is added. Holds for C storage order"
  },
  {
   "property": "C112",
   "status": "proved",
   "theorems": [
    "C112_explicit",
    "C112_dopri5",
    "C112_integrate",
    "C112_total"
   ],
   "note": "Over the reals; observers may throw. Termination under a bound of the right-hand side between start and end"
  },
  {
   "property": "C113",
   "status": "proved",
   "theorems": [
    "C113_integrate",
    "C113_explicit"
   ],
   "note": "Over the reals"
  },
  {
   "property": "C114",
   "status": "proved",
   "theorems": [
    "C114_const",
    "C114_n_steps"
   ],
   "note": "Over the reals, maximum norm; the constant is explicit (S_Conv: growth)"
  },
  {
   "property": "C115",
   "status": "proved",
   "theorems": [
    "C115_const",
    "C115_adaptive_plain",
    "C115_controlled",
    "C115_dopri5",
    "C115_const_converges",
    "C115_dopri5_converges"
   ],
   "note": "Over the reals; bound of first order in the step for all methods (the constants are explicit, S_Conv); the higher orders of the methods are the order conditions of C36"
  },
  {
   "property": "C116",
   "status": "proved",
   "theorems": [
    "C116_consistent",
    "C116_consistent_controlled",
    "C116_linear"
   ],
   "note": "Over the reals. Consistency of order p is a hypothesis of the first two; it is proved for linear systems here and for smooth nonlinear systems in C120"
  },
  {
   "property": "C117",
   "status": "partial",
   "theorems": [
    "C117_refuted",
    "C117_partial",
    "C117_exact",
    "C117_one_column"
   ],
   "note": "REFUTED: ublas::norm_inf of a matrix is the largest row sum, so a 1x2 matrix whose elements use 3/4 of the tolerance is rejected. Proved: the exact criterion, accepted steps are within the tolerance in every element, steps using at most 1/cols of it are accepted, one-column matrices behave as vectors. uBLAS norm_inf itself is outside /repo"
  },
  {
   "property": "C118",
   "status": "partial",
   "theorems": [
    "C118_explicit",
    "C118_dopri5",
    "C118_adams_refuted",
    "C118_adams_limit",
    "C118_adams_zero"
   ],
   "note": "REFUTED for adaptive_adams_bashforth_moulton: the default dtmax = 1.0 makes every attempt longer than 10/9 fail whatever its error, and max_dt = 0 makes every forward attempt fail; proved for the Runge-Kutta error steppers"
  },
  {
   "property": "C119",
   "status": "partial",
   "theorems": [
    "C119_refuted"
   ],
   "note": "REFUTED: the factory for adaptive_adams_bashforth_moulton drops the stepper passed in; the controller starts from a default constructed one (other steppers carry no history)"
  },
  {
   "property": "C120",
   "status": "proved",
   "theorems": [
    "C120_step",
    "C120_runs",
    "C120_controlled",
    "C120_estimate"
   ],
   "note": "Over the reals. Butcher series: the order conditions of all rooted trees (C36, C37) imply the order on every system with bounded derivatives; smoothness is stated by Taylor's formula with multilinear derivatives along the solution (S_BSeries)"
  },
  {
   "property": "C121",
   "status": "proved",
   "theorems": [
    "C121_interpolant",
    "C121_limited",
    "C121_times",
    "C121_adaptive",
    "C121_n_steps"
   ],
   "note": "Over the reals; the integrate functions with exact comparisons and no step limit. Gronwall along the steps plus the order-4 conditions of the continuous weights; h is the longest step the controller made (read off the run), or max_dt when that is set"
  },
  {
   "property": "C122",
   "status": "proved",
   "theorems": [
    "C122_extrapolation_stepper",
    "C122_extrapolation_error",
    "C122_bulirsch_stoer",
    "C122_bulirsch_stoer_accepts",
    "C122_dense_step",
    "C122_dense_run"
   ],
   "note": "Over the reals. Dense output objects re-initialized only while the order index is at most 6 (C32)"
  },
  {
   "property": "C123",
   "status": "partial",
   "theorems": [
    "C123_refuted",
    "C123_quadrature_partial"
   ],
   "note": "REFUTED: the interpolant is built from the midpoint value and its differences only; for x' = x with one step of length 1 calc_state(1) is 3125/1152, current_state() 42241/15552 and calc_state(0) is 10357/10368, so the dense output jumps between steps. Holds for polynomials in time of degree at most 2k"
  },
  {
   "property": "C124",
   "status": "proved",
   "theorems": [
    "C124_dopri5",
    "C124_adaptive",
    "C124_rosenbrock"
   ],
   "note": "Over the reals; integrate_adaptive for the call without max_dt (a limit against the direction of integration is C28)"
  },
  {
   "property": "C125",
   "status": "proved",
   "theorems": [
    "C125_run",
    "C125_second_order",
    "C125_integrate",
    "C125_velocity_sharp"
   ],
   "note": "Over the reals. Taylor remainder of one step, error of the stored acceleration carried along, Gronwall over the call sequence"
  },
  {
   "property": "C126",
   "status": "proved",
   "theorems": [
    "C126_adams_bashforth",
    "C126_adams_bashforth_moulton",
    "C126_order"
   ],
   "note": "Over the reals. Taylor remainder of the quadrature rules, invariant on state and history (every stored derivative is close to that of the solution), Gronwall over the steps. Starting steps by the explicit Runge-Kutta steppers; the default extrapolation_stepper of adams_bashforth is not covered here"
  },
  {
   "property": "C127",
   "status": "proved",
   "theorems": [
    "C127_midpoint",
    "C127_midpoint_runs",
    "C127_extrapolation",
    "C127_estimate"
   ],
   "note": "real arithmetic. The extrapolation_stepper part is about the overloads with a second state or a given derivative; do_step in place reads its own output (C40)"
  },
  {
   "property": "C128",
   "status": "proved",
   "theorems": [
    "C128_step",
    "C128_runs"
   ],
   "note": "real arithmetic, max_dt = 0 for the runs; hm is read off the observed times"
  },
  {
   "property": "C129",
   "status": "proved",
   "theorems": [
    "C129_calls",
    "C129_values"
   ],
   "note": "A call of adjust_size with another size between two steps is outside the sequences allowed: C129_adjust_refuted shows that the next do_step then uses an old derivative"
  },
  {
   "property": "C130",
   "status": "proved",
   "theorems": [
    "C130_initialize",
    "C130_next_step"
   ],
   "note": "Over the reals"
  },
  {
   "property": "C131",
   "status": "proved",
   "theorems": [
    "C131_default"
   ],
   "note": "Over the reals. In place do_step calls of an object that has not been initialized are not covered: they read their own output (C78)"
  },
  {
   "property": "C132",
   "status": "proved",
   "theorems": [
    "C132_n_steps",
    "C132_const"
   ],
   "note": "Over the reals. Termination is left to the stepper (the contract lets step widths shrink): the states are described for every finished or unfinished traversal"
  },
  {
   "property": "C133",
   "status": "partial",
   "theorems": [
    "C129_adjust_refuted"
   ],
   "note": "REFUTED: adjust_size to another size between two steps hides the change of size from the resizer, so the next do_step uses the derivative of the old point; with the same size, or while no derivative is stored, nothing changes (C129_calls)"
  },
  {
   "property": "C134",
   "status": "proved",
   "theorems": [
    "C134_symplectic_euler",
    "C134_sb3a_m4_mclachlan",
    "C134_sb3a_mclachlan"
   ],
   "note": "Over the reals; the order conditions for all trees of order up to 4 are checked by computation in Q(sqrt(7/8)) and transferred by a B-series argument for any such system"
  },
  {
   "property": "C135",
   "status": "proved",
   "theorems": [
    "C135_step",
    "C135_runs"
   ],
   "note": "Over the reals; for steps that return (an arbitrary pow and arbitrary tolerances steer the choice of width and order)"
  },
  {
   "property": "C136",
   "status": "proved",
   "theorems": [
    "C136_rosenbrock4"
   ],
   "note": "Over the reals; the order conditions for all trees of order up to 4 are computed exactly from the decimal coefficients and hold up to 10^-15; for systems that depend on time see C86"
  },
  {
   "property": "C137",
   "status": "proved",
   "theorems": [
    "C137_implicit_euler"
   ],
   "note": "Over the reals; for longer steps, where the loop factorises the factorised matrix again, see C51 and C52"
  },
  {
   "property": "C138",
   "status": "proved",
   "theorems": [
    "C138_ranks",
    "C138_f64",
    "C138_fsal"
   ],
   "note": "The ranks are programs that stop at collective calls, matched in order; the all_reduce in same_size is represented only by the ranks agreeing on whether the temporaries were resized"
  },
  {
   "property": "C139",
   "status": "partial",
   "theorems": [
    "C139_refuted"
   ],
   "note": "REFUTED: the controller's m_xerr is a default constructed mpi_state on MPI_COMM_WORLD and resize does not copy the communicator, so norm_inf takes the maximum over all processes: a step that is accepted is rejected when an unrelated group has a large error"
  },
  {
   "property": "C140",
   "status": "proved",
   "theorems": [
    "C140_steps"
   ],
   "note": "The in-place form of do_step; the members keep their sizes between the calls"
  },
  {
   "property": "C141",
   "status": "proved",
   "theorems": [
    "C141_adaptive",
    "C141_fsal",
    "C141_f64"
   ],
   "note": "The observer records; the FSAL controller with no resize after its first call"
  }
 ]
}

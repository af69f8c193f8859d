{"id": "C01", "title": "integrate_n_steps with a fixed-step stepper: exact step and observation schedule", "statement": "integrate_n_steps(stepper, sys, x, t0, dt, n, obs) with a plain stepper performs exactly n do_step calls, the k-th one at time t0+k*dt with step dt; it calls obs exactly n+1 times, the k-th call with the state after k steps and the time t0+k*dt (computed by one multiplication, not by accumulation); it returns t0+n*dt and leaves in x the state after n steps.", "quantifier": "every stepper (any internal state, any behaviour), every system, every state, start time, step size (also 0, negative, NaN) and step count, in every arithmetic including IEEE floating point", "why_tests_cant": "A test fixes one stepper, one number type and a few n; the schedule must hold for every stepper object and every n, including steppers with history.", "anchors": ["include/boost/numeric/odeint/integrate/detail/integrate_n_steps.hpp: integrate_n_steps(stepper_tag)"]}
{"id": "C02", "title": "integrate_const with a fixed-step stepper: observation grid, step count, and coverage of the interval", "statement": "integrate_const with a plain stepper observes at t0+k*dt for k=0..N, each observation carrying the state after k steps, performs exactly N steps, returns N; N is the first k for which t0+k*dt+dt lies beyond the end time (in the direction of dt, with the library's epsilon). In exact arithmetic with dt != 0 the call terminates, no observation lies beyond the end time by more than epsilon, and the last observation is closer to the end than one step.", "quantifier": "every stepper, system, state, start time, end time and non-zero step in either direction", "why_tests_cant": "Which step is the last one depends on the comparison for every ratio (end-start)/dt; sampling ratios cannot exclude an off-by-one.", "anchors": ["include/boost/numeric/odeint/integrate/detail/integrate_const.hpp: integrate_const(stepper_tag)", "include/boost/numeric/odeint/util/detail/less_with_sign.hpp"]}
{"id": "C03", "title": "integrate_adaptive with a fixed-step stepper lands exactly on the end time", "statement": "integrate_adaptive with a plain stepper performs the integrate_const schedule and then, if the end time is not reached within epsilon, exactly one shorter step whose width is (end - current) and an observation carrying exactly the end time; the returned count is the number of do_step calls; every step width has the sign of dt and magnitude at most |dt| (plus epsilon); consecutive steps are adjacent and together cover the interval from start to end up to epsilon.", "quantifier": "every stepper, system, state, time interval and non-zero step in either direction", "why_tests_cant": "Adjacency and coverage are statements about all steps of all runs; a test only sees sampled step ratios.", "anchors": ["include/boost/numeric/odeint/integrate/detail/integrate_adaptive.hpp: integrate_adaptive(stepper_tag)"]}
{"id": "C04", "title": "integrate_adaptive with a controlled stepper: monotone observations, never past the end, ends at the end", "statement": "For a controlled stepper whose try_step, on success, advances the time by exactly the step it attempted and keeps the direction of dt, and on failure leaves state and time alone and proposes a step of the same direction that is not longer: integrate_adaptive observes first (x0,t0), observation times are strictly monotone in the direction of dt, no observation lies beyond the end time by more than epsilon, the final observation is within epsilon of the end time, the returned number equals the number of successful try_steps and the number of observations minus one, and the caller's state equals the last observed state.", "quantifier": "every controlled stepper meeting the contract (every accept/reject history and every proposed step size), every interval in either direction", "why_tests_cant": "The accept/reject history is chosen by the problem; tests only exercise the histories a few ODEs produce.", "anchors": ["include/boost/numeric/odeint/integrate/detail/integrate_adaptive.hpp: integrate_adaptive(controlled_stepper_tag)"]}
{"id": "C05", "title": "integrate_const with a controlled stepper observes on the equidistant grid whatever the controller does", "statement": "integrate_const with a controlled stepper calls the observer exactly at t0+k*dt for k=0..N with the user's dt, independent of the internal step sizes the controller selects; the return value is the total number of accepted internal steps; each internal integration covers exactly the interval between two grid points.", "quantifier": "every controlled stepper and every accept/reject/step-size history, every interval, every dt", "why_tests_cant": "Independence from the controller's choices quantifies over all controllers; a test picks one.", "anchors": ["include/boost/numeric/odeint/integrate/detail/integrate_const.hpp: integrate_const(controlled_stepper_tag)"]}
{"id": "C06", "title": "integrate_n_steps with a controlled stepper: n grid intervals, n+1 observations", "statement": "integrate_n_steps with a controlled stepper calls the observer exactly n+1 times, at t0+k*dt for k=0..n with the user's dt, and returns t0+n*dt, whatever step sizes the controller selects inside the intervals; the state in x is the last observed one.", "quantifier": "every controlled stepper and history, every n, every dt", "why_tests_cant": "Quantifies over all controllers and all n.", "anchors": ["include/boost/numeric/odeint/integrate/detail/integrate_n_steps.hpp: integrate_n_steps(controlled_stepper_tag)"]}
{"id": "C07", "title": "integrate_const with a dense-output stepper only evaluates the interpolant where it is valid", "statement": "During integrate_const with a dense-output stepper, every calc_state(t) is issued after at least one do_step since the last initialize and with t between previous_time and current_time, and no observation is made past the end time.", "quantifier": "every dense-output stepper and every step-size history, every interval and dt", "why_tests_cant": "The invalid evaluation only happens for particular relations between dt, the interval length and the internal steps; all of them must be excluded.", "anchors": ["include/boost/numeric/odeint/integrate/detail/integrate_const.hpp: integrate_const(dense_output_stepper_tag)"]}
{"id": "C08", "title": "integrate_adaptive with a dense-output stepper: monotone observations, ends at the end, final state returned", "statement": "For a dense-output stepper whose do_step advances current_time by at most the announced current_time_step and in its direction, integrate_adaptive observes (x0,t0) first, observation times are strictly monotone, none lies beyond the end time by more than epsilon, the last observation is within epsilon of the end time, the return value is the number of do_step calls and of observations minus one, and the caller's state equals the last observed state.", "quantifier": "every dense-output stepper meeting the contract (every step-size history), every interval in either direction", "why_tests_cant": "All histories of internal step sizes have to be covered.", "anchors": ["include/boost/numeric/odeint/integrate/detail/integrate_adaptive.hpp: integrate_adaptive(dense_output_stepper_tag)"]}
{"id": "C09", "title": "integrate_n_steps with a dense-output stepper observes n+1 grid points", "statement": "With a dense-output stepper, integrate_n_steps observes exactly n+1 times: at t0+k*dt for k=0..n-1 by interpolation and then at the end time t0+n*dt, for forward integration whenever it returns.", "quantifier": "every dense-output stepper and step-size history, every n, every dt", "why_tests_cant": "Internal steps may be arbitrarily smaller or larger than dt; all interleavings of real steps and grid points matter.", "anchors": ["include/boost/numeric/odeint/integrate/detail/integrate_n_steps.hpp: integrate_n_steps(dense_output_stepper_tag)"]}
{"id": "C10", "title": "integrate_n_steps leaves the final state in the caller's variable for every stepper kind", "statement": "When integrate_n_steps returns the time t0+n*dt, the caller's state variable holds the solution at that time (the state of the last observation), also for dense-output steppers.", "quantifier": "every stepper of every category, every n >= 1", "why_tests_cant": "The existing tests compare only observations; the discrepancy shows on the state variable for one category only.", "anchors": ["include/boost/numeric/odeint/integrate/detail/integrate_n_steps.hpp: integrate_n_steps(dense_output_stepper_tag)"]}
{"id": "C11", "title": "integrate_times with a fixed-step stepper observes at exactly the given times", "statement": "Given a non-empty sequence of times that is monotone in the direction of dt, integrate_times with a plain stepper calls the observer once per given time, in order, with exactly that time; between consecutive times t_i and t_{i+1} it takes steps of the direction of dt, none longer than |dt|, none crossing t_{i+1}, which together end within epsilon of t_{i+1}; the return value is the number of do_step calls.", "quantifier": "every stepper, every monotone time sequence of any length, every non-zero dt", "why_tests_cant": "The clipping arithmetic must be right for every spacing of the times relative to dt.", "anchors": ["include/boost/numeric/odeint/integrate/detail/integrate_times.hpp: integrate_times(stepper_tag)"]}
{"id": "C12", "title": "integrate_times with a controlled stepper observes at exactly the given times and never steps over one", "statement": "Given a non-empty monotone sequence of times and a controlled stepper obeying the try_step contract, integrate_times calls the observer once per given time, in order, with exactly that time; no attempted step crosses the next observation time; the stepper's current time is within epsilon of the observation time when it is observed; a step shortened only because of an observation does not reduce the step size used afterwards; the return value is the number of successful steps.", "quantifier": "every controlled stepper and accept/reject history, every monotone time sequence", "why_tests_cant": "Quantifies over all interleavings of rejections and observation times.", "anchors": ["include/boost/numeric/odeint/integrate/detail/integrate_times.hpp: integrate_times(controlled_stepper_tag)"]}
{"id": "C13", "title": "integrate_times with a dense-output stepper observes at exactly the given times with a valid interpolant", "statement": "Given a strictly monotone sequence of times, integrate_times with a dense-output stepper calls the observer once per given time, in order, with exactly that time, evaluates the interpolant only after at least one step and at times not beyond the current time, and never lets the solver pass the last given time by more than epsilon.", "quantifier": "every dense-output stepper and step-size history, every strictly monotone time sequence", "why_tests_cant": "Quantifies over all interleavings of real steps and observation times.", "anchors": ["include/boost/numeric/odeint/integrate/detail/integrate_times.hpp: integrate_times(dense_output_stepper_tag)"]}
{"id": "C14", "title": "integrate_times accepts an empty time sequence", "statement": "Calling integrate_times with an empty time range is harmless for every stepper kind: no observer call, no step, result 0, no invalid dereference.", "quantifier": "every stepper category, every state and dt", "why_tests_cant": "Reading past the end of a range is undefined behaviour that may go unnoticed in a test run.", "anchors": ["include/boost/numeric/odeint/integrate/detail/integrate_times.hpp: integrate_times"]}
{"id": "C15", "title": "Step-size search is bounded: persistent rejection ends in an exception, never in an endless loop", "statement": "Whenever a controlled stepper keeps rejecting, integrate_adaptive (and everything built on it) stops with step_adjustment_error after finitely many attempts of one step (at most 501 try_step calls), and integrate_times with a controlled stepper likewise; conversely no such exception is raised if every step is accepted within 500 attempts.", "quantifier": "every controlled stepper, every rejection history", "why_tests_cant": "Termination for every stepper behaviour cannot be sampled.", "anchors": ["include/boost/numeric/odeint/integrate/max_step_checker.hpp: failed_step_checker", "include/boost/numeric/odeint/integrate/detail/integrate_adaptive.hpp", "include/boost/numeric/odeint/integrate/detail/integrate_times.hpp"]}
{"id": "C16", "title": "max_step_checker throws exactly when more than max_steps steps happen without an observation", "statement": "With a max_step_checker(m) passed to integrate_const/n_steps/times, no_progress_error is raised at the first step that is the (m+1)-th since the last observation, and is never raised on a run in which at most m steps happen between consecutive observations.", "quantifier": "every sequence of step and observation events, every limit m", "why_tests_cant": "The property is about all event histories.", "anchors": ["include/boost/numeric/odeint/integrate/max_step_checker.hpp: max_step_checker", "include/boost/numeric/odeint/integrate/check_adapter.hpp: checked_stepper, checked_observer"]}
{"id": "C17", "title": "Step checking is transparent: a checked run that does not throw equals the unchecked run", "statement": "If integrate_const or integrate_times with a step checker returns normally, then its observations, final state, stepper state and return value are identical to those of the same call without checker; a run that would not violate the limit is never aborted.", "quantifier": "every stepper, every system, every interval, every limit", "why_tests_cant": "Equality of two runs for all steppers needs a simulation argument.", "anchors": ["include/boost/numeric/odeint/integrate/check_adapter.hpp", "include/boost/numeric/odeint/integrate/integrate_const.hpp"]}
{"id": "C18", "title": "Backward integration is the mirror image of forward integration", "statement": "Negating the start time, end time and step size and replacing the stepper by its time-mirror yields exactly the mirrored observation trace, the same states, and the same return value, for integrate_const, integrate_adaptive and integrate_times.", "quantifier": "every stepper, interval and step (exact arithmetic)", "why_tests_cant": "A relation between two runs for all inputs.", "anchors": ["include/boost/numeric/odeint/util/detail/less_with_sign.hpp", "include/boost/numeric/odeint/integrate/detail/integrate_const.hpp", "include/boost/numeric/odeint/integrate/detail/integrate_adaptive.hpp"]}
{"id": "C19", "title": "ODE iterators traverse exactly the observations of the corresponding integrate function", "statement": "Iterating a const-step or n-step time iterator of a plain stepper, or an adaptive time iterator of a controlled or dense-output stepper, from begin to end yields the same sequence of (state,time) pairs as the observer of integrate_const, integrate_n_steps or integrate_adaptive (same stepper, system and arguments), when the interval is not empty in the direction of dt.", "quantifier": "every stepper, system, interval and step", "why_tests_cant": "Equality of two loops for all steppers and arguments.", "anchors": ["include/boost/numeric/odeint/iterator/impl/const_step_iterator_impl.hpp", "include/boost/numeric/odeint/iterator/impl/n_step_iterator_impl.hpp", "include/boost/numeric/odeint/iterator/impl/adaptive_iterator_impl.hpp", "include/boost/numeric/odeint/integrate/detail/integrate_const.hpp"]}
{"id": "C20", "title": "An ODE iterator accepts every step that the stepper can complete", "statement": "Incrementing an adaptive iterator throws only if the stepper rejected every one of the permitted attempts; if the last permitted attempt succeeds, the increment succeeds and the iterator advances.", "quantifier": "every controlled stepper and rejection history", "why_tests_cant": "The boundary attempt (the 1000th) is unlikely to be sampled.", "anchors": ["include/boost/numeric/odeint/iterator/impl/adaptive_iterator_impl.hpp: increment", "include/boost/numeric/odeint/iterator/impl/times_iterator_impl.hpp: step_loop"]}
{"id": "C21", "title": "observer_collection forwards every observation to every observer in order", "statement": "Calling an observer_collection with (x,t) calls each stored observer exactly once with (x,t), in insertion order; hence over a whole run every member sees exactly the observation sequence that a single observer would see.", "quantifier": "every number of observers and every run", "why_tests_cant": "All numbers of observers and all runs.", "anchors": ["include/boost/numeric/odeint/integrate/observer_collection.hpp"]}
{"id": "C22", "title": "A rejected step of controlled_runge_kutta has no effect on state and time; an accepted one advances by the attempted step", "statement": "controlled_runge_kutta::try_step(sys,x,t,dt): if it returns fail, x and t are unchanged and the memory of the stepper is unchanged up to recomputable derivative data; if it returns success, t has increased by exactly the dt passed in and x is exactly the result of one step of the underlying stepper of that width; the in-place and out-of-place forms agree.", "quantifier": "every underlying error stepper, every system, state, time, step, tolerance and error norm outcome", "why_tests_cant": "Rejection must be side-effect free for every stepper and every state.", "anchors": ["include/boost/numeric/odeint/stepper/controlled_runge_kutta.hpp: try_step (explicit and FSAL versions)"]}
{"id": "C23", "title": "An accepted step of controlled_runge_kutta meets the user's tolerance in every component", "statement": "If try_step returns success (finite arithmetic), then for every component i the error estimate satisfies |err_i| <= eps_abs + eps_rel*(a_x*|x_i| + a_dxdt*|dt|*|dxdt_i|), with x, dxdt taken at the beginning of the step; if it returns fail because of the error, some component violates this bound.", "quantifier": "every state dimension, every system, state, step and positive tolerance setting", "why_tests_cant": "The componentwise bound must follow for every vector, not only sampled ones.", "anchors": ["include/boost/numeric/odeint/stepper/controlled_runge_kutta.hpp: default_error_checker, try_step", "include/boost/numeric/odeint/algebra/default_operations.hpp: rel_error", "include/boost/numeric/odeint/algebra/range_algebra.hpp: norm_inf"]}
{"id": "C24", "title": "controlled_runge_kutta never accepts a step whose error estimate is not a number", "statement": "If a component of the error estimate is NaN, try_step does not report success.", "quantifier": "every state, step and system in IEEE arithmetic", "why_tests_cant": "NaN propagation through comparisons depends on operand order; ordinary tests never produce NaN here.", "anchors": ["include/boost/numeric/odeint/algebra/detail/norm_inf.hpp", "include/boost/numeric/odeint/stepper/controlled_runge_kutta.hpp: try_step"]}
{"id": "C25", "title": "A rejected step is shortened by a bounded factor and keeps its direction", "statement": "When controlled_runge_kutta rejects with error > 1, the new dt has the sign of the old one and 1/5*|dt| <= |dt_new| <= 9/10*|dt| (no step limit set), so repeated rejection shrinks the step geometrically.", "quantifier": "every error value above 1, every step of either sign, every error order >= 2", "why_tests_cant": "Quantifies over all reals for the error value.", "anchors": ["include/boost/numeric/odeint/stepper/controlled_runge_kutta.hpp: default_step_adjuster::decrease_step"]}
{"id": "C26", "title": "After acceptance the step never shrinks and grows by at most a factor 4.5", "statement": "After an accepted step (no step limit set) the proposed dt has the direction of the old one, |dt| <= |dt_new| <= 4.5*|dt|.", "quantifier": "every error value in [0,1], every step of either sign, every stepper order offered by the library", "why_tests_cant": "Depends on the real-valued power for every error value and every order.", "anchors": ["include/boost/numeric/odeint/stepper/controlled_runge_kutta.hpp: default_step_adjuster::increase_step"]}
{"id": "C27", "title": "The maximal step size is respected when it has the direction of integration", "statement": "With max_dt of the sign of dt, no step longer than |max_dt| + epsilon (machine epsilon) is ever accepted by controlled_runge_kutta or rosenbrock4_controller, no proposed step is longer than that, and controlled_runge_kutta refuses an attempt with a longer step without performing it, with state and time unchanged and dt set to max_dt.", "quantifier": "every history of attempted steps and error values", "why_tests_cant": "All histories.", "anchors": ["include/boost/numeric/odeint/stepper/controlled_runge_kutta.hpp: default_step_adjuster, try_step"]}
{"id": "C28", "title": "A step limit never reverses the direction of integration", "statement": "With a positive max_dt, the step proposed by controlled_runge_kutta or rosenbrock4_controller has the direction of the attempted step, also in backward integration.", "quantifier": "every step, error value and max_dt > 0", "why_tests_cant": "Sign handling is only wrong in one quadrant.", "anchors": ["include/boost/numeric/odeint/stepper/controlled_runge_kutta.hpp: default_step_adjuster", "include/boost/numeric/odeint/stepper/rosenbrock4_controller.hpp: try_step"]}
{"id": "C29", "title": "FSAL caching is invisible: the cached derivative always equals the system evaluated at the current point", "statement": "For first-same-as-last steppers (runge_kutta_dopri5 used directly or inside controlled_runge_kutta), any sequence of do_step/try_step calls on consecutive states and times yields the same states, times, step proposals and results as a stepper that re-evaluates the system at the start of every step; rejected attempts included.", "quantifier": "every sequence of calls, every accept/reject history, every system", "why_tests_cant": "Cache coherence over all call histories.", "anchors": ["include/boost/numeric/odeint/stepper/base/explicit_error_stepper_fsal_base.hpp", "include/boost/numeric/odeint/stepper/controlled_runge_kutta.hpp (FSAL)", "include/boost/numeric/odeint/stepper/runge_kutta_dopri5.hpp"]}
{"id": "C30", "title": "rosenbrock4_controller: acceptance, step bounds and NaN rejection", "statement": "rosenbrock4_controller::try_step leaves x and t unchanged on rejection; on success t advances by exactly the attempted dt and the scaled error is <= 1; the proposed step keeps its direction; a rejection shortens the step by a factor between 1/5 and 0.9; acceptance changes it by a factor at most 6 and does not enlarge it directly after a rejection; an error estimate that is NaN is always rejected.", "quantifier": "every error value, step of either sign and history (no step limit set)", "why_tests_cant": "Quantifies over all error values and histories.", "anchors": ["include/boost/numeric/odeint/stepper/rosenbrock4_controller.hpp: try_step, error"]}
{"id": "C31", "title": "Bulirsch-Stoer stays inside its tables and within its order bounds for every error history", "statement": "For bulirsch_stoer, whatever errors the extrapolation produces and however the caller changes dt, every table access of try_step is within bounds, the order index stays between 2 and k_max-1 after every call, a rejected call leaves x and t unchanged, and an accepted call advances t by the attempted dt.", "quantifier": "every error oracle, every sequence of try_step calls", "why_tests_cant": "Out-of-bounds access depends on the whole history of error estimates.", "anchors": ["include/boost/numeric/odeint/stepper/bulirsch_stoer.hpp: try_step, should_reject, in_convergence_window, calc_h_opt"]}
{"id": "C32", "title": "bulirsch_stoer_dense_out stays inside its tables even when it is re-initialized", "statement": "For bulirsch_stoer_dense_out, any sequence of initialize, do_step and calc_state calls performs only in-bounds table accesses.", "quantifier": "every error oracle, every sequence of calls", "why_tests_cant": "Depends on the state left over from an earlier integration with the same object.", "anchors": ["include/boost/numeric/odeint/stepper/bulirsch_stoer_dense_out.hpp: initialize, reset, try_step"]}
{"id": "C33", "title": "bulirsch_stoer_dense_out makes progress backward as well as forward", "statement": "After a rejection the next attempted step of bulirsch_stoer_dense_out is strictly shorter, in both directions of integration.", "quantifier": "every error history, both signs of dt", "why_tests_cant": "The sign error needs two consecutive rejections in backward integration.", "anchors": ["include/boost/numeric/odeint/stepper/bulirsch_stoer_dense_out.hpp: try_step"]}
{"id": "C34", "title": "The generic Runge-Kutta algorithm computes the method of its Butcher tableau", "statement": "explicit_generic_rk / explicit_error_generic_rk with coefficients (a,b,c[,b2]) compute, for every stage s, k_s = f(x + dt*sum_{j<s} a_sj k_j, t + c_s dt), the result x + dt*sum b_j k_j and the error dt*sum b2_j k_j; the system is called exactly once per stage.", "quantifier": "every number of stages, every coefficient set, every system and state of any dimension, every dt", "why_tests_cant": "The stage recursion is template-generated for any number of stages.", "anchors": ["include/boost/numeric/odeint/stepper/detail/generic_rk_algorithm.hpp", "include/boost/numeric/odeint/stepper/explicit_generic_rk.hpp", "include/boost/numeric/odeint/stepper/explicit_error_generic_rk.hpp"]}
{"id": "C35", "title": "The hand-written classic steppers equal their generic counterparts", "statement": "runge_kutta4_classic and runge_kutta4, runge_kutta_cash_karp54_classic and runge_kutta_cash_karp54 (state and error estimate) compute the same result in exact arithmetic.", "quantifier": "every system, state of any dimension, time and dt", "why_tests_cant": "Equality of two formulas for all systems.", "anchors": ["include/boost/numeric/odeint/stepper/runge_kutta4.hpp", "include/boost/numeric/odeint/stepper/runge_kutta4_classic.hpp", "include/boost/numeric/odeint/stepper/runge_kutta_cash_karp54.hpp", "include/boost/numeric/odeint/stepper/runge_kutta_cash_karp54_classic.hpp"]}
{"id": "C36", "title": "The Runge-Kutta steppers have the order they report", "statement": "euler, runge_kutta4, runge_kutta_cash_karp54, runge_kutta_dopri5 and runge_kutta_fehlberg78 satisfy every Butcher order condition up to their order(); in particular they integrate every polynomial right-hand side f(t) of degree < order exactly and reproduce the Taylor polynomial of the matrix exponential up to their order on every linear system.", "quantifier": "all rooted trees with at most order() vertices; all polynomials of the degree; all linear systems of any dimension; every t, dt", "why_tests_cant": "A wrong digit in one coefficient may be invisible in a convergence test; the conditions have to hold exactly.", "anchors": ["include/boost/numeric/odeint/stepper/runge_kutta4.hpp", "include/boost/numeric/odeint/stepper/runge_kutta_cash_karp54.hpp", "include/boost/numeric/odeint/stepper/runge_kutta_dopri5.hpp", "include/boost/numeric/odeint/stepper/runge_kutta_fehlberg78.hpp", "include/boost/numeric/odeint/stepper/euler.hpp"]}
{"id": "C37", "title": "The embedded error estimate is the difference of two consistent methods of the reported orders", "statement": "The error returned by the embedded Runge-Kutta steppers equals the difference between the result and the result of a second method of order error_order() on the same stages (so it vanishes for every polynomial right-hand side f(t) of degree below error_order() and for zero step size).", "quantifier": "every system, state, t, dt", "why_tests_cant": "Must hold for every system.", "anchors": ["include/boost/numeric/odeint/stepper/runge_kutta_cash_karp54.hpp", "include/boost/numeric/odeint/stepper/runge_kutta_dopri5.hpp", "include/boost/numeric/odeint/stepper/runge_kutta_fehlberg78.hpp"]}
{"id": "C38", "title": "Runge-Kutta and Adams steps preserve every linear invariant and commute with linear changes of variables", "statement": "If a linear functional l satisfies l(f(x,t)) = 0 for all x,t (e.g. conservation of total mass), then l(x) is unchanged by every step of the library's explicit Runge-Kutta steppers, and therefore by a whole integrate run; and stepping commutes with every invertible linear change of variables.", "quantifier": "every linear functional/map, every system with the invariant, every step sequence", "why_tests_cant": "Quantifies over systems and invariants.", "anchors": ["include/boost/numeric/odeint/stepper/detail/generic_rk_algorithm.hpp", "include/boost/numeric/odeint/stepper/explicit_generic_rk.hpp"]}
{"id": "C39", "title": "In-place and out-of-place do_step agree for the Runge-Kutta steppers", "statement": "do_step(sys,x,t,dt) updating x in place gives bit for bit the same state as do_step(sys,in,t,out,dt) with separate buffers for euler, runge_kutta4, runge_kutta4_classic, cash_karp54, dopri5, fehlberg78, modified_midpoint and rosenbrock4 (no read of an input element after it has been overwritten).", "quantifier": "every system, state, t, dt, in every arithmetic", "why_tests_cant": "Aliasing errors depend on evaluation order; tests compare to tolerances.", "anchors": ["include/boost/numeric/odeint/stepper/base/explicit_stepper_base.hpp", "include/boost/numeric/odeint/stepper/base/explicit_error_stepper_base.hpp", "include/boost/numeric/odeint/stepper/runge_kutta4_classic.hpp", "include/boost/numeric/odeint/stepper/modified_midpoint.hpp"]}
{"id": "C40", "title": "In-place and out-of-place do_step agree for extrapolation_stepper", "statement": "extrapolation_stepper::do_step(sys,x,t,dt) gives the same state as do_step(sys,in,t,out,dt).", "quantifier": "every system, state, t, dt", "why_tests_cant": "The wrong result is still a consistent approximation, so tolerance-based tests can pass.", "anchors": ["include/boost/numeric/odeint/stepper/extrapolation_stepper.hpp: do_step_impl", "include/boost/numeric/odeint/stepper/base/explicit_error_stepper_base.hpp"]}
{"id": "C41", "title": "dopri5 dense output interpolates both ends of the step smoothly", "statement": "After a step from (t0,x0) to (t1,x1), calc_state(t0) returns x0, calc_state(t1) returns x1, the derivative of the interpolant at t0 and t1 equals the system's derivative there, and consecutive steps therefore join continuously differentiably.", "quantifier": "every system, state, step", "why_tests_cant": "Identities between polynomials for every stage value.", "anchors": ["include/boost/numeric/odeint/stepper/runge_kutta_dopri5.hpp: calc_state", "include/boost/numeric/odeint/stepper/dense_output_runge_kutta.hpp"]}
{"id": "C42", "title": "rosenbrock4 and euler dense output interpolate both ends of the step", "statement": "calc_state at the step's ends returns the previous and the current state, for euler and rosenbrock4 dense output; the Euler interpolant is the straight line between them.", "quantifier": "every system, state and step", "why_tests_cant": "Identities for every stage value.", "anchors": ["include/boost/numeric/odeint/stepper/rosenbrock4.hpp: calc_state", "include/boost/numeric/odeint/stepper/euler.hpp: calc_state"]}
{"id": "C43", "title": "Adams-Bashforth and Adams-Moulton steps are exact for polynomials of the method's degree", "statement": "adams_bashforth<k> (after initialization), adams_moulton<k> and adams_bashforth_moulton<k> integrate x'=q(t) exactly for every polynomial q of degree < k, for k=1..8.", "quantifier": "every polynomial, t, dt", "why_tests_cant": "A wrong coefficient digit may hide below test tolerances.", "anchors": ["include/boost/numeric/odeint/stepper/detail/adams_bashforth_coefficients.hpp", "include/boost/numeric/odeint/stepper/detail/adams_moulton_coefficients.hpp", "include/boost/numeric/odeint/stepper/adams_bashforth.hpp", "include/boost/numeric/odeint/stepper/adams_moulton.hpp"]}
{"id": "C44", "title": "adams_moulton reports its true order", "statement": "adams_moulton<k>::order() is the order of the formula it applies, i.e. it integrates x'=q(t) exactly for every polynomial q of degree < order().", "quantifier": "every k=1..8, every polynomial", "why_tests_cant": "order() is never compared with the behaviour.", "anchors": ["include/boost/numeric/odeint/stepper/adams_moulton.hpp: order_value"]}
{"id": "C45", "title": "adams_bashforth keeps a correctly aligned history", "statement": "After any number of consecutive do_step calls with the same dt, slot j of the stored history is the derivative computed j calls ago, for every j < k; each step evaluates the system once after initialization; copying, rotating and resetting do not mix old and new values; the rotating buffer behaves as a queue of fixed length.", "quantifier": "every call sequence, every k, every system", "why_tests_cant": "Modular indexing over unbounded call sequences.", "anchors": ["include/boost/numeric/odeint/stepper/detail/rotating_buffer.hpp", "include/boost/numeric/odeint/stepper/adams_bashforth.hpp: do_step_impl"]}
{"id": "C46", "title": "Symplectic steppers preserve the symplectic form", "statement": "For a separable Hamiltonian system, one step of symplectic_euler, symplectic_rkn_sb3a_mclachlan and symplectic_rkn_sb3a_m4_mclachlan preserves the canonical symplectic form (the tangent map satisfies omega(Du,Dv)=omega(u,v)), so phase-space area is preserved over any number of steps.", "quantifier": "every separable system with symmetric derivative, every dimension, every state, dt, number of steps and coefficients", "why_tests_cant": "Exact invariance for all systems.", "anchors": ["include/boost/numeric/odeint/stepper/base/symplectic_rkn_stepper_base.hpp", "include/boost/numeric/odeint/stepper/symplectic_euler.hpp", "include/boost/numeric/odeint/stepper/symplectic_rkn_sb3a_mclachlan.hpp", "include/boost/numeric/odeint/stepper/symplectic_rkn_sb3a_m4_mclachlan.hpp"]}
{"id": "C47", "title": "The symmetric symplectic steppers and velocity_verlet are time reversible", "statement": "For the two McLachlan steppers and for velocity_verlet, a step with dt followed by a step with -dt returns exactly to the initial coordinates and momenta in exact arithmetic.", "quantifier": "every separable system, state, dt", "why_tests_cant": "Exact identity for all systems.", "anchors": ["include/boost/numeric/odeint/stepper/symplectic_rkn_sb3a_mclachlan.hpp", "include/boost/numeric/odeint/stepper/symplectic_rkn_sb3a_m4_mclachlan.hpp", "include/boost/numeric/odeint/stepper/velocity_verlet.hpp"]}
{"id": "C48", "title": "velocity_verlet's cached acceleration equals the freshly computed one", "statement": "For a force that does not depend on the velocity, any number of consecutive velocity_verlet::do_step calls gives the same trajectory as the textbook scheme that evaluates the acceleration at the beginning and end of every step; the system is evaluated once per step after the first.", "quantifier": "every call sequence, system and dt", "why_tests_cant": "Cache coherence over unbounded call sequences.", "anchors": ["include/boost/numeric/odeint/stepper/velocity_verlet.hpp: do_step, do_step_v1, toggle_current_acc"]}
{"id": "C49", "title": "Extrapolation reproduces the Aitken-Neville limit", "statement": "The extrapolation table of extrapolation_stepper and bulirsch_stoer computes the value at zero of the polynomial in h^2 through the computed entries; if the entries are samples of a polynomial in h^2 of degree at most k the result is its constant term exactly.", "quantifier": "every table size, every step sequence with distinct entries, all polynomials", "why_tests_cant": "Identity for all orders and values.", "anchors": ["include/boost/numeric/odeint/stepper/extrapolation_stepper.hpp: extrapolate", "include/boost/numeric/odeint/stepper/bulirsch_stoer.hpp: extrapolate"]}
{"id": "C50", "title": "modified_midpoint is the Gragg scheme of the configured number of steps", "statement": "modified_midpoint with n >= 2 sub-steps performs exactly n+1 system evaluations and computes Gragg's smoothed midpoint sequence with step dt/n; the result is exact for right-hand sides linear in t.", "quantifier": "every n, system, state, dt", "why_tests_cant": "All sub-step counts.", "anchors": ["include/boost/numeric/odeint/stepper/modified_midpoint.hpp"]}
{"id": "C51", "title": "implicit_euler solves the implicit equation for linear systems", "statement": "For x' = J x + g(t)-type linear systems with invertible I - dt J, implicit_euler::do_step terminates with exactly the solution of (I - dt J) x1 = x0 (+ inhomogeneity).", "quantifier": "every dimension, matrix, state, dt (exact arithmetic)", "why_tests_cant": "All matrices.", "anchors": ["include/boost/numeric/odeint/stepper/implicit_euler.hpp: do_step, solve"]}
{"id": "C52", "title": "implicit_euler uses the system's Jacobian in every Newton iteration", "statement": "Every Newton iteration of implicit_euler::do_step solves a linear system with the matrix dt*J - I.", "quantifier": "every nonlinear system of dimension >= 2", "why_tests_cant": "A wrong iteration matrix can still converge slowly, hiding the error in tests.", "anchors": ["include/boost/numeric/odeint/stepper/implicit_euler.hpp: do_step, solve"]}
{"id": "C53", "title": "Splitting a range into parts is a partition", "statement": "split_offsets(n,i,p) for i=0..p-1 are consecutive, disjoint, cover 0..n, and part sizes differ by at most one; the unsigned subtraction in the computation never yields a wrong offset for sizes below 2^63.", "quantifier": "every length, every number of parts, every index", "why_tests_cant": "All sizes including wrap-around of unsigned subtraction.", "anchors": ["include/boost/numeric/odeint/util/split_adaptor.hpp: split_offsets", "include/boost/numeric/odeint/external/mpi/mpi_vector_state.hpp"]}
{"id": "C54", "title": "split followed by unsplit is the identity", "statement": "For openmp_state and mpi_state, unsplit(split(v)) = v for every vector and every positive number of blocks/ranks, including fewer elements than blocks.", "quantifier": "every vector, every number of blocks", "why_tests_cant": "All sizes.", "anchors": ["include/boost/numeric/odeint/external/openmp/openmp_state.hpp: split_impl, unsplit_impl", "include/boost/numeric/odeint/external/mpi/mpi_vector_state.hpp"]}
{"id": "C55", "title": "Parallel algebra results do not depend on the schedule", "statement": "for_eachN of the OpenMP range and nested algebras gives the same containers as the sequential range_algebra for every order and interleaving in which the loop iterations execute, also when containers are aliased; norm_inf by parallel reduction gives the sequential result for every partition and combination order.", "quantifier": "every schedule (permutation / partition of iterations), every operation, every state", "why_tests_cant": "Schedules cannot be enumerated by tests.", "anchors": ["include/boost/numeric/odeint/external/openmp/openmp_range_algebra.hpp", "include/boost/numeric/odeint/external/openmp/openmp_nested_algebra.hpp", "include/boost/numeric/odeint/external/mpi/mpi_nested_algebra.hpp", "include/boost/numeric/odeint/algebra/range_algebra.hpp"]}
{"id": "C56", "title": "norm_inf is the maximum absolute component for every algebra", "statement": "norm_inf of range, array, nested and fusion algebras returns the largest |x_i| (0 for an empty state): it is an upper bound of all components and attained.", "quantifier": "every state of every size", "why_tests_cant": "All vectors.", "anchors": ["include/boost/numeric/odeint/algebra/detail/norm_inf.hpp", "include/boost/numeric/odeint/algebra/array_algebra.hpp", "include/boost/numeric/odeint/algebra/fusion_algebra.hpp"]}
{"id": "C57", "title": "always_resizer keeps buffers large enough; initially_resizer is safe as long as the size does not change", "statement": "With always_resizer every step finds its internal buffers of the size of the current state for any sequence of state sizes; with initially_resizer this holds for sequences of constant size.", "quantifier": "every sequence of state sizes", "why_tests_cant": "All histories of sizes.", "anchors": ["include/boost/numeric/odeint/util/resizer.hpp", "include/boost/numeric/odeint/util/resize.hpp", "include/boost/numeric/odeint/util/same_size.hpp"]}
{"id": "C58", "title": "A stepper can be reused with a state of a different size", "statement": "With the default initially_resizer, calling do_step on a larger state after a smaller one accesses only elements inside the internal buffers.", "quantifier": "every pair of sizes", "why_tests_cant": "Memory errors may stay silent.", "anchors": ["include/boost/numeric/odeint/util/resizer.hpp: initially_resizer"]}
{"id": "C59", "title": "adaptive_adams_bashforth_moulton predicts by exact polynomial extrapolation on non-uniform steps", "statement": "The predictor of adaptive_adams_bashforth_moulton with k stored derivatives is exact for every x'=q(t) with deg q < k, for every sequence of (non-zero, possibly different) step sizes, and its table accesses are in bounds.", "quantifier": "every step-size history, every polynomial", "why_tests_cant": "All step-size histories.", "anchors": ["include/boost/numeric/odeint/stepper/detail/adaptive_adams_coefficients.hpp", "include/boost/numeric/odeint/stepper/adaptive_adams_bashforth_moulton.hpp"]}
{"id": "C60", "title": "controlled_adams_bashforth_moulton keeps its order within bounds", "statement": "For every error history, the working order of controlled_adams_bashforth_moulton stays between 1 and the smaller of the number of initialized steps and the maximal order.", "quantifier": "every history of error estimates and step results", "why_tests_cant": "All histories.", "anchors": ["include/boost/numeric/odeint/stepper/controlled_adams_bashforth_moulton.hpp: try_step, default_order_adjuster"]}
{"id": "C61", "title": "The PID step adjuster keeps direction, bounds the growth and rejects invalid errors", "statement": "pid_step_adjuster::adjust_stepsize returns a step of the same direction, with a ratio between 1 - pi/4 and 1 + pi/2 unless limited by dtmax.", "quantifier": "every error history, step and coefficient set", "why_tests_cant": "All histories of real error values.", "anchors": ["include/boost/numeric/odeint/stepper/detail/pid_step_adjuster.hpp"]}
{"id": "C62", "title": "integrate_const reaches an end time that is an exact multiple of dt away, in double precision", "statement": "If in exact arithmetic end = start + n*dt for the given doubles, integrate_const in double precision makes n steps and observes at the end time.", "quantifier": "all doubles start, end, dt", "why_tests_cant": "Rounding cases are rare among all doubles.", "anchors": ["include/boost/numeric/odeint/integrate/detail/integrate_const.hpp", "include/boost/numeric/odeint/util/detail/less_with_sign.hpp"]}
{"id": "C63", "title": "integrate_n_steps with a dense-output stepper labels its final observation with the stepper's time", "statement": "When integrate_n_steps with a dense-output stepper makes its last observation at t0+n*dt, the stepper has reached that time (within epsilon), for forward and backward integration.", "quantifier": "every dense-output stepper, n, dt of either sign", "why_tests_cant": "Needs steppers that advance less than announced, backward.", "anchors": ["include/boost/numeric/odeint/integrate/detail/integrate_n_steps.hpp:139-150"]}
{"id": "C64", "title": "The last shortened step of integrate_adaptive with a plain stepper continues with the stepper used before", "statement": "integrate_adaptive with a plain stepper passed by value makes its last, shortened step with the stepper object as left by the preceding regular steps (same internal history).", "quantifier": "every stepper with internal state, every interval", "why_tests_cant": "Only visible for steppers with internal state (multistep) passed by value.", "anchors": ["include/boost/numeric/odeint/integrate/detail/integrate_adaptive.hpp: integrate_adaptive (stepper_tag)"]}
{"id": "C65", "title": "Const-step and n-step iterators of dense-output steppers show what integrate_const / integrate_n_steps observe", "statement": "Iterating a const-step or n-step time iterator of a dense-output stepper from begin to end yields the same sequence of (state,time) pairs as the observer of integrate_const or integrate_n_steps with the same arguments.", "quantifier": "every dense-output stepper, interval and step", "why_tests_cant": "Needs steppers whose interpolant is not exact and whose last step is shortened.", "anchors": ["include/boost/numeric/odeint/iterator/impl/const_step_iterator_impl.hpp", "include/boost/numeric/odeint/integrate/detail/integrate_const.hpp"]}
{"id": "C66", "title": "The iterator-based integrate functions compute the same result as the plain ones", "statement": "integrate_const and integrate_adaptive from iterator/integrate leave the final state in start_state and return the number of steps made, like the functions in integrate/.", "quantifier": "every stepper, interval (empty in the direction of dt or not) and step", "why_tests_cant": "The boundary case of an empty interval and the reference semantics of the state need not be sampled.", "anchors": ["include/boost/numeric/odeint/iterator/integrate/detail/integrate_const.hpp", "include/boost/numeric/odeint/iterator/integrate/detail/integrate_adaptive.hpp"]}
{"id": "C67", "title": "A times iterator visits exactly the requested times", "statement": "Iterating a times iterator over a strictly monotone range yields one element per requested time, labelled with exactly that time, and the states that integrate_times would observe.", "quantifier": "every range of times, step and stepper, in exact arithmetic and in double precision", "why_tests_cant": "Rounding differences appear only for particular times.", "anchors": ["include/boost/numeric/odeint/iterator/impl/times_iterator_impl.hpp", "include/boost/numeric/odeint/integrate/detail/integrate_times.hpp"]}
{"id": "C68", "title": "A times iterator over an empty range is an end iterator", "statement": "Constructing a times iterator from an empty range of times is defined and gives an iterator equal to the end iterator.", "quantifier": "every stepper and state", "why_tests_cant": "A read one past the end need not crash in a test.", "anchors": ["include/boost/numeric/odeint/iterator/impl/times_iterator_impl.hpp:84-92"]}
{"id": "C69", "title": "State invariants kept by one step are kept by every integrate function", "statement": "If every do_step (try_step; initialize, do_step, calc_state) keeps a property of the stepper object and maps states with a property to states with that property, then every state passed to the observer and the final state of integrate_const, integrate_n_steps, integrate_adaptive and integrate_times have the property, for plain, controlled and dense-output steppers, also when the run ends by an exception.", "quantifier": "every property, stepper, observer (also throwing), interval, step size, number type", "why_tests_cant": "Tests check a few conserved quantities on a few systems.", "anchors": ["include/boost/numeric/odeint/integrate/detail/integrate_const.hpp", "include/boost/numeric/odeint/integrate/detail/integrate_n_steps.hpp", "include/boost/numeric/odeint/integrate/detail/integrate_adaptive.hpp", "include/boost/numeric/odeint/integrate/detail/integrate_times.hpp"]}
{"id": "C70", "title": "The controllers of the library satisfy the contract under which the integrate functions are correct", "statement": "controlled_runge_kutta over every error stepper of the library (explicit or FSAL) and rosenbrock4_controller, without step limit, advance t by exactly dt on success, leave it on failure, always propose a nonzero step in the direction of the attempted one, and strictly shorten it on failure; hence with them integrate_adaptive observes strictly monotone times, never past the end by more than epsilon, and returns normally only at the end time up to epsilon.", "quantifier": "every system, tolerance, state, step of either sign, exact arithmetic", "why_tests_cant": "Connects two components for all histories.", "anchors": ["include/boost/numeric/odeint/stepper/controlled_runge_kutta.hpp", "include/boost/numeric/odeint/stepper/rosenbrock4_controller.hpp", "include/boost/numeric/odeint/integrate/detail/integrate_adaptive.hpp"]}
{"id": "C71", "title": "The error estimate of a controlled stepper sees the error of a quadrature", "statement": "For a system x' = g(t) on which the step of an error stepper of the library is not exact, the controller can reject: the error estimate is not zero for every g and every step.", "quantifier": "every error stepper of the library", "why_tests_cant": "Needs all integrands.", "anchors": ["include/boost/numeric/odeint/stepper/runge_kutta_fehlberg78.hpp: coefficients_db, do_step_impl with error"]}
{"id": "C72", "title": "A first-same-as-last stepper may be applied to any state", "statement": "do_step of runge_kutta_dopri5 applied to a state and time unrelated to the previous call gives the result of one step from that state, without a call of reset().", "quantifier": "every pair of states", "why_tests_cant": "Tests call do_step on consecutive states only.", "anchors": ["include/boost/numeric/odeint/stepper/base/explicit_error_stepper_fsal_base.hpp: do_step_v1"]}
{"id": "C73", "title": "integrate_adaptive with a controlled Runge-Kutta stepper terminates and reaches the end for every bounded system", "statement": "If the right-hand side is bounded by B between the start and the end time and eps_abs > 0, integrate_adaptive with controlled_runge_kutta over any error stepper of the library (no step limit) returns without exception, at the end time up to epsilon, and makes at most k steps as soon as k*min(|dt|,h/5) >= |t_end - t_start|, where h = eps_abs/(B*sum|error weights|); provided 0.9^499*(|t_end - t_start|+eps) <= h.", "quantifier": "every bounded system, initial state, interval, direction, initial step, tolerance, number of components; exact arithmetic", "why_tests_cant": "Termination and step count for all systems and intervals.", "anchors": ["include/boost/numeric/odeint/integrate/detail/integrate_adaptive.hpp", "include/boost/numeric/odeint/stepper/controlled_runge_kutta.hpp", "include/boost/numeric/odeint/integrate/max_step_checker.hpp"]}
{"id": "C74", "title": "Members of bulirsch_stoer that the constructor leaves uninitialised never influence a result", "statement": "Two newly constructed bulirsch_stoer objects with the same parameters give the same results (state, time, step size, success) for every sequence of try_step and reset calls, whatever values m_dt_last and the buffers have.", "quantifier": "every call sequence, system, resizer answer, number type, every initial memory content", "why_tests_cant": "Tests see one memory content.", "anchors": ["include/boost/numeric/odeint/stepper/bulirsch_stoer.hpp: constructor, try_step, reset"]}
{"id": "C75", "title": "bulirsch_stoer backward is the mirror image of bulirsch_stoer forward", "statement": "Applied to the time-reflected system with the negated step, a new bulirsch_stoer object accepts or rejects alike, gives the same state, the negated time and the negated proposed step.", "quantifier": "every system, state, step", "why_tests_cant": "Both directions pass tolerance-based tests.", "anchors": ["include/boost/numeric/odeint/stepper/bulirsch_stoer.hpp: try_step (work comparison)"]}
{"id": "C76", "title": "bulirsch_stoer satisfies the contract under which the integrate functions are correct", "statement": "Without step limit, try_step of every reachable bulirsch_stoer object advances t by exactly dt on success, leaves it on failure and proposes a nonzero step in the direction of the attempted one, not longer on failure.", "quantifier": "every system, tolerance, state, step of either sign, call history, exact arithmetic", "why_tests_cant": "Connects two components for all histories.", "anchors": ["include/boost/numeric/odeint/stepper/bulirsch_stoer.hpp: try_step", "include/boost/numeric/odeint/integrate/detail/integrate_adaptive.hpp"]}
{"id": "C77", "title": "integrate_adaptive with bulirsch_stoer terminates and reaches the end for every bounded system", "statement": "If the right-hand side is bounded by B and eps_abs > 0, integrate_adaptive with bulirsch_stoer (no step limit) returns without exception, at the end time up to epsilon, after at most k steps as soon as k*min(|dt|,h/200) >= |t_end - t_start|, with h = 0.2*eps_abs/(2*9^8*B), provided epsilon < 0.06*h and 0.94^499*(|t_end - t_start|+eps) <= h.", "quantifier": "every bounded system, initial state, interval, direction, initial step, tolerance; exact arithmetic", "why_tests_cant": "Termination and step count for all systems and intervals.", "anchors": ["include/boost/numeric/odeint/stepper/bulirsch_stoer.hpp", "include/boost/numeric/odeint/integrate/detail/integrate_adaptive.hpp"]}
{"id": "C78", "title": "adams_bashforth in place and out of place agree", "statement": "For adams_bashforth with its default initializing stepper, do_step(system, x, t, dt) leaves in x the value do_step(system, in, t, out, dt) writes to out when called on an equal stepper with in equal to x, in the starting phase as well as later.", "quantifier": "All step counts 1..8, systems, states, histories, times and step widths.", "why_tests_cant": "The two overloads run different aliasing patterns through the initializing stepper; a test that checks only convergence does not compare them.", "anchors": ["include/boost/numeric/odeint/stepper/adams_bashforth.hpp", "include/boost/numeric/odeint/stepper/extrapolation_stepper.hpp"]}
{"id": "C79", "title": "adams_bashforth_moulton restarts after a resize", "statement": "When the state passed to adams_bashforth_moulton::do_step has a size different from the one it was used with, the next step is a starting step of the initializing stepper: no derivative stored for the old size enters the result.", "quantifier": "All histories, step counts and systems.", "why_tests_cant": "Needs a stepper reused over differently sized states, and the stale values give a plausible looking wrong result.", "anchors": ["include/boost/numeric/odeint/stepper/adams_bashforth_moulton.hpp", "include/boost/numeric/odeint/stepper/adams_bashforth.hpp"]}
{"id": "C80", "title": "adams_bashforth under a changing step width", "statement": "integrate_times with adams_bashforth<k> shows the observer the exact values of a polynomial solution of degree at most k at every requested time, also when the requested times are not multiples of dt so that the step width changes during the run.", "quantifier": "All increasing sequences of times, positive dt and polynomial solutions of degree at most k.", "why_tests_cant": "Tests use equidistant observation times where no step is shortened.", "anchors": ["include/boost/numeric/odeint/stepper/adams_bashforth.hpp", "include/boost/numeric/odeint/integrate/detail/integrate_times.hpp"]}
{"id": "C81", "title": "All do_step overloads of the symplectic steppers agree", "statement": "The in-place, the out-of-place and the partially aliased do_step of the symplectic Runge-Kutta-Nystroem steppers compute the same coordinates and momenta and call the system functions with the same arguments; the contents of the temporaries and of the output state before the call have no influence; passing the momentum function alone gives the result of the pair with dq/dt = p.", "quantifier": "All systems, coefficients, states, buffers and step widths, in any arithmetic.", "why_tests_cant": "Stale buffers and aliasing show up only for particular call patterns.", "anchors": ["include/boost/numeric/odeint/stepper/base/symplectic_rkn_stepper_base.hpp"]}
{"id": "C82", "title": "Symplectic steppers and velocity_verlet conserve linear functions of the momenta", "statement": "If a linear function of the momenta (for instance the total momentum) has rate zero for every coordinate, it keeps its initial value exactly after every step and at every observer call of the plain integrate functions.", "quantifier": "All linear functions, systems, coefficients, states, step widths and numbers of steps, in exact arithmetic.", "why_tests_cant": "Invariance over unbounded runs and all systems.", "anchors": ["include/boost/numeric/odeint/stepper/base/symplectic_rkn_stepper_base.hpp", "include/boost/numeric/odeint/stepper/velocity_verlet.hpp"]}
{"id": "C83", "title": "velocity_verlet reports its order", "statement": "order() of velocity_verlet is the largest degree of polynomial solutions which a step reproduces exactly.", "quantifier": "All polynomial solutions, times and step widths.", "why_tests_cant": "order() is a constant that no numerical test reads.", "anchors": ["include/boost/numeric/odeint/stepper/velocity_verlet.hpp"]}
{"id": "C84", "title": "Order four of the McLachlan steppers for linear forces", "statement": "For q'' = L q with any linear L, one step of symplectic_rkn_sb3a_m4_mclachlan differs from the Taylor polynomial of the exact solution of degree four in dt by O(dt^5) in coordinates and momenta; for symplectic_rkn_sb3a_mclachlan the same holds up to 10^-20 in the coefficients of dt^3 and dt^4, because its constants are given as 20-digit decimals.", "quantifier": "All linear maps, dimensions, initial values and |dt| <= 1.", "why_tests_cant": "An asymptotic statement about all linear systems; tests observe a few step widths.", "anchors": ["include/boost/numeric/odeint/stepper/symplectic_rkn_sb3a_mclachlan.hpp", "include/boost/numeric/odeint/stepper/symplectic_rkn_sb3a_m4_mclachlan.hpp"]}
{"id": "C85", "title": "rosenbrock4 preserves linear invariants", "statement": "If a linear functional of the state is constant along the flow and the Jacobian and time derivative supplied by the user have the same property, one rosenbrock4 step keeps the functional exactly and the error estimate has no component along it.", "quantifier": "every dimension, functional, system, state, t, dt <> 0 with an invertible stage matrix (exact arithmetic)", "why_tests_cant": "An identity through six linear solves for every system.", "anchors": ["include/boost/numeric/odeint/stepper/rosenbrock4.hpp: do_step"]}
{"id": "C86", "title": "rosenbrock4 has its documented order 4 for time-dependent right-hand sides", "statement": "For smooth x' = f(x,t) with exact Jacobian and df/dt supplied, the local error of one rosenbrock4 step is O(dt^5).", "quantifier": "every smooth non-autonomous system", "why_tests_cant": "The existing tests run autonomous problems (df/dt = 0), where the coefficient in question never enters.", "anchors": ["include/boost/numeric/odeint/stepper/rosenbrock4.hpp: default_rosenbrock_coefficients", "include/boost/numeric/odeint/stepper/rosenbrock4.hpp: do_step"]}
{"id": "C87", "title": "Every stage of rosenbrock4 solves its stage equation", "statement": "Each of the stages g1..g5 and the error estimate solves (1/(gamma dt) I - J) g = f(x + sum a g, t + c dt) + dt d df/dt + sum c g / dt with the coefficients written in the source, and the new state is x + sum m g, independently of the previous contents of the buffers.", "quantifier": "every dimension, system, state, buffer contents, dt with invertible stage matrix (exact arithmetic)", "why_tests_cant": "A statement about LU factorisation with pivoting for all matrices.", "anchors": ["include/boost/numeric/odeint/stepper/rosenbrock4.hpp: do_step"]}
{"id": "C88", "title": "thrust_algebra::norm_inf is the largest absolute component", "statement": "norm_inf of the thrust algebra returns the largest |x_i|, like range_algebra, for every reduction.", "quantifier": "every state", "why_tests_cant": "The error norms seen in tests are of positive vectors (rel_error takes absolute values first); other callers pass signed vectors.", "anchors": ["include/boost/numeric/odeint/external/thrust/thrust_algebra.hpp: detail::maximum, norm_inf"]}
{"id": "C89", "title": "rel_error of the thrust and compute operations agrees with default_operations", "statement": "The element-wise relative error of thrust_operations and compute_operations is |e| / (eps_abs + eps_rel * (a_x |x| + a_dxdt |dxdt|)), as in default_operations.", "quantifier": "every value, weight and tolerance", "why_tests_cant": "The two formulas agree for positive states with the default weight a_x = 1, so tests with positive states cannot tell them apart.", "anchors": ["include/boost/numeric/odeint/external/thrust/thrust_operations.hpp: rel_error", "include/boost/numeric/odeint/external/compute/compute_operations.hpp: rel_error", "include/boost/numeric/odeint/algebra/default_operations.hpp: rel_error"]}
{"id": "C90", "title": "split of an openmp_state is balanced", "statement": "The blocks of an openmp_state filled by split differ in size by at most one element, as the pieces of make_split_range do.", "quantifier": "every length and number of blocks", "why_tests_cant": "An unbalanced split gives correct numbers, only slower; no test looks at block sizes for lengths that are not multiples.", "anchors": ["include/boost/numeric/odeint/external/openmp/openmp_state.hpp: split_impl"]}
{"id": "C91", "title": "scale_sum_swap2 stores the old first container in the second", "statement": "After for_each3(s1,s2,s3,scale_sum_swap2(a1,a2)) the first container holds a1*s2 + a2*s3 and the second the previous contents of the first, in every back end.", "quantifier": "every length, state and factor", "why_tests_cant": "The operation is used by modified_midpoint only, which no thrust test runs.", "anchors": ["include/boost/numeric/odeint/algebra/default_operations.hpp: scale_sum_swap2", "include/boost/numeric/odeint/external/thrust/thrust_operations.hpp: scale_sum_swap2"]}
{"id": "C92", "title": "controlled_adams_bashforth_moulton stays inside its table of error constants", "statement": "For every order given as template argument, try_step of controlled_adams_bashforth_moulton reads the table gs of the order adjuster only within its 14 entries.", "quantifier": "every order, history and system", "why_tests_cant": "Orders above 13 compile but are not in any test; the read behind the table rarely crashes.", "anchors": ["include/boost/numeric/odeint/stepper/controlled_adams_bashforth_moulton.hpp: default_order_adjuster"]}
{"id": "C93", "title": "The order of controlled_adams_bashforth_moulton is chosen from estimates of the current step", "statement": "After an accepted step the new order depends only on the error estimates of that step: two steppers in the same state except for leftovers of earlier estimates choose the same order.", "quantifier": "every pair of objects that differ in old error estimates only", "why_tests_cant": "Leftovers are zero in a freshly constructed test object.", "anchors": ["include/boost/numeric/odeint/stepper/controlled_adams_bashforth_moulton.hpp: try_step, default_order_adjuster"]}
{"id": "C94", "title": "initialize_controlled fills the history with the times of the steps taken", "statement": "After initialize_controlled with an exact controlled stepper the next step is exact for polynomial right-hand sides of degree below the order, as after ordinary steps.", "quantifier": "every controlled stepper, also those that change the step between accepted steps", "why_tests_cant": "Visible only if the initializing stepper changes its step while filling the history; the solution is still plausible.", "anchors": ["include/boost/numeric/odeint/stepper/controlled_adams_bashforth_moulton.hpp", "include/boost/numeric/odeint/stepper/adaptive_adams_bashforth_moulton.hpp: initialize_controlled"]}
{"id": "C95", "title": "The PID step adjuster combines the errors of the last accepted steps", "statement": "In every sequence of accepted and rejected steps the controller formula is evaluated with the scaled errors of the current and the last two accepted steps and with the ratios of their step sizes, as soon as two steps were accepted since the last rejection; before that the new step uses the current error with exponent 0.7/(order+1). Rejected steps leave no trace in the history.", "quantifier": "every history of accepted and rejected steps, every coefficient set and tolerance", "why_tests_cant": "Depends on unbounded histories kept in rotating buffers.", "anchors": ["include/boost/numeric/odeint/stepper/detail/pid_step_adjuster.hpp: adjust_stepsize"]}
{"id": "C96", "title": "The PID step adjuster respects the maximal step in both directions", "statement": "With a maximal step dtmax the absolute value of the new step is at most |dtmax|, for forward and backward integration, and the limit never makes a step with a large error acceptable.", "quantifier": "every history, error, dt and dtmax", "why_tests_cant": "Tests integrate forwards only.", "anchors": ["include/boost/numeric/odeint/stepper/detail/pid_step_adjuster.hpp: adjust_stepsize"]}
{"id": "C97", "title": "The dead-beat controllers of the PID adjuster reach the tolerance in one step", "statement": "For constant error phi and constant step the controllers of the families H0 (BASIC, H0211, H0312, H0321) scale the step with phi^(1/(order+1)), the exponent of the asymptotic error model.", "quantifier": "every error, order and step", "why_tests_cant": "A wrong coefficient changes the number of steps, not the result.", "anchors": ["include/boost/numeric/odeint/stepper/detail/pid_step_adjuster_coefficients.hpp", "include/boost/numeric/odeint/stepper/detail/pid_step_adjuster.hpp"]}
{"id": "C98", "title": "The PID step adjuster rejects an error that is not a number", "statement": "In double precision a step whose error estimate is NaN is not accepted by pid_step_adjuster.", "quantifier": "every state of the adjuster, every number of components", "why_tests_cant": "Needs a system returning NaN; the step is accepted silently.", "anchors": ["include/boost/numeric/odeint/stepper/detail/pid_step_adjuster.hpp: adjust_stepsize", "include/boost/numeric/odeint/algebra/norm_result_type.hpp"]}
{"id": "C99", "title": "dense_output_runge_kutta: initialize makes earlier use irrelevant", "statement": "After initialize(x0,t0,dt0) and at least one do_step every visible result (current and previous state and time, current step, calc_state at every time, exception or not) is the same for two dense output steppers that were used differently before, including steppers that were never used.", "quantifier": "every pair of objects, system, initial values and number of steps, for dense output with euler and with runge_kutta_dopri5, in every arithmetic", "why_tests_cant": "A test starts from a fresh object; the FSAL derivative cache and the old states survive initialize.", "anchors": ["include/boost/numeric/odeint/stepper/dense_output_runge_kutta.hpp: initialize, do_step"]}
{"id": "C100", "title": "dopri5 dense output is a C1 interpolant over the whole run", "statement": "After every do_step of a dense output dopri5 stepper calc_state equals previous_state at previous_time and current_state at current_time, its time derivative equals the right-hand side at both ends, previous_state/previous_time are the current ones before the step, and so the pieces of consecutive steps join with equal value and derivative.", "quantifier": "every system, state, dt <> 0, tolerance, step limit of the right sign, history of rejected attempts and number of steps; exact arithmetic", "why_tests_cant": "Derivatives at the joints for all systems and all step sequences are not observable by sampling.", "anchors": ["include/boost/numeric/odeint/stepper/dense_output_runge_kutta.hpp: do_step, calc_state (FSAL version)", "include/boost/numeric/odeint/stepper/runge_kutta_dopri5.hpp: calc_state", "include/boost/numeric/odeint/stepper/controlled_runge_kutta.hpp: try_step (FSAL version)"]}
{"id": "C101", "title": "integrate functions with the dopri5 dense output stepper", "statement": "Runs of integrate_adaptive, integrate_times and integrate_n_steps with make_dense_output(runge_kutta_dopri5) that return normally observe exactly the requested times (adaptive: the start, then every accepted time), strictly ordered and not beyond the end, evaluate the interpolant only inside the last step interval, and reach the end time up to the rounding tolerance.", "quantifier": "every system, state, tolerances, interval, step width <> 0 of the right direction, forwards and backwards; exact arithmetic with tolerance eps", "why_tests_cant": "Quantifies over all systems and all sequences of rejections.", "anchors": ["include/boost/numeric/odeint/integrate/detail/integrate_adaptive.hpp", "include/boost/numeric/odeint/integrate/detail/integrate_times.hpp", "include/boost/numeric/odeint/integrate/detail/integrate_n_steps.hpp", "include/boost/numeric/odeint/stepper/dense_output_runge_kutta.hpp"]}
{"id": "C102", "title": "Dense output do_step throws only if no attempt was accepted", "statement": "If do_step of a controlled dense output stepper (the FSAL dense_output_runge_kutta, rosenbrock4_dense_output, bulirsch_stoer_dense_out) throws step_adjustment_error then all its attempts were rejected and current_time and current_state are unchanged.", "quantifier": "every system, state and step width", "why_tests_cant": "Needs exactly 500 rejections followed by an acceptance.", "anchors": ["include/boost/numeric/odeint/stepper/dense_output_runge_kutta.hpp: do_step (FSAL version)", "include/boost/numeric/odeint/stepper/rosenbrock4_dense_output.hpp: do_step", "include/boost/numeric/odeint/stepper/bulirsch_stoer_dense_out.hpp: do_step", "include/boost/numeric/odeint/integrate/max_step_checker.hpp: failed_step_checker"]}
{"id": "C103", "title": "Dense output with euler returns the current state at the current time", "statement": "For the dense output stepper built on euler calc_state(current_time()) gives exactly current_state(), as the explicit copy in calc_state intends; in between it is the line through the previous state with the slope there.", "quantifier": "every system, state and step, in double precision", "why_tests_cant": "Tests compare with a tolerance.", "anchors": ["include/boost/numeric/odeint/stepper/dense_output_runge_kutta.hpp: calc_state (explicit_error_stepper version, lines 143-150)", "include/boost/numeric/odeint/stepper/euler.hpp: calc_state"]}
{"id": "C104", "title": "mkl_operations give the same steps as default_operations", "statement": "euler, runge_kutta4 and runge_kutta4_classic compiled with mkl_operations call the system with the same arguments and leave the same values in every buffer as with default_operations, in place and out of place.", "quantifier": "every system, state, t, dt, aliasing of the arguments, any arithmetic", "why_tests_cant": "Needs the Intel library; only one test program exists and compares a single run.", "anchors": ["include/boost/numeric/odeint/external/mkl/mkl_operations.hpp", "include/boost/numeric/odeint/stepper/euler.hpp", "include/boost/numeric/odeint/stepper/runge_kutta4.hpp", "include/boost/numeric/odeint/stepper/runge_kutta4_classic.hpp"]}
{"id": "C105", "title": "The sums of mkl_operations may overwrite any of their operands", "statement": "scale_sum2..5 of mkl_operations store a1*t2+a2*t3+... of the values before the call in the output, also when the output is one of the operands (as extrapolate() calls scale_sum2 with t3 = t1).", "quantifier": "every aliasing, factor and state", "why_tests_cant": "The combination output = later operand occurs in extrapolation steppers only, which the MKL test does not run.", "anchors": ["include/boost/numeric/odeint/external/mkl/mkl_operations.hpp: scale_sum2..scale_sum5", "include/boost/numeric/odeint/stepper/extrapolation_stepper.hpp: extrapolate"]}
{"id": "C106", "title": "implicit_euler_mtl4 solves the implicit equation for linear systems", "statement": "For f(x,t) = A(t) x + g(t) with its Jacobian, an exact linear solver and a nonsingular matrix dt*A - 1 the new state satisfies x1 = x + dt*f(x1,t+dt).", "quantifier": "every dimension, A, g, x, t, dt; exact arithmetic", "why_tests_cant": "Tests compare one example with a tolerance.", "anchors": ["include/boost/numeric/odeint/external/mtl4/implicit_euler_mtl4.hpp: do_step"]}
{"id": "C107", "title": "implicit_euler_mtl4 solves the implicit equation up to its epsilon", "statement": "The state after do_step satisfies |x1 - x - dt*f(x1,t+dt)| <= epsilon for the epsilon given to the constructor, as in implicit_euler.", "quantifier": "every smooth right-hand side, x, t, dt with nonsingular matrix", "why_tests_cant": "On linear test problems one Newton step is exact.", "anchors": ["include/boost/numeric/odeint/external/mtl4/implicit_euler_mtl4.hpp: constructor, do_step"]}
{"id": "C108", "title": "gsl_vector iterators visit exactly the elements of the vector", "statement": "The loop from range_begin to range_end over a gsl_vector of any stride ends after size steps, visits element 0, 1, ..., size-1 in order and reads nothing else; advance(n) equals n increments.", "quantifier": "every block, start, stride > 0 and size", "why_tests_cant": "Tests use vectors of stride 1.", "anchors": ["include/boost/numeric/odeint/external/gsl/gsl_wrapper.hpp: gsl_vector_iterator, end_iterator"]}
{"id": "C109", "title": "Wrapped gsl_vector states can be copied", "statement": "Default construction, copy construction, assignment, resizing and destruction of state_wrapper<gsl_vector*> in any order have no undefined behaviour and release every vector exactly once; so steppers with this state type can be passed by value to the integrate functions.", "quantifier": "every heap and call sequence", "why_tests_cant": "Freeing an indeterminate pointer may pass unnoticed.", "anchors": ["include/boost/numeric/odeint/external/gsl/gsl_wrapper.hpp: state_wrapper, resize_impl"]}
{"id": "C110", "title": "resize and same_size of boost::multi_array agree", "statement": "After resize(x1,x2) the array x1 has the shape, the index bases and the number of elements of x2 and same_size(x1,x2) is true; same_size is true only for arrays of equal shape and index bases.", "quantifier": "every dimension, shape, index bases, previous contents", "why_tests_cant": "Combinations of dimensions and bases are unbounded.", "anchors": ["include/boost/numeric/odeint/util/multi_array_adaption.hpp"]}
{"id": "C111", "title": "Steps on boost::multi_array states act index by index", "statement": "After an euler step x[i][j].. has become x[i][j].. + dt * dxdt[i][j].. for every index, whatever the shape, the index bases and the storage order of the state; for_eachN applies the operation to the elements with equal index.", "quantifier": "every dimension, shape, index bases, storage order, system, dt", "why_tests_cant": "Tests use arrays of default storage order.", "anchors": ["include/boost/numeric/odeint/algebra/multi_array_algebra.hpp", "include/boost/numeric/odeint/util/multi_array_adaption.hpp", "include/boost/numeric/odeint/stepper/euler.hpp"]}
{"id": "C112", "title": "Every observation of an adaptive integration is one tolerance-respecting Runge-Kutta step after the previous one", "statement": "integrate_adaptive with make_controlled(abs,rel[,max_dt],stepper), and integrate() with its documented tolerances 1e-6, shows the observer first the start point; every two consecutive observations are linked by exactly one step of the underlying method whose embedded error estimate is within abs + rel*(|x|+|h||x'|) in every component, which goes in the direction of dt, does not pass the end time and is not longer than max_dt. On normal return the observations number steps+1, the last one is the returned state and the end time is reached. Otherwise the result is step_adjustment_error or what the observer threw. For a right-hand side bounded between start and end integrate() does return.", "quantifier": "every system, observer (also throwing), tolerance, step limit agreeing with dt, state, interval, direction, error stepper; exact arithmetic", "why_tests_cant": "Runs of unbounded length, all systems and observers.", "anchors": ["include/boost/numeric/odeint/integrate/integrate.hpp:42-75", "include/boost/numeric/odeint/stepper/generation/make_controlled.hpp:70-96", "include/boost/numeric/odeint/stepper/generation/generation_controlled_runge_kutta.hpp:42-53", "include/boost/numeric/odeint/stepper/controlled_runge_kutta.hpp:583-784"]}
{"id": "C113", "title": "integrate() solves polynomial quadratures exactly, whatever step widths the controller chooses", "statement": "If x_i' = q_i(t) with polynomials q_i of degree at most 4 (order of the method minus one for make_controlled with another error stepper), every state shown to the observer of integrate() and the returned state lie exactly on the solution through the initial state.", "quantifier": "every family of polynomials, number of components, interval, direction, initial step, observer; exact arithmetic", "why_tests_cant": "The step sequence depends on the controller; tests cannot cover all of them.", "anchors": ["include/boost/numeric/odeint/integrate/integrate.hpp:42-60", "include/boost/numeric/odeint/stepper/runge_kutta_dopri5.hpp:90-200"]}
{"id": "C114", "title": "Runs of a Runge-Kutta stepper depend continuously on the initial state", "statement": "Two runs of integrate_const or integrate_n_steps with the same explicit Runge-Kutta stepper, started from states that differ by at most D in every component, make observations at the same times, and what they observe at time t differs by at most exp(c|t-t0|)*D, where c depends only on the coefficients of the method, on the Lipschitz constant of the system and on an upper bound of the step width; whatever earlier use left behind in the steppers.", "quantifier": "every explicit Runge-Kutta stepper, Lipschitz system, number of components, interval, direction, step width, pair of initial states; exact arithmetic", "why_tests_cant": "All pairs of initial states and run lengths.", "anchors": ["include/boost/numeric/odeint/integrate/detail/integrate_const.hpp:30-60", "include/boost/numeric/odeint/integrate/detail/integrate_n_steps.hpp", "include/boost/numeric/odeint/stepper/detail/generic_rk_algorithm.hpp"]}
{"id": "C115", "title": "The integrate functions converge to the solution of the differential equation", "statement": "For every explicit Runge-Kutta stepper, every Lipschitz system and every solution y with Lipschitz derivative, each state the observer of integrate_const, integrate_adaptive (plain stepper) or integrate_adaptive with make_controlled(abs,rel,max_dt,stepper) sees at a time t lies within exp(c|t-t0|)*(D + C*h*|t-t0|) of y(t), with D the initial error and h the largest step; hence within any e > 0 for small enough step width (or max_dt), whatever the tolerances and rejections are.", "quantifier": "every explicit Runge-Kutta stepper, Lipschitz system, solution, interval, direction, step width, tolerance, observer (also throwing); exact arithmetic", "why_tests_cant": "A limit statement over all systems and step widths; tests check finitely many.", "anchors": ["include/boost/numeric/odeint/integrate/detail/integrate_const.hpp:30-60", "include/boost/numeric/odeint/integrate/detail/integrate_adaptive.hpp:40-120", "include/boost/numeric/odeint/stepper/controlled_runge_kutta.hpp", "include/boost/numeric/odeint/stepper/detail/generic_rk_algorithm.hpp"]}
{"id": "C116", "title": "The integrate functions converge with the order of the method", "statement": "If a single step of width h from a point of the solution misses it by at most E*|h|^(p+1), then every state the observer of integrate_const, integrate_adaptive (plain or make_controlled with max_dt) sees at time t lies within exp(c|t-t0|)*(D + E*h^p*|t-t0|) of the solution, h the largest step. On linear systems x' = A x the hypothesis holds with p = order() for every explicit Runge-Kutta stepper, with a constant that depends only on the method, the size of A and of the solution.", "quantifier": "every explicit Runge-Kutta stepper, Lipschitz (linear) system in any number of components, interval, direction, step width, tolerance, rejections; exact arithmetic", "why_tests_cant": "The order is a statement about a limit; a test sees a finite set of step widths of one system.", "anchors": ["include/boost/numeric/odeint/integrate/detail/integrate_const.hpp:30-60", "include/boost/numeric/odeint/integrate/detail/integrate_adaptive.hpp:40-120", "include/boost/numeric/odeint/stepper/controlled_runge_kutta.hpp", "include/boost/numeric/odeint/stepper/detail/generic_rk_algorithm.hpp"]}
{"id": "C117", "title": "With matrix states a step within the tolerance is accepted", "statement": "controlled_runge_kutta on boost::numeric::ublas::matrix states accepts an attempt (within max_dt) exactly if every element of the error estimate is within abs + rel*(a_x|x|+a_dxdt|dt||x'|), as for all other containers.", "quantifier": "every matrix size, error stepper, system, tolerance, step; exact arithmetic", "why_tests_cant": "A test with a matrix state sees only that the result is accurate; a norm that is too large is accurate as well.", "anchors": ["include/boost/numeric/odeint/util/ublas_wrapper.hpp: vector_space_norm_inf", "include/boost/numeric/odeint/algebra/vector_space_algebra.hpp: norm_inf", "include/boost/numeric/odeint/algebra/algebra_dispatcher.hpp:77-81", "include/boost/numeric/odeint/stepper/controlled_runge_kutta.hpp: default_error_checker::error, try_step"]}
{"id": "C118", "title": "make_controlled without max_dt imposes no limit on the step", "statement": "A controller obtained from make_controlled(abs,rel,stepper), or with max_dt = 0, accepts an attempt of any length whose error estimate is within the tolerance.", "quantifier": "every stepper with a controller, system, tolerance, state, step", "why_tests_cant": "Tests use steps well below 1.", "anchors": ["include/boost/numeric/odeint/stepper/generation/make_controlled.hpp:70-96", "include/boost/numeric/odeint/stepper/generation/generation_controlled_adams_bashforth_moulton.hpp:43-53", "include/boost/numeric/odeint/stepper/detail/pid_step_adjuster.hpp:129-178", "include/boost/numeric/odeint/stepper/controlled_runge_kutta.hpp:104-170"]}
{"id": "C119", "title": "make_controlled controls the stepper it is given", "statement": "The first step of make_controlled(abs,rel,stepper) is the step of the given stepper, with the history and order it has at that moment.", "quantifier": "every stepper with a controller, history, system, state, step", "why_tests_cant": "Tests pass default constructed steppers.", "anchors": ["include/boost/numeric/odeint/stepper/generation/make_controlled.hpp:70-96", "include/boost/numeric/odeint/stepper/generation/generation_controlled_adams_bashforth_moulton.hpp:43-53", "include/boost/numeric/odeint/stepper/controlled_adams_bashforth_moulton.hpp:157-161"]}
{"id": "C120", "title": "On smooth nonlinear systems every explicit Runge-Kutta stepper converges with the order it reports", "statement": "For euler, runge_kutta4, runge_kutta4_classic, the Cash-Karp and Dormand-Prince 5 steppers and runge_kutta_fehlberg78, on any system x' = f(x,t) whose derivatives up to order() are bounded along the solution, one step of width h from a point of the solution ends within E |h|^(order()+1) of it, E depending only on the method, the bound and the largest step. Runs of integrate_const and integrate_adaptive (and controlled runs with a bounded step) stay within a constant times (step)^order() of the solution, and the error estimate of the error steppers is at most a constant times |h|^(error_order()+1).", "quantifier": "all steppers, all state dimensions, all systems with bounded derivatives (nonlinear, time dependent), all solutions, all step widths up to a bound, both time directions", "why_tests_cant": "A test observes an order on one equation at a few step widths; the statement is about every smooth system and rests on the conditions of all rooted trees up to the order.", "anchors": ["include/boost/numeric/odeint/stepper/euler.hpp", "include/boost/numeric/odeint/stepper/runge_kutta4.hpp", "include/boost/numeric/odeint/stepper/runge_kutta_cash_karp54.hpp", "include/boost/numeric/odeint/stepper/runge_kutta_dopri5.hpp", "include/boost/numeric/odeint/stepper/runge_kutta_fehlberg78.hpp", "include/boost/numeric/odeint/stepper/detail/generic_rk_algorithm.hpp", "include/boost/numeric/odeint/integrate/detail/integrate_const.hpp:30-60", "include/boost/numeric/odeint/integrate/detail/integrate_adaptive.hpp:40-120"]}
{"id": "C121", "title": "Dense output of dopri5 is as accurate between the steps as at the steps, up to order four", "statement": "On every smooth system, after any number of steps of dense_output_runge_kutta< controlled_runge_kutta< runge_kutta_dopri5 > > calc_state(t) for t anywhere in the last step is within C h^5 of the solution (plus the propagated initial error), h the longest step made; with max_dt set the bound is known in advance (h = max_dt). All observations of integrate_adaptive, integrate_n_steps and integrate_times with this stepper meet the bound, whether they are taken at the end of a step or interpolated.", "quantifier": "all state dimensions, all systems with bounded derivatives, tolerances, numbers of steps, observation times; both time directions for integrate_adaptive and integrate_times, positive dt for integrate_n_steps", "why_tests_cant": "Tests compare the interpolant with the exact solution of one equation at a few points.", "anchors": ["include/boost/numeric/odeint/stepper/runge_kutta_dopri5.hpp:227-275", "include/boost/numeric/odeint/stepper/dense_output_runge_kutta.hpp:300-365", "include/boost/numeric/odeint/integrate/detail/integrate_times.hpp:122-170", "include/boost/numeric/odeint/integrate/detail/integrate_adaptive.hpp:130-180", "include/boost/numeric/odeint/integrate/detail/integrate_n_steps.hpp:97-157"]}
{"id": "C122", "title": "The extrapolation steppers integrate polynomials in time exactly", "statement": "For x' = p(t): extrapolation_stepper<Order> is exact for degree <= Order-1 and its error estimate is zero for degree <= Order-3; every accepted step of bulirsch_stoer is exact for degree <= 3, and for degree <= 1 the first attempt is accepted whatever the step size; after any number of steps of bulirsch_stoer_dense_out from initialize(x,t,dt) the current state is exact for degree <= 3 and calc_state(u) is exact for degree <= 2 at every time u (for degree <= 2k when the last step stopped in column k), whatever the controller rejected or changed in between.", "quantifier": "all orders, dimensions, polynomials, tolerances, histories of the object, step sizes, numbers of steps, times of the interpolation; exact arithmetic", "why_tests_cant": "Tests compare with a tolerance above the error an index or factor wrong by one in the difference tables makes.", "anchors": ["include/boost/numeric/odeint/stepper/extrapolation_stepper.hpp:139-187", "include/boost/numeric/odeint/stepper/bulirsch_stoer.hpp:194-333", "include/boost/numeric/odeint/stepper/bulirsch_stoer_dense_out.hpp:159-596", "include/boost/numeric/odeint/stepper/modified_midpoint.hpp:75-264"]}
{"id": "C123", "title": "Dense output of bulirsch_stoer_dense_out meets the ends of the step", "statement": "After do_step of bulirsch_stoer_dense_out calc_state(current_time()) returns current_state() and calc_state(previous_time()) returns previous_state().", "quantifier": "every system, tolerance, history, step", "why_tests_cant": "Tests compare the interpolated state with the solution up to a tolerance, not with the stored states.", "anchors": ["include/boost/numeric/odeint/stepper/bulirsch_stoer_dense_out.hpp:347-378,427-596"]}
{"id": "C124", "title": "Every step of a stepper built by make_dense_output meets the tolerances and the maximal step given to it", "statement": "After any number of do_step calls of make_dense_output(abs,rel[,max_dt],runge_kutta_dopri5) the last step is a Dormand-Prince step from previous_state() whose embedded error estimate is at most abs + rel (|x_i| + |h| |f_i|) in every component, it has the direction of dt and is no longer than max_dt plus epsilon; integrate_adaptive with that stepper shows states joined by such steps, up to the end time. For rosenbrock4 every do_step that returns has made a step of the method with the root mean square of the scaled error estimate at most 1, the direction of dt and length at most max_dt plus epsilon.", "quantifier": "all systems, dimensions, tolerances, limits in the direction of integration, numbers of steps and rejected attempts; exact arithmetic", "why_tests_cant": "Tests use the factory with one tolerance and compare the final state; the tolerance or limit not reaching the controller, or arriving in the other order, would pass them.", "anchors": ["include/boost/numeric/odeint/stepper/generation/make_dense_output.hpp:31-92", "include/boost/numeric/odeint/stepper/generation/generation_dense_output_runge_kutta.hpp:41-53", "include/boost/numeric/odeint/stepper/generation/generation_rosenbrock4.hpp:60-69", "include/boost/numeric/odeint/stepper/dense_output_runge_kutta.hpp:305-346", "include/boost/numeric/odeint/stepper/rosenbrock4_dense_output.hpp:57-92"]}
{"id": "C125", "title": "velocity_verlet converges with second order, with first order when the force depends on the velocity", "statement": "Whatever sequence of steps (any widths up to hm, one direction), resets, resizes and initializations is made with a velocity_verlet object on x'' = f(x,x',t), f Lipschitz and the solution with bounded derivatives up to the fourth: coordinate and velocity stay within exp(G a) (D + (Lv M hm + C hm^2) a) of the solution at distance a from the start, D the initial error and Lv the Lipschitz constant of f in the velocity; G and C depend only on the Lipschitz constants, the bound on the derivatives and the largest step allowed. So the error is O(hm^2) if the force does not depend on the velocity. The same for all observations of integrate_const and integrate_n_steps. With a force depending on the velocity second order is not reached.", "quantifier": "all state dimensions, Lipschitz forces (nonlinear, time dependent), smooth solutions, call sequences, step widths, both time directions", "why_tests_cant": "Tests run the stepper on one system with one step width; the accuracy rests on the cached acceleration belonging to the current point after every call sequence.", "anchors": ["include/boost/numeric/odeint/stepper/velocity_verlet.hpp:105-226", "include/boost/numeric/odeint/integrate/detail/integrate_const.hpp:30-60", "include/boost/numeric/odeint/integrate/detail/integrate_n_steps.hpp:30-60"]}
{"id": "C126", "title": "adams_bashforth and adams_bashforth_moulton converge with order k on nonlinear systems", "statement": "For adams_bashforth<k> and adams_bashforth_moulton<k>, k = 1..8, with a fresh or reset history and an explicit Runge-Kutta stepper as initializing stepper: on any Lipschitz system x' = f(x,t) with a solution whose derivative k+1 is bounded, all observed states of integrate_const and integrate_n_steps are within exp(G a)(D + (k-1) E |dt|^(p+1) + C |dt|^k a) of the solution at distance a from the start, D the initial error, p the order of the initializing stepper; with bounded derivatives and p >= k-1 the error is O(|dt|^k) with a constant that does not depend on dt.", "quantifier": "all k from 1 to 8, initializing Runge-Kutta steppers, dimensions, Lipschitz systems, smooth solutions, step widths up to a bound, numbers of steps, both time directions, contents of the ring buffer before the run", "why_tests_cant": "Tests run one equation with one step width; a coefficient or history slot that is off shows only as a lower order.", "anchors": ["include/boost/numeric/odeint/stepper/adams_bashforth.hpp:90-330", "include/boost/numeric/odeint/stepper/adams_bashforth_moulton.hpp:45-230", "include/boost/numeric/odeint/stepper/detail/adams_bashforth_call_algebra.hpp", "include/boost/numeric/odeint/stepper/detail/adams_bashforth_coefficients.hpp", "include/boost/numeric/odeint/stepper/detail/adams_moulton_coefficients.hpp", "include/boost/numeric/odeint/stepper/detail/rotating_buffer.hpp", "include/boost/numeric/odeint/integrate/detail/integrate_const.hpp:30-60"]}
{"id": "C127", "title": "The modified midpoint and extrapolation steppers converge with their order on smooth nonlinear systems", "statement": "One step of modified_midpoint with any number of sub-steps, in place or into a second state, misses the exact solution by at most E |dt|^3; a step of extrapolation_stepper< Order > into a second state, or with the derivative given, by at most E |dt|^(Order+1), and its error estimate is at most E |dt|^(Order-1).  All observations of integrate_const and integrate_adaptive with modified_midpoint are within exp(G a)(d + E |dt|^2 a) of the solution, a the time covered, d the error of the initial state.  E depends on the method, on the bound of the derivatives and on the largest step width only.", "quantifier": "All numbers of sub-steps, all even orders, all dimensions, all systems with bounded derivatives along the solution, all step widths up to any bound, both time directions, all contents of the buffers", "why_tests_cant": "Tests measure the order on one or two systems and a few widths; that the error of the smoothed midpoint rule has an expansion in even powers, on which every extrapolation column rests, is a statement about all rooted trees", "anchors": ["include/boost/numeric/odeint/stepper/modified_midpoint.hpp:79-117", "include/boost/numeric/odeint/stepper/extrapolation_stepper.hpp:112-260", "include/boost/numeric/odeint/integrate/detail/integrate_const.hpp:40-70"]}
{"id": "C128", "title": "bulirsch_stoer converges at least with order four whatever orders and step widths it chooses", "statement": "An accepted try_step of any bulirsch_stoer object in use misses the exact solution by at most E |dt|^5, and every observation of integrate_adaptive is within exp(G a)(d + E hm^4 a) of the solution, a the time covered, d the error of the initial state and hm the largest distance of consecutive observations; also when the run ends with an exception.", "quantifier": "All reachable objects, all tolerances, all sequences of orders and of rejected attempts, all dimensions, all systems with bounded derivatives, both time directions, all observers", "why_tests_cant": "The controller changes the order from step to step; tests see a few of these sequences and compare with a tolerance instead of the step width", "anchors": ["include/boost/numeric/odeint/stepper/bulirsch_stoer.hpp:140-330", "include/boost/numeric/odeint/integrate/detail/integrate_adaptive.hpp:60-110"]}
{"id": "C129", "title": "Any sequence of calls of a runge_kutta_dopri5 object gives, call by call, what new objects give", "statement": "For every sequence of do_step overloads (with and without error estimate, in place or not, with and without derivative), reset, adjust_size and initialize in which each do_step without derivative continues at the point where the previous one ended, follows a reset or initialization, or uses a state of another size: every call returns the state, error and derivative that a new stepper would return for it, and nothing is written behind the end of m_dxdt.", "quantifier": "all number types, systems, step widths, states of any sizes, call sequences of any length, contents of the object's memory at the start", "why_tests_cant": "The cached derivative makes the result depend on the whole call history; tests make at most two or three calls in one fixed order.", "anchors": ["include/boost/numeric/odeint/stepper/base/explicit_error_stepper_fsal_base.hpp:121-355", "include/boost/numeric/odeint/stepper/runge_kutta_dopri5.hpp:90-199", "include/boost/numeric/odeint/util/resizer.hpp:48-86"]}
{"id": "C130", "title": "initialize of adaptive_adams_bashforth_moulton builds a consistent history and the next step has full order", "statement": "initialize(system,inOut,t,dt) of an object in use succeeds, advances time by dt, and leaves a history of the full length at times spaced dt/Steps, latest first, whose first entry is the derivative at the new state; it integrates right-hand sides of degree at most one in t exactly, and the following do_step of any width integrates right-hand sides of degree up to the number of steps exactly, with zero error estimate one degree below.", "quantifier": "all orders, dimensions, step widths, reachable objects, polynomial right-hand sides for the exactness part and arbitrary systems for the history part", "why_tests_cant": "Tests call initialize once with one order; a wrong sub-step width leaves plausible numbers and only lowers the order.", "anchors": ["include/boost/numeric/odeint/stepper/adaptive_adams_bashforth_moulton.hpp:100-232", "include/boost/numeric/odeint/stepper/detail/adaptive_adams_coefficients.hpp:40-204"]}
{"id": "C131", "title": "adams_bashforth with its default initializing stepper converges with order k", "statement": "adams_bashforth<k>, k = 1..8, with the extrapolation_stepper it starts with by default: on Lipschitz systems with a smooth solution, the states after any number of out-of-place steps of a fresh or reset object, and all observations of integrate_const and integrate_n_steps after initialize(system,x,t,dt), are within exp(C a) (C |dt|^(k+1) + C a |dt|^k) of the solution at distance a from the start; C does not depend on dt.", "quantifier": "all k from 1 to 8, dimensions, systems with bounded derivatives, smooth solutions, step widths up to a bound, numbers of steps, both time directions, all contents of the buffers", "why_tests_cant": "Tests use one equation and one step width; the order of the initializing stepper, chosen at compile time from k, must be even and high enough for every k.", "anchors": ["include/boost/numeric/odeint/stepper/adams_bashforth.hpp:40-330", "include/boost/numeric/odeint/stepper/extrapolation_stepper.hpp:112-260", "include/boost/numeric/odeint/stepper/detail/rotating_buffer.hpp"]}
{"id": "C132", "title": "The const-step and n-step iterators of dense output steppers visit exactly the grid points and never extrapolate", "statement": "A traversal of an n-step time iterator of a dense output stepper visits the n+1 points t0 + k dt; that of a const-step time iterator exactly the points t0 + k dt up to the end time (within epsilon). The first shows the state given, every other the state calc_state writes for its time after at least one step, and that time lies in the interval of the last step made (within epsilon). No step starts at or after the last grid point or the end time.", "quantifier": "all dense output steppers that advance by at most current_time_step in its direction, all t0, t_end, dt larger than epsilon, both directions, all n", "why_tests_cant": "Which step interval a grid point falls into depends on the sequence of step widths; tests see a few.", "anchors": ["include/boost/numeric/odeint/iterator/impl/const_step_iterator_impl.hpp:120-215", "include/boost/numeric/odeint/iterator/impl/n_step_iterator_impl.hpp:130-225", "include/boost/numeric/odeint/iterator/detail/ode_iterator_base.hpp:52-190"]}
{"id": "C133", "title": "adjust_size does not change what the following steps of an FSAL stepper give", "statement": "Calling adjust_size(x) of runge_kutta_dopri5, the documented way to prepare the stepper for another state size, between two do_step calls does not change what the second one returns.", "quantifier": "all call sequences, state sizes, systems", "why_tests_cant": "Tests never call adjust_size on a stepper that has already stepped.", "anchors": ["include/boost/numeric/odeint/stepper/base/explicit_error_stepper_fsal_base.hpp:275-279", "include/boost/numeric/odeint/stepper/base/explicit_error_stepper_fsal_base.hpp:310-328", "include/boost/numeric/odeint/stepper/runge_kutta_dopri5.hpp:273-278"]}
{"id": "C134", "title": "The symplectic steppers converge with their order on nonlinear separable systems", "statement": "For q' = f(p), p' = g(q) (also with f the identity, given as a single force): one step of symplectic_euler misses a smooth solution by at most E h^2, one of symplectic_rkn_sb3a_m4_mclachlan by at most E h^5; symplectic_rkn_sb3a_mclachlan, whose constants are 20-digit decimals, by at most E h^3 and by at most E h^5 plus 10^-20 (2 (M h)^3 + 5 (M h)^4). The observed points of runs of integrate_const, integrate_n_steps and integrate_adaptive converge to the solution with order 1, 4, and 2 (4 up to 10^-20). E does not depend on the system, the solution or the step width.", "quantifier": "all dimensions, separable systems with bounded derivatives, smooth solutions, step widths up to a bound, numbers of steps, both time directions, starting errors, buffer contents", "why_tests_cant": "Tests use the harmonic oscillator, where half of the order conditions are not visible, with one step width.", "anchors": ["include/boost/numeric/odeint/stepper/base/symplectic_rkn_stepper_base.hpp:101-390", "include/boost/numeric/odeint/stepper/symplectic_euler.hpp:39-56", "include/boost/numeric/odeint/stepper/symplectic_rkn_sb3a_m4_mclachlan.hpp:46-73", "include/boost/numeric/odeint/stepper/symplectic_rkn_sb3a_mclachlan.hpp:50-77"]}
{"id": "C135", "title": "bulirsch_stoer_dense_out converges with at least order four on smooth nonlinear systems", "statement": "A do_step of bulirsch_stoer_dense_out from a point on a smooth solution, with whatever step width and extrapolation order its control picks, misses the solution by at most E h^5, h the width it made. After initialize and any number of do_step calls, all in one direction and at most hm wide, every current_state is within exp(G a)(d + E hm^4 a) of the solution at distance a from the start, d the error at the start. E and G do not depend on the system, the solution, the tolerances or the step widths.", "quantifier": "all dimensions, systems with bounded derivatives up to order four, smooth solutions, tolerances, max_dt, both settings of control_interpolation, reachable stepper objects, numbers of steps, both time directions", "why_tests_cant": "The order and width of every step are chosen at run time; tests see one equation and cannot see that the derivative carried from step to step stays that of the current state.", "anchors": ["include/boost/numeric/odeint/stepper/bulirsch_stoer_dense_out.hpp:77-470", "include/boost/numeric/odeint/stepper/modified_midpoint.hpp:120-250"]}
{"id": "C136", "title": "rosenbrock4 converges with order four on autonomous nonlinear systems", "statement": "For x' = F(x), given with its Jacobian and a zero time derivative: a step do_step(system,x,t,dt) of rosenbrock4 from a point on a smooth solution misses it by at most E h^5 + 10^-15 (M h + (M h)^2 + 2 (M h)^3 + 5 (M h)^4), M the bound of the derivatives of F; the second term comes from the coefficients being 16-digit decimals. The linear systems are then never singular while M h <= 2. The observed points of runs of integrate_const, integrate_n_steps and integrate_adaptive with a fixed step are within exp(G a)(d + (E dt^4 + 10^-15 (M + ...)) a) of the solution at distance a from the start, d the error at the start. E and G do not depend on the system, the solution or the step width.", "quantifier": "all dimensions, autonomous systems with bounded derivatives, smooth solutions, step widths up to 2/M, numbers of steps, both time directions, starting errors, contents of the member buffers", "why_tests_cant": "Tests compare one step of one equation with a stored result; the order conditions hold only approximately for the decimal coefficients, and a wrong digit changes the result in the last places tests do not look at.", "anchors": ["include/boost/numeric/odeint/stepper/rosenbrock4.hpp:38-110", "include/boost/numeric/odeint/stepper/rosenbrock4.hpp:168-262"]}
{"id": "C137", "title": "implicit_euler converges with order one for short steps, without a second Newton iteration", "statement": "For a system with n components, Lipschitz with constant L, with Jacobian matrices bounded by M (not necessarily the true derivative): as long as M h <= 1/2 and 2 sqrt(n) h (B + L (err + B h)) <= epsilon, do_step returns after the first Newton step (no exit, no loop), and after k steps the state is within exp(G a)(d + E h a) of the solution, a = k h, d the error at the start, G = L + 2 M L H, E = L B + 2 M B (1 + L H) + K; B and K bound the first and second derivative of the solution.", "quantifier": "all dimensions, time-dependent nonlinear systems with these bounds, step widths, numbers of steps, both time directions, starting errors, epsilon, machine epsilons of comparisons", "why_tests_cant": "Tests compare one step of one system with numbers; whether the Newton loop is entered depends on the step width, the accuracy and the error accumulated so far.", "anchors": ["include/boost/numeric/odeint/stepper/implicit_euler.hpp:72-120", "include/boost/numeric/odeint/stepper/implicit_euler.hpp:144-149"]}
{"id": "C138", "title": "A controlled stepper on a state distributed over MPI ranks makes the steps of the serial run", "statement": "controlled_runge_kutta around an explicit error stepper or the FSAL stepper runge_kutta_dopri5, used with mpi_state on all ranks of MPI_COMM_WORLD: if the system function computes on every rank that rank's part of the derivative, then for every sequence of try_step calls whose step widths the caller derives from earlier outcomes, the run does not block, all ranks get the same (t, dt, success) at every call, equal to those of the same calls on the whole container in one process, and each rank is left with its part of the serial result; whatever the order in which MPI combines the maxima.", "quantifier": "every number of ranks, distribution of the components (empty parts included), system, tolerances, step limit, number of calls, reduction order; also for doubles with NaN and infinities", "why_tests_cant": "Ranks that disagree about one decision block or diverge silently; tests run with one or two ranks and one state.", "anchors": ["include/boost/numeric/odeint/external/mpi/mpi_nested_algebra.hpp:31-54", "include/boost/numeric/odeint/external/mpi/mpi_state.hpp:36-95", "include/boost/numeric/odeint/stepper/controlled_runge_kutta.hpp:79-94", "include/boost/numeric/odeint/stepper/controlled_runge_kutta.hpp:411-440"]}
{"id": "C139", "title": "Integrations on disjoint MPI communicators do not influence each other", "statement": "If mpi_states are constructed on communicators that are parts of MPI_COMM_WORLD and the system functions use only their own communicator, the steps of a controlled stepper in one group of ranks depend only on the data of that group.", "quantifier": "all groups, systems, states", "why_tests_cant": "The tests use the default communicator.", "anchors": ["include/boost/numeric/odeint/external/mpi/mpi_state.hpp:46-50", "include/boost/numeric/odeint/external/mpi/mpi_state.hpp:74-82", "include/boost/numeric/odeint/external/mpi/mpi_nested_algebra.hpp:45-53", "include/boost/numeric/odeint/util/state_wrapper.hpp:35-41"]}
{"id": "C140", "title": "Explicit steppers on a state distributed over MPI ranks make the steps of the serial run", "statement": "For every list of do_step(sys,x,t,dt) calls on an mpi_state with an explicit Runge-Kutta stepper, when the system function computes on every rank that rank's part of the derivative: the run does not block, and each rank goes through its parts of the states that the same calls on the whole container in one process produce.", "quantifier": "every number of ranks, distribution of the components (empty parts included), system, Runge-Kutta method of the library, list of calls, contents of the stepper's buffers, number type (no algebraic laws needed)", "why_tests_cant": "Tests run one or two ranks and few steps; one rank that evaluates the system once more or less than the others blocks.", "anchors": ["include/boost/numeric/odeint/external/mpi/mpi_nested_algebra.hpp:31-54", "include/boost/numeric/odeint/stepper/base/explicit_stepper_base.hpp:225-231", "include/boost/numeric/odeint/stepper/base/explicit_error_stepper_base.hpp:289-304"]}
{"id": "C141", "title": "integrate_adaptive on a state distributed over MPI ranks observes the serial run", "statement": "integrate_adaptive with a controlled_runge_kutta (around an explicit error stepper or runge_kutta_dopri5) on an mpi_state, on all ranks of MPI_COMM_WORLD: the run does not block; the observer on each rank is called at the times of the serial run with that rank's part of its states; all ranks end with the same exception, or with the serial number of steps, end time and step width and their part of the final state.", "quantifier": "every number of ranks, distribution, system, tolerances, step limit, start and end time, step width, reduction order; also for doubles with NaN and infinities", "why_tests_cant": "Each rank decides by itself when to stop, to retry and to throw; tests run one or two ranks on one problem and never reach the exception.", "anchors": ["include/boost/numeric/odeint/integrate/detail/integrate_adaptive.hpp:80-113", "include/boost/numeric/odeint/external/mpi/mpi_nested_algebra.hpp:31-54", "include/boost/numeric/odeint/stepper/controlled_runge_kutta.hpp:280-440", "include/boost/numeric/odeint/stepper/controlled_runge_kutta.hpp:616-760"]}

{"id": "C01", "title": "Thread subdomains partition the grid", "statement": "When a simulation is run on k threads, every grid cell along the decomposed dimension is owned by exactly one thread, the owned ranges are contiguous and in thread order, sizes of any two ranges differ by at most one, and every thread owns at least one cell exactly when k does not exceed the number of cells.", "quantifier": "all grid lengths, all first indices, all thread counts, all ranks", "why_tests_cant": "Tests exercise a handful of (grid, threads) pairs; a rounding slip shows only for particular remainders.", "anchors": ["libmpdata++/formulae/domain_decomposition.hpp: domain_decomposition::min,max,slab", "libmpdata++/concurr/detail/sharedmem.hpp: slab"]}
{"id": "C02", "title": "Subdomain arithmetic in machine integers", "statement": "The subdomain computed with 32-bit signed integers equals the mathematical one whenever (number of threads) * (grid length) is representable; outside that range the product overflows and the property fails.", "quantifier": "all grid lengths and thread counts representable as int", "why_tests_cant": "Overflow needs grids/thread products above 2^31 which no unit test allocates.", "anchors": ["libmpdata++/formulae/domain_decomposition.hpp: min"]}
{"id": "C03", "title": "advectee() returns the newest state", "statement": "After any sequence of advance() calls, for any number of equations, any number of corrective iterations, any upwind-filter frequency and any valid choice of delayed equations, advectee(e) refers to the buffer that the most recent time step wrote for equation e, and all threads agree on it.", "quantifier": "all histories of advance calls, all n_eqns, n_iters, delayed_step masks that only name existing equations", "why_tests_cant": "Buffer parity depends on the whole history (iterations * steps * filter breaks); tests sample short runs with default options.", "anchors": ["libmpdata++/solvers/detail/solver_common.hpp: cycle, is_last_eqn, solve, state", "libmpdata++/concurr/detail/sharedmem.hpp: cycle, advectee", "libmpdata++/blitz.hpp: arrvec_t::operator[]"]}
{"id": "C04", "title": "advectee() with a delayed_step mask naming a non-existing equation", "statement": "If delayed_step has a bit set at or above n_eqns, advectee() must either still return the newest state or the configuration must be rejected. (Fails: the shared time index never moves, so advectee() returns a stale buffer after an odd number of buffer flips.)", "quantifier": "all masks with a stray bit", "why_tests_cant": "No test uses such a mask; the failure is silent.", "anchors": ["libmpdata++/solvers/detail/solver_common.hpp: is_last_eqn, cycle", "libmpdata++/opts.hpp: most_significant"]}
{"id": "C05", "title": "advance(n) performs exactly n steps and is additive", "statement": "With a fixed time step, advance(n) for n>=0 performs exactly n time steps, a negative n performs none, the time reported afterwards is timestep*dt, and advance(a);advance(b) leaves the solver in the same state as advance(a+b) for a>=1.", "quantifier": "all histories of advance calls and all n, for an arbitrary step function", "why_tests_cant": "Additivity is a statement about all splits of a run.", "anchors": ["libmpdata++/solvers/detail/solver_common.hpp: solve"]}
{"id": "C06", "title": "Hook discipline", "statement": "Along any history the sequence of user hooks is: hook_ante_loop before the first step only, then per step hook_ante_step, all non-delayed equations in increasing order, hook_ante_delayed_step, all delayed equations in increasing order, hook_post_step; every equation is advected exactly once per step. hook_ante_loop is repeated when the first advance() call asks for zero steps.", "quantifier": "all histories of advance calls, all delayed_step masks, all n_eqns", "why_tests_cant": "Universally quantified over histories and masks.", "anchors": ["libmpdata++/solvers/detail/solver_common.hpp: solve, solve_loop_body"]}
{"id": "C07", "title": "panic stops before the next step", "statement": "Once the panic flag is raised, no further time step is performed by the running or any later advance() call, and the state is the one produced by an integer number of complete steps.", "quantifier": "all histories and all moments at which the flag is observed set at the loop head", "why_tests_cant": "Depends on when a signal arrives.", "anchors": ["libmpdata++/solvers/detail/solver_common.hpp: solve", "libmpdata++/concurr/detail/sharedmem.hpp: panic"]}
{"id": "C08", "title": "Adaptive time step: advance(t) reaches the target", "statement": "With an adaptive time step, advance(T) (T measured from the current time) returns only with elapsed time at least T; it always performs at least out_intrp_ord steps even if T<=0; if every step length is at least d>0 the loop terminates within ceil(T/d)+out_intrp_ord steps.", "quantifier": "all targets, all sequences of step lengths", "why_tests_cant": "Quantifies over all velocity histories that drive the step length.", "anchors": ["libmpdata++/solvers/detail/solver_common.hpp: solve"]}
{"id": "C09", "title": "Adaptive time step: Courant number is rescaled to the requested maximum", "statement": "For a stationary advector with non-zero Courant number, after the adaptive adjustment made before the first step the largest Courant number of the interior equals max_courant, the ratio advector/dt is unchanged, and nothing changes when the Courant number is zero. In 1D this fails with a non-unit G factor, which the 1D Courant number leaves out.", "quantifier": "all advector fields, grid sizes, dimensions, thread counts, dt>0, max_courant>0", "why_tests_cant": "Quantifies over all real-valued fields.", "anchors": ["libmpdata++/solvers/detail/solver_common.hpp: hook_ante_loop", "libmpdata++/solvers/detail/solver_1d.hpp: courant_number, scale_gc", "libmpdata++/solvers/detail/solver_2d.hpp: courant_number, scale_gc", "libmpdata++/solvers/detail/solver_3d.hpp: courant_number, scale_gc"]}
{"id": "C10", "title": "hint_scale is transparent", "statement": "Setting hint_scale(e)=k changes only the scaling during advection: after every step the user-visible field equals the one obtained with k=0 (in exact arithmetic, for every option set that is homogeneous in the advected field).", "quantifier": "all exponents in the representable range, all fields, all histories", "why_tests_cant": "Quantifies over all fields and exponents.", "anchors": ["libmpdata++/solvers/detail/solver_common.hpp: scale, solve_loop_body"]}
{"id": "C11", "title": "Corrective iterations never read the buffer they write", "statement": "In corrective iteration k the antidiffusive velocities are computed from the velocities of iteration k-1 and written to different storage, for every number of iterations; with n_iters<=2 a single temporary suffices.", "quantifier": "all n_iters >= 1, all iterations", "why_tests_cant": "Parity argument over all iteration counts.", "anchors": ["libmpdata++/solvers/detail/mpdata_common.hpp: GC_unco, GC_corr, n_tmp"]}
{"id": "C12", "title": "Thread barrier correctness", "statement": "For any number of threads and every schedule (including spurious wake-ups) no thread returns from its g-th barrier call before all threads have entered theirs, and the barrier never deadlocks as long as every thread keeps calling it, provided fewer than 2^32 barrier generations are used.", "quantifier": "all schedules, all party counts, all numbers of barrier rounds below 2^32", "why_tests_cant": "Interleavings cannot be enumerated by running.", "anchors": ["libmpdata++/concurr/cxx11_thread.hpp: barrier::wait"]}
{"id": "C13", "title": "Thread barrier after 2^32 generations", "statement": "The same guarantee holds for arbitrarily long runs. (Fails: the generation is read into a 32-bit variable but compared with a 64-bit counter, so from generation 2^32 on waiting threads fall through immediately.)", "quantifier": "all schedules with at least 2^32 completed barrier rounds", "why_tests_cant": "Requires billions of barrier rounds.", "anchors": ["libmpdata++/concurr/cxx11_thread.hpp: barrier::wait, m_generation"]}
{"id": "C14", "title": "Number of barrier parties equals number of solver threads", "statement": "The number of parties the barrier waits for equals the number of solver threads created, in 1, 2 and 3 dimensions. (Fails in 3D, where the barrier is sized by the first grid dimension while the decomposition uses another one.)", "quantifier": "all grid shapes and requested thread counts", "why_tests_cant": "Only shows for grids smaller than the thread count in one dimension.", "anchors": ["libmpdata++/concurr/cxx11_thread.hpp: ctor, mem_t::size", "libmpdata++/concurr/detail/concurr_common.hpp: init"]}
{"id": "C15", "title": "Threaded run equals serial run, bit for bit", "statement": "For every thread count and every schedule allowed by the barriers, the values in every grid cell of every equation after any number of steps are identical to those of the single-threaded run, whatever the floating-point arithmetic (1D solver: upwind, iterated, FCT, all option flags modelled).", "quantifier": "all thread counts not exceeding the grid, all interleavings between barriers, all numbers of steps, iterations and equations, all initial memories, any arithmetic", "why_tests_cant": "Data races show up only under particular schedules.", "anchors": ["libmpdata++/solvers/detail/solver_1d.hpp: xchng_sclr, xchng_vctr_alng", "libmpdata++/solvers/detail/mpdata_osc_1d.hpp: advop", "libmpdata++/solvers/detail/mpdata_fct_1d.hpp: fct_init, fct_adjust_antidiff", "libmpdata++/concurr/detail/concurr_common.hpp: init"]}
{"id": "C16", "title": "No conflicting unsynchronised writes", "statement": "Between two barriers no two threads access the same array element with at least one of them writing. (Fails in 1D: neighbouring threads both write the shared face/halo temporaries; the values written are proved identical, but it is a data race in the C++ sense.)", "quantifier": "all thread counts and phases", "why_tests_cant": "Benign races are not observable by comparing results.", "anchors": ["libmpdata++/solvers/detail/mpdata_fct_1d.hpp: fct_init", "libmpdata++/solvers/detail/mpdata_osc_1d.hpp: im"]}
{"id": "C17", "title": "Threaded 2D run equals serial 2D run, bit for bit", "statement": "Same as the 1D statement for the 2D solver, whose threads own x-slabs and whose faces between slabs are computed by one thread only.", "quantifier": "all thread counts not exceeding the grid, all interleavings, all steps, any arithmetic", "why_tests_cant": "Data races show up only under particular schedules.", "anchors": ["libmpdata++/solvers/detail/mpdata_osc_2d.hpp: advop, im", "libmpdata++/solvers/detail/mpdata_fct_2d.hpp", "libmpdata++/solvers/detail/solver_2d.hpp"]}
{"id": "C18", "title": "Global sums do not depend on the number of threads", "statement": "The global sum (plain or compensated) of a field or of a product of two fields over the grid is identical for every number of threads, for any (non-associative) addition, because it is formed per slice and then over slices in fixed order; global min and max agree with the mathematical extremum for every decomposition.", "quantifier": "all fields, grid sizes, thread counts, any addition operation", "why_tests_cant": "Bitwise reproducibility must hold for all thread counts.", "anchors": ["libmpdata++/concurr/detail/sharedmem.hpp: sum, min, max", "libmpdata++/kahan_reduction.hpp"]}
{"id": "C19", "title": "All array accesses stay inside allocated arrays", "statement": "Every element read or written during a 1D time step lies inside the allocated array, for every option set, grid size, thread count and boundary condition; in particular the halo width chosen from the options is always sufficient.", "quantifier": "all option flags modelled, all grid lengths >= the stated minimum, all thread counts", "why_tests_cant": "Blitz performs no bounds checks in release builds; an out-of-bounds read of a halo usually goes unnoticed.", "anchors": ["libmpdata++/solvers/detail/solver_common.hpp: rng_vctr, rng_sclr", "libmpdata++/formulae/mpdata/formulae_mpdata_common.hpp: halo", "libmpdata++/solvers/detail/mpdata_fct_common.hpp: fct_min_halo", "libmpdata++/solvers/detail/solver_1d.hpp: alloc"]}
{"id": "C20", "title": "Result does not depend on stale halo or temporary contents", "statement": "The field after a step depends only on the interior cells of the advected fields, on the advector and on G: whatever was in halos, temporaries and old time levels before has no influence.", "quantifier": "all initial contents of halos and temporaries, all steps", "why_tests_cant": "Tests start from zero-initialised or lucky memory.", "anchors": ["libmpdata++/solvers/detail/solver_1d.hpp: xchng_sclr, xchng_vctr_alng", "libmpdata++/solvers/detail/mpdata_osc_1d.hpp: advop"]}
{"id": "C21", "title": "Cyclic boundary: halos are the periodic extension", "statement": "After a halo exchange with cyclic boundaries in 1D every halo element equals the element of the same field one period (grid length minus one) away, for scalars and for staggered vectors, and the interior is untouched; order of filling left and right does not matter.", "quantifier": "all fields, halo widths, grid lengths larger than the halo", "why_tests_cant": "Off-by-one errors in halo filling are visible only for particular widths.", "anchors": ["libmpdata++/bcond/cyclic_1d.hpp", "libmpdata++/bcond/detail/bcond_common.hpp"]}
{"id": "C22", "title": "Cyclic boundary: the duplicated edge point stays consistent", "statement": "With cyclic boundaries the first and last grid points represent the same location: if they (and the advector) agree initially they agree after every step, for every option set.", "quantifier": "all periodic initial fields, all steps, any arithmetic", "why_tests_cant": "Requires equality at every step of every run.", "anchors": ["libmpdata++/bcond/cyclic_1d.hpp", "libmpdata++/solvers/detail/mpdata_osc_1d.hpp: advop"]}
{"id": "C23", "title": "Mass conservation on a periodic domain", "statement": "In a 1D run with cyclic boundaries the sum over the domain of G*psi after any number of steps equals the initial one (exact arithmetic), for upwind, corrected and flux-limited transport and all options. (Fails for div_2nd without fct and three or more iterations, where a halo is not refreshed.)", "quantifier": "all periodic fields, advectors and G factors, grid lengths, options, steps, iterations, thread counts and interleavings", "why_tests_cant": "Quantifies over all real-valued fields.", "anchors": ["libmpdata++/formulae/donorcell_formulae.hpp: donorcell_sum, make_flux", "libmpdata++/solvers/detail/mpdata_osc_1d.hpp: advop"]}
{"id": "C24", "title": "Translation equivariance on a periodic domain", "statement": "Shifting the initial field, the advector and G by any number of cells along a cyclic domain shifts the result of every step by the same number of cells, bit for bit.", "quantifier": "all shifts, periodic fields, steps, any arithmetic", "why_tests_cant": "All shifts of all fields.", "anchors": ["libmpdata++/bcond/cyclic_1d.hpp", "libmpdata++/solvers/detail/mpdata_osc_1d.hpp: advop"]}
{"id": "C25", "title": "Left/right mirror symmetry of the scheme", "statement": "Mirroring the initial field, the G factor and the advector (with sign change) mirrors the result of a whole 1D run on a cyclic domain (exact arithmetic).", "quantifier": "all fields and advectors, options, iterations, steps, thread counts and interleavings", "why_tests_cant": "All fields.", "anchors": ["libmpdata++/formulae/donorcell_formulae.hpp", "libmpdata++/formulae/mpdata/formulae_mpdata_1d.hpp", "libmpdata++/formulae/mpdata/formulae_mpdata_fct_1d.hpp"]}
{"id": "C26", "title": "Open boundary: left and right treatment are mirror images", "statement": "The result of a 1D run with open boundaries on both sides for mirrored data is the mirrored result. (Holds for halo width 1; fails for halo width 2, where the right side copies a face that is not the outermost interior one.)", "quantifier": "all fields, advectors, options, steps, thread counts and interleavings", "why_tests_cant": "Symmetric tests use halo 1 or constant advectors.", "anchors": ["libmpdata++/bcond/open_1d.hpp: fill_halos_vctr_alng"]}
{"id": "C27", "title": "Rigid boundary: walls are reflecting", "statement": "With rigid boundaries scalars are mirrored about the wall, the wall-normal velocity interpolated to the wall is zero, no mass crosses the wall, and left and right walls behave as mirror images. (Mirror symmetry fails for the antidiffusive velocity halo on the right wall.)", "quantifier": "all fields, halo widths >= 1", "why_tests_cant": "All fields; the asymmetric path only matters with flux limiting.", "anchors": ["libmpdata++/bcond/rigid_2d.hpp", "libmpdata++/bcond/rigid_3d.hpp"]}
{"id": "C28", "title": "Polar boundary: neighbours across the pole", "statement": "The cell across the pole is the antipodal one: the mapping is an involution on the longitudes and shifts by half a period. (Requires an odd number of longitudes; fails for even ones. The right-pole vector halo is off by one row with respect to the left one.)", "quantifier": "all longitude counts and indices", "why_tests_cant": "Grid-parity dependent.", "anchors": ["libmpdata++/bcond/detail/polar_common.hpp: polar_neighbours", "libmpdata++/bcond/polar_2d.hpp: fill_halos_vctr_nrml"]}
{"id": "C29", "title": "Distributed-memory halo exchange reproduces the global field", "statement": "When a 1D domain is split between processes, a halo exchange neither deadlocks nor goes on for ever, messages have the lengths receivers expect, and afterwards every process holds in its halo the values that a single process would hold at the same global position, for scalars and staggered vectors, for interior and cyclic boundaries, with any halo width; the pieces gathered from all processes reassemble the global field.", "quantifier": "all process counts >= 2 (odd or even), grid lengths, halo widths, fields, orders in which processes proceed", "why_tests_cant": "Multi-process runs with all splits and orders of messages cannot be enumerated.", "anchors": ["libmpdata++/bcond/remote_1d.hpp", "libmpdata++/bcond/detail/remote_common.hpp", "libmpdata++/concurr/detail/distmem.hpp: get_global_array", "libmpdata++/concurr/detail/sharedmem.hpp: ctor", "libmpdata++/solvers/detail/solver_common.hpp: set_bcs"]}
{"id": "C30", "title": "Upwind transport preserves sign and bounds", "statement": "If in every cell the outgoing Courant numbers add up to at most G, a run of the 1D upwind scheme keeps a non-negative field non-negative, for any boundaries; in uniform flow it keeps every value within the bounds of the initial field.", "quantifier": "all fields, G factors and advectors satisfying the condition, steps, thread counts and interleavings", "why_tests_cant": "Quantifies over all real fields.", "anchors": ["libmpdata++/formulae/donorcell_formulae.hpp"]}
{"id": "C31", "title": "Constant fields are preserved by uniform flow", "statement": "In 1D non-divergent (that is uniform) flow a spatially constant field is left exactly unchanged by a run with any options, boundaries and number of corrective iterations (exact arithmetic).", "quantifier": "all constants, uniform advectors, G factors, options, iteration counts, steps, thread counts and interleavings", "why_tests_cant": "All advectors.", "anchors": ["libmpdata++/formulae/donorcell_formulae.hpp", "libmpdata++/formulae/mpdata/formulae_mpdata_1d.hpp: antidiff"]}
{"id": "C32", "title": "MPDATA is positive definite without flux limiting", "statement": "Runs of the standard 1D scheme (not infinite-gauge, no third-order or divergence terms) keep a non-negative field non-negative through all corrective iterations, provided the Courant numbers obey the stability condition and the G factor varies moderately. (Fails for the infinite-gauge variant without flux limiting.)", "quantifier": "all non-negative fields, Courant fields with |C|<=G, iteration counts, steps, thread counts and interleavings", "why_tests_cant": "All fields.", "anchors": ["libmpdata++/formulae/mpdata/formulae_mpdata_1d.hpp: antidiff", "libmpdata++/formulae/mpdata/formulae_mpdata_psi_1d.hpp: ndx_psi"]}
{"id": "C33", "title": "Flux-corrected transport creates no new extrema", "statement": "With flux limiting, a 1D run keeps non-negative fields non-negative in any flow with outgoing Courant numbers adding up to at most G; in uniform flow a field bounded by two constants stays bounded by them, and after one step every value lies between the minimum and maximum of the values at most n_iters cells away.", "quantifier": "all fields, advectors, options (infinite-gauge, absolute-value and sign-definite variants), iterations, steps, thread counts and interleavings", "why_tests_cant": "All fields.", "anchors": ["libmpdata++/formulae/mpdata/formulae_mpdata_fct_1d.hpp", "libmpdata++/formulae/mpdata/formulae_mpdata_fct_2d.hpp", "libmpdata++/solvers/detail/mpdata_fct_1d.hpp"]}
{"id": "C34", "title": "Flux limiting only reduces fluxes", "statement": "In the 1D solver the limited velocity is the unlimited one times a factor between zero and one, so it has the same sign and is not larger in magnitude.", "quantifier": "all fields, velocities and options", "why_tests_cant": "All fields.", "anchors": ["libmpdata++/formulae/mpdata/formulae_mpdata_fct_1d.hpp: GC_mono"]}
{"id": "C35", "title": "Unit Courant number translates the field exactly", "statement": "With a uniform Courant number of +1 or -1 (or 0) on a periodic grid every step moves the field by exactly one cell (or leaves it), for any number of corrective iterations, because the corrective velocities vanish.", "quantifier": "all fields, steps, iterations", "why_tests_cant": "All fields and numbers of steps.", "anchors": ["libmpdata++/formulae/donorcell_formulae.hpp", "libmpdata++/formulae/mpdata/formulae_mpdata_1d.hpp"]}
{"id": "C36", "title": "Homogeneity and sign symmetry", "statement": "Multiplying the initial field by a positive constant multiplies the result by the same constant (exact arithmetic, zero-denominator guard active); with the infinite-gauge or absolute-value options a change of sign of the field changes the sign of the result.", "quantifier": "all fields, positive constants", "why_tests_cant": "All fields.", "anchors": ["libmpdata++/formulae/mpdata/formulae_mpdata_psi_1d.hpp", "libmpdata++/formulae/mpdata/formulae_mpdata_common.hpp: frac"]}
{"id": "C37", "title": "Numerical-variant options do not change the mathematics", "statement": "The compensated-summation option and the non-branching positive/negative-part option give the same results of whole 1D runs as the default in exact arithmetic.", "quantifier": "all inputs, options, boundaries, steps, thread counts and interleavings", "why_tests_cant": "All inputs.", "anchors": ["libmpdata++/formulae/kahan_sum.hpp", "libmpdata++/kahan_reduction.hpp", "libmpdata++/formulae/common.hpp: pospart, negpart", "libmpdata++/formulae/donorcell_formulae.hpp"]}
{"id": "C38", "title": "Right-hand-side schemes compose as documented", "statement": "Over any history of steps the state obeys: euler_a psi'=ADV(psi)+dt*R(psi); euler_b psi'=ADV(psi+dt*R(psi)); trapez psi'=ADV(psi+dt/2*R)+dt/2*R', where R' is evaluated on the advected state and reused at the next step; equations marked as having no right-hand side are untouched.", "quantifier": "all advection operators, forcing functions, step counts, equations, masks", "why_tests_cant": "All forcing functions and histories.", "anchors": ["libmpdata++/solvers/mpdata_rhs.hpp"]}
{"id": "C39", "title": "Velocity extrapolation uses the right time levels", "statement": "At every step the advector is built from the velocity extrapolated linearly in time to the middle of the step, i.e. (1+b)*u(n)-b*u(n-1) with b=dt/(2*dt_prev), where u(n-1) is the velocity at the beginning of the previous step before forcings, for constant and adaptive time steps (whatever attempts were rejected) and for the third-order variant, whose time derivatives are those of the line and the parabola through the latest velocities. The derivatives are wrong when momentum is advected (density set).", "quantifier": "all histories of velocities, densities and step lengths, all initial contents of scratch arrays", "why_tests_cant": "Circular-buffer correctness over all histories.", "anchors": ["libmpdata++/solvers/detail/mpdata_rhs_vip_common.hpp: vip_stash, fill_stash_helper, extrp, calc_gc, calc_ndt_gc", "libmpdata++/solvers/detail/solver_common.hpp: dt_stash"]}
{"id": "C40", "title": "Advector divergence equals velocity divergence", "statement": "The divergence of the advector obtained by interpolating velocities to cell faces equals the centred-difference divergence used by the pressure solver (times dt), so a velocity field that is divergence-free for the pressure solver is divergence-free for advection.", "quantifier": "all velocity fields, G fields, spacings", "why_tests_cant": "All fields.", "anchors": ["libmpdata++/solvers/mpdata_rhs_vip.hpp: intrp", "libmpdata++/formulae/nabla_formulae.hpp: div"]}
{"id": "C41", "title": "Velocity absorber relaxes towards the given state", "statement": "The implicit absorber is the trapezoidal rule along trajectories for du/dt=-c(u-r), the explicit one Euler forward; both leave the relaxation field fixed. In still flow the implicit form never increases |u-r| for any c>=0 and any steps, and neither form overshoots if c*dt<=2 (implicit) or <=1 (explicit). With advection the largest deviation never grows if c*dt<=4 (implicit) or <=2 (explicit); beyond that both can amplify.", "quantifier": "all velocities, advections, coefficient and relaxation fields, sequences of step lengths", "why_tests_cant": "All reals, all histories.", "anchors": ["libmpdata++/solvers/detail/mpdata_rhs_vip_common.hpp: vip_rhs_impl_init, vip_rhs_expl_calc, vip_rhs_impl_fnlz, vip_rhs_apply, normalize_vip, add_relax"]}
{"id": "C42", "title": "Pressure solvers: termination, tolerance, monotonicity", "statement": "A pressure solve ends, after at most 10000 iterations, with a velocity or an exception. When the minimal residual solver returns, the corrected velocity (times G, with boundary conditions applied) has a divergence below prs_tol/dt in every cell, and the Courant numbers interpolated from it a divergence below prs_tol; every iteration of either solver leaves the total squared divergence the same or smaller; a non-divergent flow is left unchanged. For the conjugate residual solver only the root mean square is guaranteed.", "quantifier": "all grids, boundary conditions with linear halo filling, weights G, absorber coefficients, velocities, starting potentials, leftovers of scratch arrays, tolerances, numbers of search directions", "why_tests_cant": "tests run a handful of flows; the failure of the per-cell tolerance needs particular flows and the absorber/open-edge mismatch a particular combination of options", "anchors": ["libmpdata++/solvers/detail/mpdata_rhs_vip_prs_common.hpp: lap, pressure_solver_update, pressure_solver_apply, vip_rhs_impl_fnlz", "libmpdata++/solvers/detail/mpdata_rhs_vip_prs_mr.hpp", "libmpdata++/solvers/detail/mpdata_rhs_vip_prs_gcrk.hpp"]}
{"id": "C43", "title": "Output is written at exactly the requested steps", "statement": "With a fixed time step the initial state is recorded once and a later step s is recorded, once, iff it lies in a window of outwindow steps starting at a multiple of outfreq not before outstart; each record holds the state a run of that many steps ends with; the time axis written to the HDF5 file lists exactly those steps in order when outwindow<=outfreq and the run is made by one advance() that reaches outstart. (Fails when the run is shorter: the length of the axis underflows; and for steps of later advance() calls, which are missing from the axis.)", "quantifier": "all outfreq, outstart, outwindow, run lengths, histories of advance() calls, solvers", "why_tests_cant": "All parameter combinations.", "anchors": ["libmpdata++/output/detail/output_common.hpp: hook_ante_loop, hook_post_step", "libmpdata++/output/hdf5.hpp: start"]}
{"id": "C44", "title": "Output with adaptive time step hits every output time", "statement": "With an adaptive time step each multiple of outfreq reached by the run is recorded exactly once with a value interpolated in time between the bracketing states; linear interpolation stays between the bracketing values and is exact for linear evolution, second order is exact for quadratic evolution. (Fails when a step spans more than one output time, or for second order when two consecutive steps each cross one.)", "quantifier": "all sequences of step lengths, outfreq, states", "why_tests_cant": "All step-length histories.", "anchors": ["libmpdata++/output/detail/output_common.hpp: hook_ante_step, hook_post_step"]}
{"id": "C45", "title": "Option names identify the option set", "statement": "The textual description of the option set stored with the output distinguishes different option sets, and option bits are independent of each other. (Fails: the div_3rd_dt option has no name, so it is reported as absent.)", "quantifier": "all option masks", "why_tests_cant": "All subsets of flags.", "anchors": ["libmpdata++/opts.hpp: opts_string, opt2name, isset, bit"]}
{"id": "C46", "title": "Index permutations are consistent between dimensions", "statement": "Applying the dimension permutation for direction d to (i,j[,k]) addresses the element whose d-th coordinate is i and keeps the cyclic order of the others; the permutations are bijective, and formulas written for direction d are the direction-0 formulas on the transposed arrays (x/y symmetry of the 2D donor-cell and antidiffusive formulas).", "quantifier": "all indices, dimensions, fields", "why_tests_cant": "All index tuples.", "anchors": ["libmpdata++/formulae/idxperm.hpp: pi", "libmpdata++/formulae/donorcell_formulae.hpp", "libmpdata++/formulae/mpdata/formulae_mpdata_2d.hpp"]}
{"id": "C47", "title": "At least one solver thread is created", "statement": "The number of threads used is at least one and at most the number of grid cells along the decomposed dimension, whatever OMP_NUM_THREADS contains. (Fails when the variable is set to 0 or to something that is not a number: zero solver threads are created and advance() silently does nothing.)", "quantifier": "all values of the environment variable, hardware thread counts and grid sizes", "why_tests_cant": "Depends on the environment of the process and on unsigned/signed conversions for values nobody would think of testing.", "anchors": ["libmpdata++/concurr/cxx11_thread.hpp: mem_t::size", "libmpdata++/concurr/boost_thread.hpp: mem_t::size"]}
{"id": "C48", "title": "Stopping a run from outside", "statement": "A running advance() can be stopped early by setting the panic flag from outside. If it is set during a step after that step's first barrier (for instance by one thread in its hook after the step), all threads leave the time loop after the same number of steps, none of them starts a further step, and none waits for ever at a barrier. If it is set at another moment, this is not guaranteed: a signal arriving while some threads have already tested the flag and others have not lets some return and leaves the others waiting for ever.", "quantifier": "any number of threads, barriers per step and steps; every interleaving of the threads and every moment at which the flag is set", "why_tests_cant": "the outcome depends on the moment of the signal relative to every thread's position; a test sees one schedule", "anchors": ["libmpdata++/solvers/detail/solver_common.hpp: solve", "libmpdata++/concurr/detail/sharedmem.hpp: panic, cycle, barrier", "libmpdata++/concurr/detail/concurr_common.hpp: panic_ptr", "libmpdata++/concurr/any.hpp: panic_ptr"]}
{"id": "C49", "title": "A run computes the published algorithm", "statement": "With the basic options a 1D run on a cyclic domain gives exactly the result of the published MPDATA formulae (upwind pass, corrective passes with pseudo velocities, optional infinite-gauge variant and flux limiting) applied to the periodic extension of the data, in exact arithmetic; with any options and boundaries and any arithmetic it gives the result of a function on fields free of threads, time levels, temporaries and halos.", "quantifier": "all fields, advectors, G factors, iterations, steps, equations, thread counts and interleavings", "why_tests_cant": "tests compare a few runs against stored output; they cannot show that halos, buffers, time levels and threads never matter", "anchors": ["libmpdata++/solvers/detail/mpdata_osc_1d.hpp: mpdata_osc", "libmpdata++/solvers/detail/mpdata_fct_1d.hpp: mpdata_fct", "libmpdata++/formulae/mpdata/formulae_mpdata_1d.hpp", "libmpdata++/formulae/donorcell_formulae.hpp"]}
{"id": "C50", "title": "Upwind and infinite-gauge transport are linear", "statement": "Without flux limiting, 1D runs with one iteration, or with the infinite-gauge option and two iterations, map linear combinations of initial fields to the same linear combinations of results (exact arithmetic).", "quantifier": "all fields and coefficients, advectors, G factors, boundaries, steps, thread counts and interleavings", "why_tests_cant": "linearity quantifies over all pairs of fields and coefficients", "anchors": ["libmpdata++/solvers/detail/mpdata_osc_1d.hpp: mpdata_osc", "libmpdata++/formulae/mpdata/formulae_mpdata_common.hpp"]}
{"id": "C51", "title": "2D cyclic runs use only the data the user set", "statement": "After any number of steps of a 2D run with cyclic edges, the advected fields depend only on what the user set before advance(): the cells of each field, the Courant numbers at inner faces and the G factor. Halo content, temporaries and the second time level before the run do not matter, nor does the number of threads.", "quantifier": "all option sets that compile (with fct but not iga: one thread), any number of equations, iterations (at most two for div_2nd unless fct without div_3rd), steps, threads, grid sizes, field values, arithmetic and interleavings", "why_tests_cant": "Allocated memory happens to hold zeros in most test processes; a test cannot try all garbage values.", "anchors": ["libmpdata++/solvers/detail/mpdata_osc_2d.hpp: advop", "libmpdata++/solvers/detail/mpdata_fct_2d.hpp: fct_adjust_antidiff", "libmpdata++/solvers/detail/solver_2d.hpp: xchng_sclr, xchng_vctr_alng, xchng_vctr_nrml", "libmpdata++/bcond/cyclic_2d.hpp"]}
{"id": "C52", "title": "Duplicated rows and columns of a 2D cyclic grid stay identical", "statement": "On a 2D grid with cyclic edges the last row is the first one again, and the same for columns. If the initial data respect this, the fields respect it after any number of steps.", "quantifier": "all option sets as in C51, any sizes, values, steps, threads, arithmetic", "why_tests_cant": "Finitely many runs say nothing about other grids, option sets and values; deviations of rounding size would pass a tolerance.", "anchors": ["libmpdata++/bcond/cyclic_2d.hpp", "libmpdata++/solvers/detail/mpdata_osc_2d.hpp: advop"]}
{"id": "C53", "title": "2D cyclic runs commute with translation", "statement": "Moving the initial fields, Courant numbers and G factor of a 2D cyclic run by k rows and l columns around the grid moves the results by exactly as much, bit for bit, whatever the number of threads.", "quantifier": "all shifts (k, l), option sets as in C51, sizes, values, steps, thread counts, arithmetic (no algebraic law is used)", "why_tests_cant": "Equality has to hold for every shift, split into threads and floating-point value.", "anchors": ["libmpdata++/solvers/detail/mpdata_osc_2d.hpp", "libmpdata++/formulae/mpdata/formulae_mpdata_2d.hpp", "libmpdata++/bcond/cyclic_2d.hpp"]}
{"id": "C54", "title": "2D advection conserves the total", "statement": "On a 2D grid with cyclic edges the sum of G times the advectee over the cells is the same after any number of steps as before.", "quantifier": "all option sets and grids of the 2D solver with cyclic edges (one thread with fct and without iga; no stale halos, C51), any number of equations, passes, steps and threads, all real initial fields, Courant numbers and G factors; exact arithmetic", "why_tests_cant": "The claim is about all real fields, flows, grid sizes, step counts and interleavings; tests sample a few and compare within tolerances.", "anchors": ["libmpdata++/solvers/detail/mpdata_osc_2d.hpp: advop", "libmpdata++/formulae/mpdata/formulae_mpdata_2d.hpp: antidiff", "libmpdata++/bcond/cyclic_2d.hpp"]}
{"id": "C55", "title": "Constants stay constant in divergence-free 2D flow", "statement": "A constant advectee stays constant in every flow in which as much enters each cell as leaves it. This fails for div_3rd with a spatial part other than aver4 in nonuniform flow.", "quantifier": "all option sets and grids of the 2D solver with cyclic edges (one thread with fct and without iga; no stale halos, C51), any number of equations, passes, steps and threads, all real initial fields, Courant numbers and G factors; exact arithmetic; flows with zero discrete divergence", "why_tests_cant": "The claim is about all real fields, flows, grid sizes, step counts and interleavings; tests sample a few and compare within tolerances.", "anchors": ["libmpdata++/solvers/detail/mpdata_osc_2d.hpp: advop", "libmpdata++/formulae/mpdata/formulae_mpdata_2d.hpp: antidiff", "libmpdata++/bcond/cyclic_2d.hpp"]}
{"id": "C56", "title": "The 2D upwind scheme keeps sign and bounds", "statement": "With one pass the advectee stays nonnegative if no cell loses more than it contains, and within the bounds of its initial values if moreover the flow is free of divergence.", "quantifier": "all option sets and grids of the 2D solver with cyclic edges (one thread with fct and without iga; no stale halos, C51), any number of equations, passes, steps and threads, all real initial fields, Courant numbers and G factors; exact arithmetic; one pass", "why_tests_cant": "The claim is about all real fields, flows, grid sizes, step counts and interleavings; tests sample a few and compare within tolerances.", "anchors": ["libmpdata++/solvers/detail/mpdata_osc_2d.hpp: advop", "libmpdata++/formulae/mpdata/formulae_mpdata_2d.hpp: antidiff", "libmpdata++/bcond/cyclic_2d.hpp"]}
{"id": "C57", "title": "The basic 2D scheme is positive definite for small Courant numbers", "statement": "With any number of passes and the basic options the advectee stays nonnegative if the Courant numbers in the two directions add up to at most one half. It does not for Courant numbers adding up to one, nor with iga.", "quantifier": "all option sets and grids of the 2D solver with cyclic edges (one thread with fct and without iga; no stale halos, C51), any number of equations, passes, steps and threads, all real initial fields, Courant numbers and G factors; exact arithmetic; basic options", "why_tests_cant": "The claim is about all real fields, flows, grid sizes, step counts and interleavings; tests sample a few and compare within tolerances.", "anchors": ["libmpdata++/solvers/detail/mpdata_osc_2d.hpp: advop", "libmpdata++/formulae/mpdata/formulae_mpdata_2d.hpp: antidiff", "libmpdata++/bcond/cyclic_2d.hpp"]}
{"id": "C58", "title": "2D flux correction keeps sign and bounds", "statement": "With fct the advectee stays nonnegative if no cell loses more than it contains in the first pass, and within the bounds of its initial values if moreover the flow is free of divergence, whatever the other options.", "quantifier": "all option sets and grids of the 2D solver with cyclic edges (one thread with fct and without iga; no stale halos, C51), any number of equations, passes, steps and threads, all real initial fields, Courant numbers and G factors; exact arithmetic; fct on", "why_tests_cant": "The claim is about all real fields, flows, grid sizes, step counts and interleavings; tests sample a few and compare within tolerances.", "anchors": ["libmpdata++/solvers/detail/mpdata_fct_2d.hpp", "libmpdata++/formulae/mpdata/formulae_mpdata_fct_2d.hpp", "libmpdata++/solvers/detail/mpdata_osc_2d.hpp: advop", "libmpdata++/formulae/mpdata/formulae_mpdata_2d.hpp: antidiff", "libmpdata++/bcond/cyclic_2d.hpp"]}
{"id": "C59", "title": "Courant number one moves 2D fields by whole cells", "statement": "With Courant number 0, 1 or -1 in one direction and 0 in the other the advectee moves by exactly that many cells per step. This fails with div_2nd unless iga is set.", "quantifier": "all option sets and grids of the 2D solver with cyclic edges (one thread with fct and without iga; no stale halos, C51), any number of equations, passes, steps and threads, all real initial fields, Courant numbers and G factors; exact arithmetic; unit or zero Courant numbers along one axis", "why_tests_cant": "The claim is about all real fields, flows, grid sizes, step counts and interleavings; tests sample a few and compare within tolerances.", "anchors": ["libmpdata++/solvers/detail/mpdata_osc_2d.hpp: advop", "libmpdata++/formulae/mpdata/formulae_mpdata_2d.hpp: antidiff", "libmpdata++/bcond/cyclic_2d.hpp"]}
{"id": "C60", "title": "A 2D run computes the published algorithm", "statement": "With the basic options (no abs, tot, dfl, div_2nd, fot; no upwind_filter_freq, no hint_scale) a 2D run on a doubly cyclic domain gives exactly the result of the published two-dimensional MPDATA formulae (upwind pass, corrective passes with pseudo velocities including the cross-derivative term, optional infinite-gauge variant and flux limiting) applied to the periodic extension of the data.", "quantifier": "all option sets and grids of the 2D solver with cyclic edges (one thread with fct and without iga; no stale halos, C51), any number of equations, passes, steps and threads, all real initial fields, Courant numbers and G factors; exact arithmetic; basic options", "why_tests_cant": "The claim is about all real fields, flows, grid sizes, step counts and interleavings, or relates two different runs; tests sample a few runs and compare within tolerances.", "anchors": ["libmpdata++/solvers/detail/mpdata_osc_2d.hpp: advop", "libmpdata++/formulae/mpdata/formulae_mpdata_2d.hpp: antidiff", "libmpdata++/solvers/detail/mpdata_fct_2d.hpp: fct_adjust_antidiff", "libmpdata++/formulae/donorcell_formulae.hpp", "libmpdata++/bcond/cyclic_2d.hpp"]}
{"id": "C61", "title": "2D runs commute with mirror images", "statement": "If the data are mirrored along either axis (velocity components along it with opposite sign) the result is mirrored, for all options.", "quantifier": "all option sets and grids of the 2D solver with cyclic edges (one thread with fct and without iga; no stale halos, C51), any number of equations, passes, steps and threads, all real initial fields, Courant numbers and G factors; exact arithmetic; either axis", "why_tests_cant": "The claim is about all real fields, flows, grid sizes, step counts and interleavings, or relates two different runs; tests sample a few runs and compare within tolerances.", "anchors": ["libmpdata++/solvers/detail/mpdata_osc_2d.hpp: advop", "libmpdata++/formulae/mpdata/formulae_mpdata_2d.hpp: antidiff", "libmpdata++/solvers/detail/mpdata_fct_2d.hpp: fct_adjust_antidiff", "libmpdata++/formulae/donorcell_formulae.hpp", "libmpdata++/bcond/cyclic_2d.hpp"]}
{"id": "C62", "title": "2D runs treat both axes alike", "statement": "If the axes of grid and data are exchanged, so is the result, for all options, although threads divide the domain along the first axis only.", "quantifier": "all option sets and grids of the 2D solver with cyclic edges (one thread with fct and without iga; no stale halos, C51), any number of equations, passes, steps and threads, all real initial fields, Courant numbers and G factors; exact arithmetic", "why_tests_cant": "The claim is about all real fields, flows, grid sizes, step counts and interleavings, or relates two different runs; tests sample a few runs and compare within tolerances.", "anchors": ["libmpdata++/solvers/detail/mpdata_osc_2d.hpp: advop", "libmpdata++/formulae/mpdata/formulae_mpdata_2d.hpp: antidiff", "libmpdata++/solvers/detail/mpdata_fct_2d.hpp: fct_adjust_antidiff", "libmpdata++/formulae/donorcell_formulae.hpp", "libmpdata++/bcond/cyclic_2d.hpp", "libmpdata++/formulae/idxperm.hpp"]}
{"id": "C63", "title": "2D results scale with the advectee", "statement": "Without flux correction and infinite gauge, and with pfc, multiplying the initial values by a positive number (any nonzero number with abs) multiplies the result; with iga or abs, also with flux correction, changing the sign of the initial values changes the sign of the result.", "quantifier": "all option sets and grids of the 2D solver with cyclic edges (one thread with fct and without iga; no stale halos, C51), any number of equations, passes, steps and threads, all real initial fields, Courant numbers and G factors; exact arithmetic", "why_tests_cant": "The claim is about all real fields, flows, grid sizes, step counts and interleavings, or relates two different runs; tests sample a few runs and compare within tolerances.", "anchors": ["libmpdata++/solvers/detail/mpdata_osc_2d.hpp: advop", "libmpdata++/formulae/mpdata/formulae_mpdata_2d.hpp: antidiff", "libmpdata++/solvers/detail/mpdata_fct_2d.hpp: fct_adjust_antidiff", "libmpdata++/formulae/donorcell_formulae.hpp"]}
{"id": "C64", "title": "Upwind and infinite-gauge 2D runs are linear", "statement": "With one pass, or with iga (two passes) without flux correction, the result for a linear combination of initial values is the linear combination of the results.", "quantifier": "all option sets and grids of the 2D solver with cyclic edges (one thread with fct and without iga; no stale halos, C51), any number of equations, passes, steps and threads, all real initial fields, Courant numbers and G factors; exact arithmetic", "why_tests_cant": "The claim is about all real fields, flows, grid sizes, step counts and interleavings, or relates two different runs; tests sample a few runs and compare within tolerances.", "anchors": ["libmpdata++/solvers/detail/mpdata_osc_2d.hpp: advop", "libmpdata++/formulae/mpdata/formulae_mpdata_2d.hpp: antidiff", "libmpdata++/formulae/donorcell_formulae.hpp"]}
{"id": "C65", "title": "hint_scale does not change exact 2D results", "statement": "Without flux correction the power-of-two scaling by hint_scale does not change results in exact arithmetic (with pfc or iga, or one pass).", "quantifier": "all option sets and grids of the 2D solver with cyclic edges (one thread with fct and without iga; no stale halos, C51), any number of equations, passes, steps and threads, all real initial fields, Courant numbers and G factors; exact arithmetic; any two scales", "why_tests_cant": "The claim is about all real fields, flows, grid sizes, step counts and interleavings, or relates two different runs; tests sample a few runs and compare within tolerances.", "anchors": ["libmpdata++/solvers/detail/solver_common.hpp: scale", "libmpdata++/opts.hpp", "libmpdata++/solvers/detail/mpdata_osc_2d.hpp: advop", "libmpdata++/formulae/mpdata/formulae_mpdata_2d.hpp: antidiff"]}
{"id": "C66", "title": "khn and npa do not change exact 2D results", "statement": "Compensated summation (khn) and the alternative positive and negative parts (npa) give the same results in exact arithmetic.", "quantifier": "all option sets and grids of the 2D solver with cyclic edges (one thread with fct and without iga; no stale halos, C51), any number of equations, passes, steps and threads, all real initial fields, Courant numbers and G factors; exact arithmetic", "why_tests_cant": "The claim is about all real fields, flows, grid sizes, step counts and interleavings, or relates two different runs; tests sample a few runs and compare within tolerances.", "anchors": ["libmpdata++/formulae/donorcell_formulae.hpp", "libmpdata++/formulae/common.hpp", "libmpdata++/formulae/kahan_sum.hpp"]}
{"id": "C67", "title": "A 2D run of a one-dimensional flow is a 1D run", "statement": "If the data do not vary along the second axis and there is no velocity along it, every row of the 2D result is the result of the 1D solver with the same options (all options except fot; div_2nd needs pfc or iga, div_3rd needs iga, and div_3rd_dt is excluded). With div_3rd without iga it is not.", "quantifier": "all option sets and grids of the 2D solver with cyclic edges (one thread with fct and without iga; no stale halos, C51), any number of equations, passes, steps and threads, all real initial fields, Courant numbers and G factors; exact arithmetic; all 1D runs with any number of threads", "why_tests_cant": "Two separately written solvers are related for all inputs; tests of each solver compare with stored results.", "anchors": ["libmpdata++/solvers/detail/mpdata_osc_1d.hpp", "libmpdata++/formulae/mpdata/formulae_mpdata_1d.hpp", "libmpdata++/formulae/mpdata/formulae_mpdata_hot_1d.hpp", "libmpdata++/solvers/detail/mpdata_osc_2d.hpp: advop", "libmpdata++/formulae/mpdata/formulae_mpdata_2d.hpp: antidiff", "libmpdata++/formulae/mpdata/formulae_mpdata_hot_2d.hpp"]}
{"id": "C68", "title": "Threaded 3D run equals serial 3D run, bit for bit", "statement": "A 3D run with cyclic edges, split among any number of threads along the second dimension, ends with the same fields, advector and G factor whatever the number of threads and the scheduling; it always ends.", "quantifier": "all option sets that compile (fct without iga: refuted), any number of equations, iterations, steps, threads up to the grid size, grid sizes, memory contents, arithmetic and interleavings", "why_tests_cant": "Schedulers on test machines exhibit only a few of the possible interleavings.", "anchors": ["libmpdata++/solvers/detail/solver_3d.hpp: xchng_sclr, xchng_vctr_alng, xchng_vctr_nrml", "libmpdata++/solvers/detail/mpdata_osc_3d.hpp: advop", "libmpdata++/solvers/detail/mpdata_fct_3d.hpp: fct_init, fct_adjust_antidiff", "libmpdata++/bcond/cyclic_3d.hpp", "libmpdata++/concurr/detail/concurr_common.hpp"]}
{"id": "C69", "title": "3D cyclic runs use only the data the user set", "statement": "After any number of steps of a 3D run with cyclic edges, the advected fields depend only on what the user set before advance(): the cells of each field, the Courant numbers at inner faces and the G factor. Halo content, temporaries and the second time level before the run do not matter, nor does the number of threads.", "quantifier": "all option sets that compile (with fct but not iga: one thread), any number of equations, iterations (at most two for div_2nd unless fct without div_3rd; the rest is refuted), steps, threads, grid sizes, field values, arithmetic and interleavings", "why_tests_cant": "Allocated memory happens to hold zeros in most test processes; a test cannot try all garbage values.", "anchors": ["libmpdata++/solvers/detail/solver_3d.hpp: xchng_sclr, xchng_vctr_alng, xchng_vctr_nrml", "libmpdata++/solvers/detail/mpdata_osc_3d.hpp: advop", "libmpdata++/solvers/detail/mpdata_fct_3d.hpp: fct_init, fct_adjust_antidiff", "libmpdata++/bcond/cyclic_3d.hpp", "libmpdata++/concurr/detail/concurr_common.hpp"]}
{"id": "C70", "title": "Duplicated planes of a 3D cyclic grid stay identical", "statement": "On a 3D grid with cyclic edges the last plane across each dimension is the first one again. If the initial data respect this, the fields respect it after any number of steps.", "quantifier": "all option sets as in C69, any sizes, values, steps, threads, arithmetic", "why_tests_cant": "Finitely many runs say nothing about other grids, option sets and values; deviations of rounding size would pass a tolerance.", "anchors": ["libmpdata++/solvers/detail/solver_3d.hpp: xchng_sclr, xchng_vctr_alng, xchng_vctr_nrml", "libmpdata++/solvers/detail/mpdata_osc_3d.hpp: advop", "libmpdata++/solvers/detail/mpdata_fct_3d.hpp: fct_init, fct_adjust_antidiff", "libmpdata++/bcond/cyclic_3d.hpp", "libmpdata++/concurr/detail/concurr_common.hpp"]}
{"id": "C71", "title": "3D cyclic runs commute with translation", "statement": "Moving all initial data of a 3D cyclic run by any number of cells along each dimension moves the result by the same number of cells, exactly, also in floating point.", "quantifier": "all option sets as in C69, any shift, sizes, values, steps, two arbitrary numbers of threads, arithmetic", "why_tests_cant": "Tests compare few shifts with a tolerance; bitwise equality for all shifts and thread counts cannot be enumerated.", "anchors": ["libmpdata++/solvers/detail/solver_3d.hpp: xchng_sclr, xchng_vctr_alng, xchng_vctr_nrml", "libmpdata++/solvers/detail/mpdata_osc_3d.hpp: advop", "libmpdata++/solvers/detail/mpdata_fct_3d.hpp: fct_init, fct_adjust_antidiff", "libmpdata++/bcond/cyclic_3d.hpp", "libmpdata++/concurr/detail/concurr_common.hpp"]}
{"id": "C72", "title": "3D advection conserves the total", "statement": "On a 3D grid with cyclic edges the sum of G times the advectee over the cells is the same after any number of steps as before.", "quantifier": "all option sets and grids of the 3D solver with cyclic edges (one thread with fct and without iga; no stale halos, C69), any number of equations, passes, steps and threads, all real initial fields, Courant numbers and G factors; exact arithmetic", "why_tests_cant": "The claim is about all real fields, flows, grid sizes, step counts and interleavings; tests sample a few and compare within tolerances.", "anchors": ["libmpdata++/solvers/detail/mpdata_osc_3d.hpp: advop", "libmpdata++/formulae/mpdata/formulae_mpdata_3d.hpp: antidiff", "libmpdata++/bcond/cyclic_3d.hpp"]}
{"id": "C73", "title": "Constants stay constant in divergence-free 3D flow", "statement": "A constant advectee stays constant in every 3D flow in which as much enters each cell as leaves it. This fails for div_3rd with a spatial part other than aver4 in nonuniform flow.", "quantifier": "all option sets and grids of the 3D solver with cyclic edges (one thread with fct and without iga; no stale halos, C69), any number of equations, passes, steps and threads, all real initial fields, Courant numbers and G factors; exact arithmetic; flows with zero discrete divergence", "why_tests_cant": "The claim is about all real fields, flows, grid sizes, step counts and interleavings; tests sample a few and compare within tolerances.", "anchors": ["libmpdata++/solvers/detail/mpdata_osc_3d.hpp: advop", "libmpdata++/formulae/mpdata/formulae_mpdata_3d.hpp: antidiff", "libmpdata++/bcond/cyclic_3d.hpp"]}
{"id": "C74", "title": "The 3D upwind scheme keeps sign and bounds", "statement": "With one pass the advectee stays nonnegative if no cell loses more than it contains, and within the bounds of its initial values if moreover the flow is free of divergence.", "quantifier": "all option sets and grids of the 3D solver with cyclic edges (one thread with fct and without iga; no stale halos, C69), any number of equations, passes, steps and threads, all real initial fields, Courant numbers and G factors; exact arithmetic; one pass", "why_tests_cant": "The claim is about all real fields, flows, grid sizes, step counts and interleavings; tests sample a few and compare within tolerances.", "anchors": ["libmpdata++/solvers/detail/mpdata_osc_3d.hpp: advop", "libmpdata++/formulae/mpdata/formulae_mpdata_3d.hpp: antidiff", "libmpdata++/bcond/cyclic_3d.hpp"]}
{"id": "C75", "title": "The basic 3D scheme is positive definite for small Courant numbers", "statement": "With the basic options the advectee stays nonnegative if the Courant numbers in the three directions add up to at most one half and G is uniform (any number of passes), or to at most 6 / (11 + number of passes) and G varies by at most a factor of two. It does not for Courant numbers adding up to one, nor with iga.", "quantifier": "all option sets and grids of the 3D solver with cyclic edges (one thread with fct and without iga; no stale halos, C69), any number of equations, passes, steps and threads, all real initial fields, Courant numbers and G factors; exact arithmetic; basic options", "why_tests_cant": "The claim is about all real fields, flows, grid sizes, step counts and interleavings; tests sample a few and compare within tolerances.", "anchors": ["libmpdata++/solvers/detail/mpdata_osc_3d.hpp: advop", "libmpdata++/formulae/mpdata/formulae_mpdata_3d.hpp: antidiff", "libmpdata++/bcond/cyclic_3d.hpp"]}
{"id": "C76", "title": "3D flux correction keeps sign and bounds", "statement": "With fct the advectee stays nonnegative if no cell loses more than it contains in the first pass, and within the bounds of its initial values if moreover the flow is free of divergence, whatever the other options.", "quantifier": "all option sets and grids of the 3D solver with cyclic edges (one thread with fct and without iga; no stale halos, C69), any number of equations, passes, steps and threads, all real initial fields, Courant numbers and G factors; exact arithmetic; fct on", "why_tests_cant": "The claim is about all real fields, flows, grid sizes, step counts and interleavings; tests sample a few and compare within tolerances.", "anchors": ["libmpdata++/solvers/detail/mpdata_fct_3d.hpp", "libmpdata++/formulae/mpdata/formulae_mpdata_fct_3d.hpp", "libmpdata++/solvers/detail/mpdata_osc_3d.hpp: advop", "libmpdata++/formulae/mpdata/formulae_mpdata_3d.hpp: antidiff", "libmpdata++/bcond/cyclic_3d.hpp"]}
{"id": "C77", "title": "Courant number one moves 3D fields by whole cells", "statement": "With Courant number 0, 1 or -1 in one direction and 0 in the others the advectee moves by exactly that many cells per step. This fails with div_2nd unless iga is set.", "quantifier": "all option sets and grids of the 3D solver with cyclic edges (one thread with fct and without iga; no stale halos, C69), any number of equations, passes, steps and threads, all real initial fields, Courant numbers and G factors; exact arithmetic; unit or zero Courant numbers along one axis", "why_tests_cant": "The claim is about all real fields, flows, grid sizes, step counts and interleavings; tests sample a few and compare within tolerances.", "anchors": ["libmpdata++/solvers/detail/mpdata_osc_3d.hpp: advop", "libmpdata++/formulae/mpdata/formulae_mpdata_3d.hpp: antidiff", "libmpdata++/bcond/cyclic_3d.hpp"]}
{"id": "C78", "title": "3D runs compute published MPDATA", "statement": "With the basic options (iga, fct, pfc, nug in any combination, any number of passes) a run on a cyclic 3D grid produces, cell by cell, what MPDATA of the literature produces on the infinite periodic lattice.", "quantifier": "all option sets and grids of the 3D solver with cyclic edges (one thread with fct and without iga; no stale halos, C69), any number of equations, passes, steps and threads, all real initial fields, Courant numbers and G factors; exact arithmetic; without abs, tot, dfl, div_2nd, hint_scale, var_dt", "why_tests_cant": "The claim is about all real fields, flows, grid sizes, step counts and interleavings; tests sample a few and compare within tolerances.", "anchors": ["libmpdata++/solvers/detail/mpdata_osc_3d.hpp: advop", "libmpdata++/formulae/mpdata/formulae_mpdata_3d.hpp: antidiff", "libmpdata++/bcond/cyclic_3d.hpp", "libmpdata++/formulae/mpdata/formulae_mpdata_fct_3d.hpp: beta_up, beta_dn"]}
{"id": "C79", "title": "Mirror images in 3D", "statement": "Solving for data mirrored along any axis (velocities along it with opposite sign) gives the mirror image of the result.", "quantifier": "all option sets and grids of the 3D solver with cyclic edges (one thread with fct and without iga; no stale halos, C69), any number of equations, passes, steps and threads, all real initial fields, Courant numbers and G factors; exact arithmetic", "why_tests_cant": "The claim is about all real fields, flows, grid sizes, step counts and interleavings; tests sample a few and compare within tolerances.", "anchors": ["libmpdata++/solvers/detail/mpdata_osc_3d.hpp: advop", "libmpdata++/formulae/mpdata/formulae_mpdata_3d.hpp: antidiff", "libmpdata++/bcond/cyclic_3d.hpp"]}
{"id": "C80", "title": "3D results do not depend on the naming of axes", "statement": "Solving on the grid with permuted axes for data with permuted axes gives the result with permuted axes, for every permutation of the three axes, although threads share the domain along one of them and the code treats each axis by separate formulae.", "quantifier": "all option sets and grids of the 3D solver with cyclic edges (one thread with fct and without iga; no stale halos, C69), any number of equations, passes, steps and threads, all real initial fields, Courant numbers and G factors; exact arithmetic", "why_tests_cant": "The claim is about all real fields, flows, grid sizes, step counts and interleavings; tests sample a few and compare within tolerances.", "anchors": ["libmpdata++/solvers/detail/mpdata_osc_3d.hpp: advop", "libmpdata++/formulae/mpdata/formulae_mpdata_3d.hpp: antidiff", "libmpdata++/bcond/cyclic_3d.hpp"]}
{"id": "C81", "title": "Multiples and sign in 3D", "statement": "Multiplying the initial advectee by a positive number (any nonzero number with abs) multiplies the result by it; with iga or abs, changing the sign of the initial advectee changes the sign of the result, also with flux correction.", "quantifier": "all option sets and grids of the 3D solver with cyclic edges (one thread with fct and without iga; no stale halos, C69), any number of equations, passes, steps and threads, all real initial fields, Courant numbers and G factors; exact arithmetic; multiples: without fct and iga, with pfc; sign: iga with at most two passes or abs, positive G", "why_tests_cant": "The claim is about all real fields, flows, grid sizes, step counts and interleavings; tests sample a few and compare within tolerances.", "anchors": ["libmpdata++/solvers/detail/mpdata_osc_3d.hpp: advop", "libmpdata++/formulae/mpdata/formulae_mpdata_3d.hpp: antidiff", "libmpdata++/bcond/cyclic_3d.hpp"]}
{"id": "C82", "title": "Superposition in 3D", "statement": "The upwind scheme (one pass) and the infinite-gauge variant (two passes, no fct) are linear: the result for a linear combination of initial fields is the linear combination of the results.", "quantifier": "all option sets and grids of the 3D solver with cyclic edges (one thread with fct and without iga; no stale halos, C69), any number of equations, passes, steps and threads, all real initial fields, Courant numbers and G factors; exact arithmetic; one pass, or iga without fct", "why_tests_cant": "The claim is about all real fields, flows, grid sizes, step counts and interleavings; tests sample a few and compare within tolerances.", "anchors": ["libmpdata++/solvers/detail/mpdata_osc_3d.hpp: advop", "libmpdata++/formulae/mpdata/formulae_mpdata_3d.hpp: antidiff", "libmpdata++/bcond/cyclic_3d.hpp"]}
{"id": "C83", "title": "hint_scale does not change exact results in 3D", "statement": "Scaling hints (powers of two chosen by the user) do not change what a run computes in exact arithmetic.", "quantifier": "all option sets and grids of the 3D solver with cyclic edges (one thread with fct and without iga; no stale halos, C69), any number of equations, passes, steps and threads, all real initial fields, Courant numbers and G factors; exact arithmetic; upwind, or without fct and with pfc or iga", "why_tests_cant": "The claim is about all real fields, flows, grid sizes, step counts and interleavings; tests sample a few and compare within tolerances.", "anchors": ["libmpdata++/solvers/detail/mpdata_osc_3d.hpp: advop", "libmpdata++/formulae/mpdata/formulae_mpdata_3d.hpp: antidiff", "libmpdata++/bcond/cyclic_3d.hpp", "libmpdata++/solvers/detail/solver_common.hpp: scale"]}
{"id": "C84", "title": "Options without exact effect in 3D", "statement": "khn (compensated summation) and npa (other positive and negative parts) do not change exact results. fot, accepted by the 3D solver, has no effect on results at all.", "quantifier": "all option sets and grids of the 3D solver with cyclic edges (one thread with fct and without iga; no stale halos, C69), any number of equations, passes, steps and threads, all real initial fields, Courant numbers and G factors; exact arithmetic", "why_tests_cant": "The claim is about all real fields, flows, grid sizes, step counts and interleavings; tests sample a few and compare within tolerances.", "anchors": ["libmpdata++/solvers/detail/mpdata_osc_3d.hpp: advop", "libmpdata++/formulae/mpdata/formulae_mpdata_3d.hpp: antidiff", "libmpdata++/bcond/cyclic_3d.hpp", "libmpdata++/opts.hpp: khn, npa, fot"]}
{"id": "C85", "title": "3D flows without variation along the third axis are 2D flows", "statement": "A 3D run whose data do not vary along the third axis and that has no velocity along it gives in each layer exactly what the 2D solver gives. This fails with div_2nd unless iga is set: the two sets of formulae divide by different averages.", "quantifier": "all option sets and grids of the 3D solver with cyclic edges (one thread with fct and without iga; no stale halos, C69), any number of equations, passes, steps and threads, all real initial fields, Courant numbers and G factors; exact arithmetic; without fot", "why_tests_cant": "The claim is about all real fields, flows, grid sizes, step counts and interleavings; tests sample a few and compare within tolerances.", "anchors": ["libmpdata++/solvers/detail/mpdata_osc_3d.hpp: advop", "libmpdata++/formulae/mpdata/formulae_mpdata_3d.hpp: antidiff", "libmpdata++/bcond/cyclic_3d.hpp", "libmpdata++/formulae/mpdata/formulae_mpdata_2d.hpp: antidiff"]}
{"id": "C86", "title": "The viscous force is the right one", "statement": "With constant viscosity eta the forces that the dns closure adds to the right-hand sides of the velocities are 2 eta (laplacian v + grad div v), exactly, for velocities that are quadratic in the coordinates (without G). The factor of two is there because explicit forces are applied in only one of the two half-steps of a step.", "quantifier": "all quadratic velocity fields, 2D and 3D, normal, pade and compact differencing, all spacings; exact arithmetic; no surface drag", "why_tests_cant": "The claim is about all real velocity fields, grid sizes and spacings; tests sample a few flows and compare within tolerances.", "anchors": ["libmpdata++/formulae/stress_formulae.hpp", "libmpdata++/formulae/nabla_formulae.hpp", "libmpdata++/solvers/detail/mpdata_rhs_vip_prs_sgs_common.hpp: vip_rhs_expl_calc", "libmpdata++/solvers/detail/mpdata_rhs_vip_prs_sgs_dns.hpp: multiply_sgs_visc"]}
{"id": "C87", "title": "Viscous forces create no momentum", "statement": "On cyclic domains the viscous forces add up to zero over the cells for each component, for every closure (with weights G for compact differencing with G).", "quantifier": "all periodic velocity fields and grid sizes, closures dns, smg, smgani, 2D and 3D, normal, pade and compact differencing, all spacings; exact arithmetic; no surface drag", "why_tests_cant": "The claim is about all real velocity fields, grid sizes and spacings; tests sample a few flows and compare within tolerances.", "anchors": ["libmpdata++/formulae/stress_formulae.hpp", "libmpdata++/formulae/nabla_formulae.hpp", "libmpdata++/solvers/detail/mpdata_rhs_vip_prs_sgs_common.hpp: vip_rhs_expl_calc", "libmpdata++/solvers/detail/mpdata_rhs_vip_prs_sgs_dns.hpp: multiply_sgs_visc", "libmpdata++/solvers/detail/mpdata_rhs_vip_prs_sgs_smg.hpp: multiply_sgs_visc", "libmpdata++/solvers/detail/mpdata_rhs_vip_prs_sgs_smgani.hpp: multiply_sgs_visc"]}
{"id": "C88", "title": "Viscous forces never feed energy", "statement": "On cyclic domains the work done by viscous forces on the flow is never positive, and for constant viscosity with normal differencing it is minus 4 eta times the sum of squared strain rates.", "quantifier": "all periodic velocity fields and grid sizes, non-negative viscosities, closures dns, smg, smgani (compact differencing without G), 2D and 3D, normal, pade and compact differencing, all spacings; exact arithmetic; no surface drag", "why_tests_cant": "The claim is about all real velocity fields, grid sizes and spacings; tests sample a few flows and compare within tolerances.", "anchors": ["libmpdata++/formulae/stress_formulae.hpp", "libmpdata++/formulae/nabla_formulae.hpp", "libmpdata++/solvers/detail/mpdata_rhs_vip_prs_sgs_common.hpp: vip_rhs_expl_calc", "libmpdata++/solvers/detail/mpdata_rhs_vip_prs_sgs_dns.hpp: multiply_sgs_visc", "libmpdata++/solvers/detail/mpdata_rhs_vip_prs_sgs_smg.hpp: multiply_sgs_visc", "libmpdata++/solvers/detail/mpdata_rhs_vip_prs_sgs_smgani.hpp: multiply_sgs_visc"]}
{"id": "C89", "title": "Rigid motion is not resisted", "statement": "Adding a uniform flow and a rigid rotation to the velocities changes no viscous force (for compact differencing: without G).", "quantifier": "all velocity fields and rigid motions, closures dns, smg, smgani, 2D and 3D, normal, pade and compact differencing, all spacings; exact arithmetic; no surface drag", "why_tests_cant": "The claim is about all real velocity fields, grid sizes and spacings; tests sample a few flows and compare within tolerances.", "anchors": ["libmpdata++/formulae/stress_formulae.hpp", "libmpdata++/formulae/nabla_formulae.hpp", "libmpdata++/solvers/detail/mpdata_rhs_vip_prs_sgs_common.hpp: vip_rhs_expl_calc", "libmpdata++/solvers/detail/mpdata_rhs_vip_prs_sgs_dns.hpp: multiply_sgs_visc", "libmpdata++/solvers/detail/mpdata_rhs_vip_prs_sgs_smg.hpp: multiply_sgs_visc", "libmpdata++/solvers/detail/mpdata_rhs_vip_prs_sgs_smgani.hpp: multiply_sgs_visc"]}
{"id": "C90", "title": "The eddy force scales like advection", "statement": "A Smagorinsky force is quadratic in the velocity (eddy viscosity proportional to the strain rate). This is false of the generic smg and smgani closures: the viscosity is proportional to the squared strain rate (the root is missing), so the force is cubic.", "quantifier": "all velocity fields and factors, closures smg, smgani, 2D and 3D, normal, pade and compact differencing, all spacings; exact arithmetic; no surface drag", "why_tests_cant": "The scaling has to hold for every factor and field; a run with one velocity scale cannot show a wrong power.", "anchors": ["libmpdata++/formulae/stress_formulae.hpp", "libmpdata++/formulae/nabla_formulae.hpp", "libmpdata++/solvers/detail/mpdata_rhs_vip_prs_sgs_common.hpp: vip_rhs_expl_calc", "libmpdata++/solvers/detail/mpdata_rhs_vip_prs_sgs_dns.hpp: multiply_sgs_visc", "libmpdata++/solvers/detail/mpdata_rhs_vip_prs_sgs_smg.hpp: multiply_sgs_visc", "libmpdata++/solvers/detail/mpdata_rhs_vip_prs_sgs_smgani.hpp: multiply_sgs_visc"]}
{"id": "C91", "title": "Planar flows get the same viscous force in 2D and 3D", "statement": "For velocities without variation along the third axis and no component along it, the force from the 3D solver is that of the 2D solver. True for constant viscosity; false for smg, whose filter width is a third of the sum of spacings in 2D as well.", "quantifier": "all planar velocity fields, 2D and 3D, normal, pade and compact differencing, all spacings; exact arithmetic; no surface drag", "why_tests_cant": "The claim is about all real velocity fields, grid sizes and spacings; tests sample a few flows and compare within tolerances.", "anchors": ["libmpdata++/formulae/stress_formulae.hpp", "libmpdata++/formulae/nabla_formulae.hpp", "libmpdata++/solvers/detail/mpdata_rhs_vip_prs_sgs_common.hpp: vip_rhs_expl_calc", "libmpdata++/solvers/detail/mpdata_rhs_vip_prs_sgs_dns.hpp: multiply_sgs_visc", "libmpdata++/solvers/detail/mpdata_rhs_vip_prs_sgs_smg.hpp: multiply_sgs_visc", "libmpdata++/solvers/detail/mpdata_rhs_vip_prs_sgs_smgani.hpp: multiply_sgs_visc"]}
{"id": "C92", "title": "Boussinesq steps are the trapezoidal rule", "statement": "Each step of the Boussinesq solver, with implicit or explicit temperature, takes velocities and temperature to exactly those that the trapezoidal rule along the flow gives for buoyancy, heating, relaxation, absorber and pressure force: half of the rates at the old state before advection, half of those at the new state after.", "quantifier": "2D and 3D, all fields, ambient profiles, absorbers, time steps and numbers of steps; arbitrary advection and pressure solver; exact arithmetic; all absorber variants, with and without closure and buoyancy smoothing", "why_tests_cant": "The implicit solution is spread over several hooks and members that are stored, undone and reused in the next step; a test sees the sum of their effects in one case.", "anchors": ["libmpdata++/solvers/detail/boussinesq_expl.hpp: update_rhs, buoy_at_0, buoy_at_1, filter", "libmpdata++/solvers/detail/boussinesq_impl.hpp: update_rhs, normalize_vip, vip_rhs_impl_fnlz", "libmpdata++/solvers/mpdata_rhs.hpp", "libmpdata++/solvers/detail/mpdata_rhs_vip_common.hpp", "libmpdata++/solvers/detail/mpdata_rhs_vip_prs_common.hpp"]}
{"id": "C93", "title": "Gravity waves gain no energy", "statement": "With implicit temperature in a stably stratified fluid and without advection, kinetic plus available potential energy is the same after any number of steps, whatever the time step, if pressure does no net work (in particular: divergence-free velocities and pressure gradients on a cyclic domain); absorbers can only reduce it.", "quantifier": "2D and 3D, all fields, ambient profiles, absorbers, time steps and numbers of steps; arbitrary advection and pressure solver; exact arithmetic", "why_tests_cant": "The claim is about all fields, profiles, time steps and numbers of steps; tests run a few cases and compare within tolerances.", "anchors": ["libmpdata++/solvers/detail/boussinesq_expl.hpp: update_rhs, buoy_at_0, buoy_at_1, filter", "libmpdata++/solvers/detail/boussinesq_impl.hpp: update_rhs, normalize_vip, vip_rhs_impl_fnlz", "libmpdata++/solvers/mpdata_rhs.hpp", "libmpdata++/solvers/detail/mpdata_rhs_vip_common.hpp", "libmpdata++/solvers/detail/mpdata_rhs_vip_prs_common.hpp"]}
{"id": "C94", "title": "Air at rest stays at rest", "statement": "A motionless atmosphere with ambient temperature stays exactly that for any number of steps, whatever the ambient profile.", "quantifier": "2D and 3D, all fields, ambient profiles, absorbers, time steps and numbers of steps; arbitrary advection and pressure solver; exact arithmetic that keep rest", "why_tests_cant": "The claim is about all fields, profiles, time steps and numbers of steps; tests run a few cases and compare within tolerances.", "anchors": ["libmpdata++/solvers/detail/boussinesq_expl.hpp: update_rhs, buoy_at_0, buoy_at_1, filter", "libmpdata++/solvers/detail/boussinesq_impl.hpp: update_rhs, normalize_vip, vip_rhs_impl_fnlz", "libmpdata++/solvers/mpdata_rhs.hpp", "libmpdata++/solvers/detail/mpdata_rhs_vip_common.hpp", "libmpdata++/solvers/detail/mpdata_rhs_vip_prs_common.hpp"]}
{"id": "C95", "title": "Heating adds up over time", "statement": "With explicit temperature and no relaxation, the total temperature grows by the heating times elapsed time. True for a given heating (iles); false with a closure, whose heating enters with a delay: constant heating adds half a step less. The exact total is proved.", "quantifier": "2D and 3D, all fields, ambient profiles, absorbers, time steps and numbers of steps; arbitrary advection and pressure solver; exact arithmetic conserving the sum of temperature", "why_tests_cant": "The missing half step is within tolerance of long runs and depends on the order of hooks.", "anchors": ["libmpdata++/solvers/detail/boussinesq_expl.hpp: update_rhs, buoy_at_0, buoy_at_1, filter", "libmpdata++/solvers/detail/boussinesq_impl.hpp: update_rhs, normalize_vip, vip_rhs_impl_fnlz", "libmpdata++/solvers/mpdata_rhs.hpp", "libmpdata++/solvers/detail/mpdata_rhs_vip_common.hpp", "libmpdata++/solvers/detail/mpdata_rhs_vip_prs_common.hpp", "libmpdata++/solvers/detail/boussinesq_sgs_common.hpp: multiply_sgs_visc, calc_rcdsn_num", "libmpdata++/formulae/stress_formulae.hpp: multiply_vctr_cmpct, flux_div_cmpct", "libmpdata++/bcond/gndsky_3d.hpp", "libmpdata++/bcond/rigid_3d.hpp"]}
{"id": "C96", "title": "Buoyancy smoothing is harmless", "statement": "The optional smoothing of buoyancy keeps its sum over cyclic domains and its bounds, and removes vertical waves two cells long.", "quantifier": "2D and 3D, all fields", "why_tests_cant": "The claim is about all fields, profiles, time steps and numbers of steps; tests run a few cases and compare within tolerances.", "anchors": ["libmpdata++/solvers/detail/boussinesq_expl.hpp: filter"]}
{"id": "C97", "title": "Eddy viscosity under stratification", "statement": "The eddy viscosity is (c l)^2 sqrt(max(0, S^2 - N^2 / Pr)): finite, non-negative, falling with stratification, zero beyond the critical Richardson number. True wherever there is shear or stable stratification; false where there is no shear and temperature falls with height: the viscosity is NaN there and so is the heating.", "quantifier": "all gradients and squared strain rates, gravity, reference temperatures, Prandtl numbers, mixing lengths; IEEE infinities and NaN, otherwise exact arithmetic", "why_tests_cant": "Zero strain rate occurs at start from rest; tests start with shear or noise.", "anchors": ["libmpdata++/solvers/detail/boussinesq_sgs_common.hpp: multiply_sgs_visc, calc_rcdsn_num", "libmpdata++/formulae/stress_formulae.hpp: multiply_vctr_cmpct, flux_div_cmpct", "libmpdata++/bcond/gndsky_3d.hpp", "libmpdata++/bcond/rigid_3d.hpp"]}
{"id": "C98", "title": "Surface heat flux enters the domain exactly", "statement": "With cyclic sides, ground and lid, the heating computed by the closure adds up (weights G, half weight for the outermost levels) to the surface heat flux over the level spacing; without surface flux mixing never increases the variance of temperature.", "quantifier": "2D and 3D, all sizes (at least two levels), spacings, temperatures, viscosities, G", "why_tests_cant": "The claim is about all fields, profiles, time steps and numbers of steps; tests run a few cases and compare within tolerances.", "anchors": ["libmpdata++/solvers/detail/boussinesq_sgs_common.hpp: multiply_sgs_visc, calc_rcdsn_num", "libmpdata++/formulae/stress_formulae.hpp: multiply_vctr_cmpct, flux_div_cmpct", "libmpdata++/bcond/gndsky_3d.hpp", "libmpdata++/bcond/rigid_3d.hpp"]}
{"id": "C99", "title": "Which runs are free of data races", "statement": "A 2D run without the flux limiter never has a data race in the sense of the C++ memory model: between two barriers no array element is written by one thread and read or written by another, for any number of threads. It does not hold with the limiter (neighbouring threads both store the extrema at their common border) nor in 3D (while one thread copies halo rows from the far end of the cut dimension, the owners of these rows are filling the same cells beyond the edge of the first dimension): there every step of every run with two or more threads has a race.", "quantifier": "all option sets that compile, all combinations of cyclic, open and rigid edges (2D) or cyclic edges (3D), all grids, numbers of threads, equations, iterations and steps", "why_tests_cant": "a race shows only under particular timings, and a test covers one option set, thread count and schedule; a race detector reports only executions it saw", "anchors": ["libmpdata++/solvers/detail/solver_2d.hpp: xchng_sclr, xchng_vctr_alng, xchng_vctr_nrml, xchng_flux", "libmpdata++/solvers/detail/solver_3d.hpp: xchng_sclr", "libmpdata++/solvers/detail/mpdata_fct_2d.hpp: fct_init", "libmpdata++/solvers/detail/mpdata_osc_2d.hpp: im, jm"]}
{"id": "C100", "title": "Shallow water conserves water and momentum", "statement": "A run of the shallow-water solver on a cyclic domain neither loses nor makes water (depth times G factor summed over the domain), and without G factors the sum of each momentum component does not change either.", "quantifier": "all option sets without div_3rd and div_3rd_dt, trapezoidal scheme, all time and grid steps, all initial depths and momenta, every number of steps; two dimensions, cyclic domain, exact arithmetic", "why_tests_cant": "a test follows one initial state for some steps; losses below its tolerance or at other options go unnoticed", "anchors": ["libmpdata++/solvers/shallow_water.hpp: update_rhs, forcings_helper, hook_ante_step, hook_post_step", "libmpdata++/solvers/mpdata_rhs.hpp: update_rhs, apply_rhs, hook_ante_step, hook_post_step", "libmpdata++/solvers/detail/mpdata_rhs_vip_common.hpp: fill_stash, extrp, calc_gc", "libmpdata++/solvers/mpdata_rhs_vip.hpp: interpolate_in_space"]}
{"id": "C101", "title": "A uniform current or a lake at rest stays as it is", "statement": "Uniform depth and uniform momenta never change, whatever the options and the number of steps; with zero momenta also for any G factors. Such runs never divide by zero.", "quantifier": "all option sets without div_3rd and div_3rd_dt, trapezoidal scheme, all time and grid steps, all initial depths and momenta, every number of steps; two dimensions, cyclic domain, exact arithmetic", "why_tests_cant": "drift may set in after any number of steps and with any of the many option sets", "anchors": ["libmpdata++/solvers/shallow_water.hpp: update_rhs, forcings_helper, hook_ante_step, hook_post_step", "libmpdata++/solvers/mpdata_rhs.hpp: update_rhs, apply_rhs, hook_ante_step, hook_post_step", "libmpdata++/solvers/detail/mpdata_rhs_vip_common.hpp: fill_stash, extrp, calc_gc", "libmpdata++/solvers/mpdata_rhs_vip.hpp: interpolate_in_space"]}
{"id": "C102", "title": "Depths do not become negative", "statement": "Depths that start non-negative stay non-negative, so the assertions on it never fire, if no step moves out of a cell more than is there (one pass or flux limiter), or if the Courant numbers add up to at most one half (basic scheme with any number of passes).", "quantifier": "all option sets without div_3rd and div_3rd_dt, trapezoidal scheme, all time and grid steps, all initial depths and momenta, every number of steps; two dimensions, cyclic domain, exact arithmetic; options as stated", "why_tests_cant": "the assertions check only the states that tests reach", "anchors": ["libmpdata++/solvers/shallow_water.hpp: update_rhs, forcings_helper, hook_ante_step, hook_post_step", "libmpdata++/solvers/mpdata_rhs.hpp: update_rhs, apply_rhs, hook_ante_step, hook_post_step", "libmpdata++/solvers/detail/mpdata_rhs_vip_common.hpp: fill_stash, extrp, calc_gc", "libmpdata++/solvers/mpdata_rhs_vip.hpp: interpolate_in_space"]}
{"id": "C103", "title": "Shallow water: mirror images and exchanged axes", "statement": "Starting from the mirror image of a state along either axis, or from the state with the axes exchanged, gives the mirror image or exchange of the result, with momentum components changed accordingly.", "quantifier": "all option sets without div_3rd and div_3rd_dt, trapezoidal scheme, all time and grid steps, all initial depths and momenta, every number of steps; two dimensions, cyclic domain, exact arithmetic; for mirror images: options indifferent to the sign of fields", "why_tests_cant": "asymmetries show only for particular states", "anchors": ["libmpdata++/solvers/shallow_water.hpp: update_rhs, forcings_helper, hook_ante_step, hook_post_step", "libmpdata++/solvers/mpdata_rhs.hpp: update_rhs, apply_rhs, hook_ante_step, hook_post_step", "libmpdata++/solvers/detail/mpdata_rhs_vip_common.hpp: fill_stash, extrp, calc_gc", "libmpdata++/solvers/mpdata_rhs_vip.hpp: interpolate_in_space"]}
{"id": "C104", "title": "Shallow water: dynamic similarity", "statement": "Results do not depend on units: with depths, velocities and lengths multiplied by any positive factors, and gravity, time step, grid steps and the dry-cell threshold converted, every run gives the converted result; runs with equal Froude number behave alike.", "quantifier": "all option sets without div_3rd and div_3rd_dt, trapezoidal scheme, all time and grid steps, all initial depths and momenta, every number of steps; two dimensions, cyclic domain, exact arithmetic; options indifferent to the unit of fields", "why_tests_cant": "a test follows one initial state for some steps in one set of units", "anchors": ["libmpdata++/solvers/shallow_water.hpp: update_rhs, forcings_helper, hook_ante_step, hook_post_step", "libmpdata++/solvers/mpdata_rhs.hpp: update_rhs, apply_rhs, hook_ante_step, hook_post_step", "libmpdata++/solvers/detail/mpdata_rhs_vip_common.hpp: fill_stash, extrp, calc_gc", "libmpdata++/solvers/mpdata_rhs_vip.hpp: interpolate_in_space"]}
{"id": "C105", "title": "Shallow water: flow along one axis stays along it", "statement": "Data that repeat under a translation, or do not vary in a direction, give results with the same property; flow along x that does not vary in y never gets a momentum along y.", "quantifier": "all option sets without div_3rd and div_3rd_dt, trapezoidal scheme, all time and grid steps, all initial depths and momenta, every number of steps; two dimensions, cyclic domain, exact arithmetic; any set of translations", "why_tests_cant": "spurious transverse momentum may appear after any number of steps", "anchors": ["libmpdata++/solvers/shallow_water.hpp: update_rhs, forcings_helper, hook_ante_step, hook_post_step", "libmpdata++/solvers/mpdata_rhs.hpp: update_rhs, apply_rhs, hook_ante_step, hook_post_step", "libmpdata++/solvers/detail/mpdata_rhs_vip_common.hpp: fill_stash, extrp, calc_gc", "libmpdata++/solvers/mpdata_rhs_vip.hpp: interpolate_in_space"]}
{"id": "C106", "title": "Shallow-water forcing is exact for quadratic depths", "statement": "Where the depth is a polynomial of degree at most two, the forcing of each momentum is exactly minus gravity times depth times slope.", "quantifier": "all quadratic depths, grid steps, gravity, cells", "why_tests_cant": "a test compares values for particular depths", "anchors": ["libmpdata++/solvers/shallow_water.hpp: update_rhs, forcings_helper, hook_ante_step, hook_post_step", "libmpdata++/solvers/mpdata_rhs.hpp: update_rhs, apply_rhs, hook_ante_step, hook_post_step", "libmpdata++/solvers/detail/mpdata_rhs_vip_common.hpp: fill_stash, extrp, calc_gc", "libmpdata++/solvers/mpdata_rhs_vip.hpp: interpolate_in_space"]}
{"id": "C107", "title": "Without gravity a uniform velocity stays uniform", "statement": "With gravity zero, momenta equal to a constant velocity times depth stay so, for any depths: depth and momentum are transported alike, also if they are given different hint_scale values.", "quantifier": "all option sets without div_3rd and div_3rd_dt, trapezoidal scheme, all time and grid steps, all initial depths and momenta, every number of steps; two dimensions, cyclic domain, exact arithmetic; options indifferent to the unit of fields", "why_tests_cant": "a test follows one initial state for some steps", "anchors": ["libmpdata++/solvers/shallow_water.hpp: update_rhs, forcings_helper, hook_ante_step, hook_post_step", "libmpdata++/solvers/mpdata_rhs.hpp: update_rhs, apply_rhs, hook_ante_step, hook_post_step", "libmpdata++/solvers/detail/mpdata_rhs_vip_common.hpp: fill_stash, extrp, calc_gc", "libmpdata++/solvers/mpdata_rhs_vip.hpp: interpolate_in_space"]}
{"id": "C108", "title": "No flow against all velocities", "statement": "If no velocity is ever negative then no water appears in an empty cell behind an empty one.  This does not hold: a cell that becomes shallower than the threshold of the division by depth counts as standing still, and the extrapolation in time makes that half its former velocity backwards.", "quantifier": "all runs of the shallow-water solver with a dry-cell threshold", "why_tests_cant": "a test follows one initial state for some steps; dry fronts are rare in tests", "anchors": ["libmpdata++/solvers/shallow_water.hpp: update_rhs, forcings_helper, hook_ante_step, hook_post_step", "libmpdata++/solvers/mpdata_rhs.hpp: update_rhs, apply_rhs, hook_ante_step, hook_post_step", "libmpdata++/solvers/detail/mpdata_rhs_vip_common.hpp: fill_stash, extrp, calc_gc", "libmpdata++/solvers/mpdata_rhs_vip.hpp: interpolate_in_space"]}
{"id": "C109", "title": "A closed box keeps its content", "statement": "In two dimensions with rigid walls on all four edges, the total content of every advected field (value times G factor, outermost cells counting half and corners a quarter since the walls run through cell centres) is the same before and after any run.", "quantifier": "all option sets, numbers of iterations, steps, equations and threads, all grids, courant numbers, field values and non-zero G factors, all thread interleavings; exact arithmetic", "why_tests_cant": "a test adds up one field for some steps within a tolerance; leaks through walls depend on options, iterations and flow near them", "anchors": ["libmpdata++/bcond/rigid_2d.hpp: fill_halos_sclr, fill_halos_vctr_alng, fill_halos_flux", "libmpdata++/solvers/detail/mpdata_osc_2d.hpp: advop", "libmpdata++/solvers/detail/mpdata_fct_2d.hpp", "libmpdata++/formulae/donorcell_formulae.hpp: donorcell_sum"]}
{"id": "C110", "title": "A box and its mirror image give mirrored results", "statement": "In a box with rigid walls, mirroring the initial fields and the flow gives the mirror image of the results, as it does on cyclic domains (C61).", "quantifier": "all option sets, data and numbers of steps (refuted by one run)", "why_tests_cant": "tests never repeat a run with mirrored data", "anchors": ["libmpdata++/bcond/rigid_2d.hpp: fill_halos_sclr, fill_halos_vctr_alng, fill_halos_flux", "libmpdata++/solvers/detail/mpdata_osc_2d.hpp: advop", "libmpdata++/solvers/detail/mpdata_fct_2d.hpp", "libmpdata++/formulae/donorcell_formulae.hpp: donorcell_sum"]}
{"id": "C111", "title": "Stresses do not depend on the orientation of the axes", "statement": "For flows with uniform gradients the dns and smg closures compute the same stress tensor in every orientation: turning (or mirroring) the flow turns the stresses. The eddy viscosity of smg is the squared constant times filter width, times half the sum of the squared components of the deformation.", "quantifier": "all orthogonal matrices, velocity gradients, grid spacings, constants, cells; two and three dimensions; normal, pade and compact differencing (compact without G factors); exact arithmetic", "why_tests_cant": "a test has one flow in one orientation; a wrong weight of shear relative to stretching changes values that no test has an independent value for", "anchors": ["libmpdata++/formulae/stress_formulae.hpp: calc_vgrad, calc_deform, calc_tdef_sq, calc_tdef_sq_cmpct, multiply_tnsr_cmpct", "libmpdata++/solvers/mpdata_rhs_vip_prs_sgs_smg.hpp: multiply_sgs_visc"]}
{"id": "C112", "title": "Shallow water steps by the trapezoidal rule", "statement": "Every step of the shallow-water solver transports depth and momenta with face velocities interpolated from velocities extrapolated to the middle of the step (3/2 of the present minus 1/2 of the previous ones; in the first step the initial ones), and adds half the pull of gravity before the transport and half of that of the new depths after it.", "quantifier": "all parameters with positive time step and non-zero grid steps, all initial states, every step of every run; two dimensions, cyclic domain, exact arithmetic", "why_tests_cant": "a test cannot tell a slightly different time stepping from a correct one: both give plausible waves", "anchors": ["libmpdata++/solvers/shallow_water.hpp: update_rhs, forcings_helper", "libmpdata++/solvers/mpdata_rhs.hpp: apply_rhs, hook_ante_step, hook_post_step", "libmpdata++/solvers/detail/mpdata_rhs_vip_common.hpp: fill_stash, extrp, calc_gc", "libmpdata++/solvers/mpdata_rhs_vip.hpp: interpolate_in_space"]}
{"id": "C113", "title": "Upwind transport in a closed box keeps sign and bounds", "statement": "In a box closed by rigid walls the scheme with one iteration keeps a non-negative advectee non-negative if no cell loses more than it contains, and within its bounds if the flow is also free of divergence. In cells next to walls the flow through the inner face counts twice, as half of the cell is inside: the usual limit on Courant numbers is not enough there.", "quantifier": "all options, G factors, scalings, numbers of equations, threads and steps, box sizes, fields and flows; two dimensions; exact arithmetic", "why_tests_cant": "tests with rigid walls use small Courant numbers at the walls and compare with tolerances", "anchors": ["libmpdata++/bcond/rigid_2d.hpp: fill_halos_sclr, fill_halos_vctr_alng, fill_halos_flux", "libmpdata++/solvers/detail/mpdata_osc_2d.hpp: advop, fluxes", "libmpdata++/formulae/donorcell_formulae.hpp: make_flux, donorcell_sum"]}
{"id": "C114", "title": "Upwind transport through open edges", "statement": "In a domain with open edges the result of the scheme with one iteration depends only on the advectee, the velocities and the G factors inside the domain; what the user left outside it does not matter. Cells at the edges mix with what their neighbours bring. A non-negative advectee stays non-negative if no inner cell loses more than it contains and no cell at the edges gets more from within than it can hold; it stays within its bounds if the flow is also free of divergence in the interior.", "quantifier": "all options, G factors, scalings, numbers of equations, threads and steps, domain sizes, fields, flows and contents of halos; two dimensions; exact arithmetic", "why_tests_cant": "tests with open edges compare single runs with tolerances and start from zeroed halos", "anchors": ["libmpdata++/bcond/open_2d.hpp: fill_halos_sclr, fill_halos_vctr_alng, fill_halos_vctr_nrml", "libmpdata++/solvers/detail/mpdata_osc_2d.hpp: advop, fluxes", "libmpdata++/formulae/donorcell_formulae.hpp: make_flux, donorcell_sum"]}
{"id": "C115", "title": "Open edges treat both axes alike", "statement": "Exchanging the axes of a problem in a domain with open edges exchanges the axes of its solution.", "quantifier": "all options, G factors, scalings, numbers of equations, threads and steps, domain sizes, fields and flows; two dimensions", "why_tests_cant": "tests run open domains in one orientation", "anchors": ["libmpdata++/bcond/open_2d.hpp: fill_halos_sclr, fill_halos_vctr_alng, fill_halos_vctr_nrml", "libmpdata++/solvers/detail/mpdata_osc_2d.hpp: advop, fluxes", "libmpdata++/formulae/donorcell_formulae.hpp: make_flux, donorcell_sum"]}
{"id": "C116", "title": "Files hold whole fields on any number of processes", "statement": "HDF5 output of a run distributed over processes holds the whole field: every value of every process is at its place, every element is written by exactly one process, and the result depends neither on the number of processes nor on the order in which they write. The same holds for coordinates of cell corners and for arrays stored with their halos; chunk sizes are admissible.", "quantifier": "all domain sizes, numbers of dimensions, processes, halo widths, orders of writing and previous content of the file", "why_tests_cant": "tests compare output of two or three processes on single grids, and only fields without halos", "anchors": ["libmpdata++/output/hdf5.hpp: start, record_dsc_helper, record_aux_halo_hlpr, record_aux_dsc, base_name", "libmpdata++/concurr/detail/sharedmem.hpp: sharedmem_common, slab"]}
{"id": "C117", "title": "Gathered fields are the whole field", "statement": "advectee_global() returns the whole field on every process, for any number of processes.", "quantifier": "all domain sizes, numbers of dimensions and processes", "why_tests_cant": "tests gather one small field", "anchors": ["libmpdata++/concurr/detail/distmem.hpp: get_global_array", "libmpdata++/concurr/detail/sharedmem.hpp: advectee_global"]}
{"id": "C118", "title": ".xmf files describe .h5 files", "statement": "Every .xmf file lists exactly the datasets in the .h5 file of its time step, with their dimensions, one value per cell of the mesh it describes; the temporal file lists the steps in the order of output. This also holds if auxiliary fields are recorded with record_aux.", "quantifier": "all grids, names of variables and sequences of output", "why_tests_cant": "tests do not parse .xmf files", "anchors": ["libmpdata++/output/hdf5_xdmf.hpp: start, record_all, write_xmfs, record_aux, record_aux_dsc", "libmpdata++/output/detail/xdmf_writer.hpp: setup, make_attribute, add_attribute, write, write_temporal"]}
{"id": "C119", "title": "File names sort by time", "statement": "Names of output files of different time steps differ, have equal lengths and sort alphabetically in the order of the steps.", "quantifier": "all pairs of time steps", "why_tests_cant": "tests only see a few steps", "anchors": ["libmpdata++/output/hdf5.hpp: base_name, hdf_name"]}
{"id": "C120", "title": "Output tells the parameters of a run", "statement": "const.h5 is written without conflicts and identifies the parameters of every layer of the solver that produced it: two runs of a solver with equal files have equal options, time and grid steps, iterations, schemes for right-hand sides, absorbers, pressure and subgrid models with their constants (to the precision of the file).", "quantifier": "all solvers, subgrid models, numbers of dimensions and values of parameters", "why_tests_cant": "tests check that files exist and look at a few attributes", "anchors": ["libmpdata++/output/hdf5.hpp: record_params", "libmpdata++/solvers/boussinesq.hpp: solver_family", "libmpdata++/solvers/mpdata_rhs_vip_prs_sgs.hpp: solver_family, sgs2string"]}
{"id": "C121", "title": "A channel between rigid walls keeps what it holds", "statement": "A 2D run that is cyclic along the first dimension and has rigid walls at both ends of the second keeps the sum of G times advectee (cells along the walls counted half, the repeated last column not at all), whatever the flow, options and number of threads, steps and equations.", "quantifier": "all grids, data whose last column repeats the first, options (more than two iterations of div_2nd, iga or dfl: those for which C51's stale reads cannot occur), threads, steps", "why_tests_cant": "tests sum a few configurations to some tolerance; mixed boundary conditions appear in no conservation test", "anchors": ["libmpdata++/bcond/rigid_2d.hpp", "libmpdata++/bcond/cyclic_2d.hpp", "libmpdata++/solvers/detail/mpdata_fct_2d.hpp", "libmpdata++/solvers/mpdata.hpp"]}
{"id": "C122", "title": "Runs in a channel know no place along it", "statement": "In the same channels the last column of the result repeats the first, moving all data along the channel moves the result by as much, and the result depends neither on the number of threads nor on memory the user has not written.", "quantifier": "all grids, arithmetics (including rounding ones), data, displacements, options as in C121, threads, steps", "why_tests_cant": "tests cannot enumerate initial memory, interleavings or displacements", "anchors": ["libmpdata++/bcond/rigid_2d.hpp", "libmpdata++/bcond/cyclic_2d.hpp", "libmpdata++/solvers/detail/solver_2d.hpp"]}
{"id": "C123", "title": "Rigid walls act as mirrors", "statement": "A 2D run in a channel (cyclic along the first dimension, rigid walls at both ends of the second) gives exactly what a run of the same options gives on a grid twice as wide and cyclic both ways, whose data beyond the wall are the mirror image (velocity across the channel reversed): the method of images.", "quantifier": "all grids, data whose last column repeats the first, options, threads, equations, steps, in exact arithmetic; up to two iterations for every option set, more without div_2nd and dfl (and with fct or without iga); refuted by one run for three iterations of fct, iga and div_2nd", "why_tests_cant": "tests have no run with walls and the corresponding one without; the failing combination is not covered by any", "anchors": ["libmpdata++/bcond/rigid_2d.hpp: fill_halos_sclr, fill_halos_vctr_alng, fill_halos_vctr_nrml, fill_halos_flux", "libmpdata++/bcond/cyclic_2d.hpp", "libmpdata++/solvers/detail/mpdata_osc_2d.hpp: advop", "libmpdata++/solvers/detail/mpdata_fct_2d.hpp"]}
{"id": "C124", "title": "Signs and bounds are kept between rigid walls", "statement": "In such channels non-negative fields stay non-negative (one iteration, fct, or the basic scheme with Courant numbers that add up to at most one half), and in divergence-free flow fields stay within their initial bounds (one iteration or fct), provided that no cell loses more than it contains, cells along a wall counted with their mirrored half.", "quantifier": "all grids, flows, fields, G factors, threads, equations, steps, options as in C123, in exact arithmetic", "why_tests_cant": "tests look at a few flows, none of them with walls and fct", "anchors": ["libmpdata++/bcond/rigid_2d.hpp", "libmpdata++/solvers/detail/mpdata_fct_2d.hpp", "libmpdata++/solvers/detail/mpdata_osc_2d.hpp", "libmpdata++/formulae/donorcell_formulae.hpp"]}
{"id": "C125", "title": "Constants and unit Courant numbers between rigid walls", "statement": "In such channels divergence-free flow leaves constant fields exactly as they are, and a uniform stream along the channel with Courant number 0, 1 or -1 moves any field by exactly that many columns in each step.", "quantifier": "all grids, flows, fields, threads, equations, steps, options as in C123 (and those of C55 and C59 on cyclic domains), in exact arithmetic", "why_tests_cant": "tests cover a handful of flows and tolerate rounding errors", "anchors": ["libmpdata++/bcond/rigid_2d.hpp", "libmpdata++/solvers/detail/mpdata_osc_2d.hpp: advop", "libmpdata++/formulae/mpdata/formulae_mpdata_2d.hpp"]}
{"id": "C126", "title": "A box is half of a channel", "statement": "A 2D run in a box closed by rigid walls gives exactly what a run of the same options gives in a channel twice as long (cyclic along the first dimension, the same walls at both ends of the second), whose data beyond the wall are the mirror image (velocity towards the wall reversed); with C123, walls on all sides act as mirrors.", "quantifier": "all grids, data, options, threads, equations, steps, in exact arithmetic; up to two iterations for every option set, more without div_2nd and dfl (and with fct or without iga); refuted by one run for three iterations of fct, iga and div_2nd", "why_tests_cant": "tests have no run in a box and the corresponding one with images; corners, where fills of both dimensions meet, are covered by none", "anchors": ["libmpdata++/bcond/rigid_2d.hpp: fill_halos_sclr, fill_halos_vctr_alng, fill_halos_vctr_nrml, fill_halos_flux", "libmpdata++/bcond/cyclic_2d.hpp", "libmpdata++/solvers/detail/mpdata_osc_2d.hpp: advop", "libmpdata++/solvers/detail/mpdata_fct_2d.hpp"]}
{"id": "C127", "title": "Signs and bounds are kept in closed boxes", "statement": "In boxes closed by rigid walls non-negative fields stay non-negative (one iteration, fct, or the basic scheme with Courant numbers that add up to at most one half), and in divergence-free flow fields stay within their initial bounds (one iteration or fct), provided that no cell loses more than it contains, cells along a wall counted with their mirrored half.", "quantifier": "all grids, flows, fields, G factors, threads, equations, steps, options as in C126, in exact arithmetic (C113: one iteration)", "why_tests_cant": "tests look at a few flows, none of them in a box with fct", "anchors": ["libmpdata++/bcond/rigid_2d.hpp", "libmpdata++/solvers/detail/mpdata_fct_2d.hpp", "libmpdata++/solvers/detail/mpdata_osc_2d.hpp", "libmpdata++/formulae/donorcell_formulae.hpp"]}
{"id": "C128", "title": "Constants in closed boxes", "statement": "In boxes closed by rigid walls divergence-free flow leaves constant fields exactly as they are.", "quantifier": "all grids, flows, constants, threads, equations, steps, options as in C126 (and those of C55 on cyclic domains), in exact arithmetic", "why_tests_cant": "tests cover a handful of flows and tolerate rounding errors", "anchors": ["libmpdata++/bcond/rigid_2d.hpp", "libmpdata++/solvers/detail/mpdata_osc_2d.hpp: advop", "libmpdata++/formulae/mpdata/formulae_mpdata_2d.hpp"]}
{"id": "C129", "title": "Mirrored channels and boxes give mirrored results", "statement": "The mirror image, along either axis, of the data of a channel between rigid walls or of a box closed by them gives the mirror image of the result, although fills at the first and the last wall are coded differently.", "quantifier": "all grids, data, threads, equations, steps, options as in C123, in exact arithmetic (C110: not so for the options left out)", "why_tests_cant": "tests run flows in one orientation only", "anchors": ["libmpdata++/bcond/rigid_2d.hpp", "libmpdata++/solvers/detail/mpdata_osc_2d.hpp", "libmpdata++/solvers/detail/mpdata_fct_2d.hpp"]}
{"id": "C130", "title": "Closed boxes prefer no axis", "statement": "Data with exchanged axes in the box with exchanged axes give the result with exchanged axes, although threads share the domain along the first axis and fills along the two axes are called in turn.", "quantifier": "all grids, data, numbers of threads in both runs, equations, steps, options as in C126, in exact arithmetic", "why_tests_cant": "tests run flows in one orientation only", "anchors": ["libmpdata++/bcond/rigid_2d.hpp", "libmpdata++/solvers/detail/solver_2d.hpp: xchng_sclr, xchng_vctr_alng, xchng_vctr_nrml", "libmpdata++/solvers/detail/mpdata_osc_2d.hpp"]}
{"id": "C131", "title": "Multiples, signs and sums between rigid walls", "statement": "In channels and boxes multiplying the initial values by a positive number (any nonzero one with abs) multiplies the results of the basic scheme; changing their sign changes that of the results (with iga or abs, flux correction included); results of the upwind scheme and of iga without flux correction superpose.", "quantifier": "all grids, flows, fields, factors, G factors, threads, equations, steps, options as in C123 and C126, in exact arithmetic", "why_tests_cant": "tests run single fields; no test compares runs of multiples or of sums between walls", "anchors": ["libmpdata++/bcond/rigid_2d.hpp", "libmpdata++/solvers/detail/mpdata_osc_2d.hpp: advop", "libmpdata++/formulae/mpdata/formulae_mpdata_2d.hpp", "libmpdata++/formulae/mpdata/formulae_mpdata_common.hpp"]}
{"id": "C132", "title": "Options for speed and precision do not change exact results between rigid walls", "statement": "In channels and boxes khn (compensated summation) and npa (positive and negative parts by abs in place of min and max) do not change results in exact arithmetic, nor does hint_scale (one iteration, or no flux correction).", "quantifier": "all grids, data, factors, threads, equations, steps, options as in C123 and C126, in exact arithmetic", "why_tests_cant": "tests compare such options, if at all, for single flows on cyclic domains", "anchors": ["libmpdata++/formulae/donorcell_formulae.hpp", "libmpdata++/formulae/kahan_sum.hpp", "libmpdata++/opts.hpp: khn, npa", "libmpdata++/bcond/rigid_2d.hpp", "libmpdata++/solvers/detail/solver_common.hpp: scale"]}
{"id": "C133", "title": "Uniform flow along a channel is one-dimensional", "statement": "A 2D run in a channel between rigid walls whose data do not vary across it, with no velocity towards the walls, gives in every row, those along the walls included, what the 1D solver gives for one row.", "quantifier": "all grids, data, numbers of threads in both runs, equations, steps, options as in C123 for which 1D and 2D formulae agree, in exact arithmetic", "why_tests_cant": "tests do not compare 1D and 2D runs", "anchors": ["libmpdata++/solvers/mpdata.hpp", "libmpdata++/solvers/detail/mpdata_osc_1d.hpp", "libmpdata++/solvers/detail/mpdata_osc_2d.hpp", "libmpdata++/bcond/rigid_2d.hpp"]}
{"id": "C134", "title": "Runs between rigid walls compute published MPDATA on mirrored data", "statement": "The result of a 2D run in a channel is that of the published algorithm on the plane, for data continued periodically along the channel and mirrored at its walls (velocities across them reversed); in a box, for data mirrored at all four walls.", "quantifier": "all grids, data, G factors, threads, equations, steps; iterations and options as in C123 and C60 (no abs, tot, dfl, div_2nd, third-order or scaling), in exact arithmetic", "why_tests_cant": "tests compare walled runs only with their own earlier output", "anchors": ["libmpdata++/bcond/rigid_2d.hpp: fill_halos_sclr, fill_halos_vctr_alng, fill_halos_vctr_nrml, fill_halos_flux", "libmpdata++/solvers/detail/mpdata_osc_2d.hpp: advop", "libmpdata++/solvers/detail/mpdata_fct_2d.hpp", "libmpdata++/formulae/mpdata/formulae_mpdata_2d.hpp"]}
{"id": "C135", "title": "Runs in closed boxes use only what users set", "statement": "In a closed 2D box (rigid walls on all sides) the result depends neither on the number of threads nor on memory the user has not written.", "quantifier": "all grids, data, contents of halos and other memory, numbers of threads, equations, steps, options as in C126, in exact arithmetic", "why_tests_cant": "tests cannot enumerate initial memory or interleavings", "anchors": ["libmpdata++/bcond/rigid_2d.hpp", "libmpdata++/solvers/detail/solver_2d.hpp", "libmpdata++/solvers/detail/mpdata_osc_2d.hpp"]}
{"id": "C136", "title": "Surface drag is all the momentum viscous forces exchange", "statement": "The stress at the surface is drag coefficient times density times wind speed times velocity, and with every closure (compact differencing) the horizontal momentum that viscous forces add up to (weights G, half weight for the outermost levels) is minus that stress over the level spacing, doubled as forces act over half a time step: nothing else is gained or lost at ground, lid or inside.", "quantifier": "2D and 3D, all closures, sizes (at least two levels), spacings, winds, G, drag coefficients of either sign", "why_tests_cant": "tests run one drag coefficient and compare with stored output", "anchors": ["libmpdata++/formulae/stress_formulae.hpp: calc_drag_cmpct, calc_stress_rhs_cmpct", "libmpdata++/bcond/gndsky_2d.hpp", "libmpdata++/bcond/gndsky_3d.hpp", "libmpdata++/bcond/rigid_3d.hpp", "libmpdata++/solvers/detail/mpdata_rhs_vip_prs_sgs_common.hpp: vip_rhs_expl_calc"]}
{"id": "C137", "title": "Drag slows the lowest level only", "statement": "With constant viscosity switching drag on changes horizontal forces on the lowest level only, by the drag of the two adjacent faces, and takes kinetic energy out of the flow.", "quantifier": "2D and 3D, all sizes (at least two levels), spacings, viscosities, winds, densities, nonnegative drag coefficients", "why_tests_cant": "a sign error for some wind directions can go unnoticed in single runs", "anchors": ["libmpdata++/formulae/stress_formulae.hpp: calc_drag_cmpct", "libmpdata++/bcond/gndsky_2d.hpp", "libmpdata++/bcond/gndsky_3d.hpp", "libmpdata++/solvers/detail/mpdata_rhs_vip_prs_sgs_dns.hpp"]}
{"id": "C138", "title": "The unit of density does not matter to eddy viscosities", "statement": "Multiplying the density (G) by a positive constant leaves the horizontal forces of the Smagorinsky closures above a ground as they are. Holds without drag; with drag the code violates it, as the surface stress enters the strain from which the eddy viscosity is computed.", "quantifier": "2D and 3D, smg and smgani, compact differencing, all sizes, spacings, winds, densities, factors; refuted with drag by one wind profile", "why_tests_cant": "tests use one density profile each", "anchors": ["libmpdata++/solvers/detail/mpdata_rhs_vip_prs_sgs_common.hpp: vip_rhs_expl_calc", "libmpdata++/solvers/detail/mpdata_rhs_vip_prs_sgs_smg.hpp: multiply_sgs_visc", "libmpdata++/bcond/gndsky_2d.hpp: fill_halos_sgs_tnsr", "libmpdata++/formulae/stress_formulae.hpp: calc_drag_cmpct, calc_tdef_sq_cmpct"]}
{"id": "C139", "title": "Viscous forces above a ground never feed energy", "statement": "With every closure, with or without drag, viscous forces (compact differencing, unit density) take out of flows that pass neither ground nor lid at least the work of the surface drag, which is never negative.", "quantifier": "2D and 3D, dns (nonnegative viscosity), smg and smgani, all sizes (at least two levels), spacings, winds without flow through ground and lid, nonnegative drag coefficients", "why_tests_cant": "tests do not measure energy of viscous forces; single runs cannot show a sign for all flows", "anchors": ["libmpdata++/solvers/detail/mpdata_rhs_vip_prs_sgs_common.hpp: vip_rhs_expl_calc", "libmpdata++/formulae/stress_formulae.hpp: calc_deform_cmpct, calc_stress_rhs_cmpct, calc_drag_cmpct", "libmpdata++/bcond/gndsky_2d.hpp", "libmpdata++/bcond/gndsky_3d.hpp", "libmpdata++/bcond/rigid_3d.hpp"]}
{"id": "C140", "title": "Flow in a plane is slowed alike in two dimensions and in three", "statement": "For a flow over x and height that does not vary along y, viscous forces with drag in three dimensions are those in two dimensions, and none acts along y. Holds for unit density; where density varies the code violates it, as the divergence is taken out of the strain by halves in 2D and by thirds in 3D.", "quantifier": "dns, compact differencing, unit density: all sizes, spacings, viscosities, drag coefficients, flows; refuted with varying density by one flow", "why_tests_cant": "2D and 3D boundary conditions and formulae are separate code; tests compare neither with the other", "anchors": ["libmpdata++/bcond/gndsky_2d.hpp", "libmpdata++/bcond/gndsky_3d.hpp", "libmpdata++/bcond/rigid_2d.hpp", "libmpdata++/bcond/rigid_3d.hpp", "libmpdata++/formulae/stress_formulae.hpp: calc_deform_cmpct, calc_drag_cmpct, calc_stress_rhs_cmpct"]}
{"id": "C141", "title": "Viscous forces use no values from outside of the domain", "statement": "Viscous forces in the cells of the domain (compact differencing, ground and lid, with or without drag) depend on velocities and densities in these cells only; whatever memory below the ground or above the lid holds does not matter.", "quantifier": "2D and 3D, all closures, at least three levels, all velocities, densities, spacings, drag coefficients, contents of the other levels", "why_tests_cant": "tests cannot enumerate contents of memory; a stray read usually finds a plausible number", "anchors": ["libmpdata++/solvers/detail/mpdata_rhs_vip_prs_sgs_common.hpp: vip_rhs_expl_calc", "libmpdata++/formulae/stress_formulae.hpp: calc_vip_div_cmpct, calc_deform_cmpct, calc_drag_cmpct, calc_stress_rhs_cmpct", "libmpdata++/bcond/gndsky_2d.hpp", "libmpdata++/bcond/gndsky_3d.hpp", "libmpdata++/bcond/rigid_2d.hpp", "libmpdata++/bcond/rigid_3d.hpp"]}
{"id": "C142", "title": "Without drag the mean wind does not matter", "statement": "Adding constants to the horizontal velocities leaves viscous forces above a ground without drag as they are.", "quantifier": "2D and 3D, all closures (compact differencing), velocities, densities, spacings, constants", "why_tests_cant": "tests run in one frame of reference", "anchors": ["libmpdata++/solvers/detail/mpdata_rhs_vip_prs_sgs_common.hpp: vip_rhs_expl_calc", "libmpdata++/formulae/stress_formulae.hpp: calc_deform_cmpct", "libmpdata++/bcond/gndsky_2d.hpp", "libmpdata++/bcond/gndsky_3d.hpp", "libmpdata++/bcond/rigid_2d.hpp", "libmpdata++/bcond/rigid_3d.hpp"]}
{"id": "C143", "title": "No direction along the ground is preferred", "statement": "With ground, lid and drag, reversing all velocities reverses viscous forces; the mirror image of a flow (x reversed) gets the mirror image of the forces; interchanging x and y (with their spacings) interchanges the forces along them.", "quantifier": "2D and 3D (interchange in 3D), all closures (compact differencing), flows, densities, spacings, drag coefficients, levels", "why_tests_cant": "tests blow wind in one direction", "anchors": ["libmpdata++/solvers/detail/mpdata_rhs_vip_prs_sgs_common.hpp: vip_rhs_expl_calc", "libmpdata++/formulae/stress_formulae.hpp: calc_drag_cmpct, calc_deform_cmpct, calc_tdef_sq_cmpct, calc_stress_rhs_cmpct", "libmpdata++/bcond/gndsky_2d.hpp", "libmpdata++/bcond/gndsky_3d.hpp", "libmpdata++/bcond/rigid_2d.hpp", "libmpdata++/bcond/rigid_3d.hpp"]}
{"id": "C144", "title": "Mixing makes no new extremes of temperature", "statement": "Without surface heat flux the heating by turbulent mixing is not positive in the hottest cell of the domain and not negative in the coldest one, at ground and lid too.", "quantifier": "2D and 3D, at least two levels, all temperatures, nonnegative viscosities, positive densities, spacings and Prandtl numbers", "why_tests_cant": "extremes can sit anywhere, tests see a few profiles", "anchors": ["libmpdata++/solvers/detail/boussinesq_sgs_common.hpp: multiply_sgs_visc", "libmpdata++/formulae/stress_formulae.hpp: multiply_vctr_cmpct, flux_div_cmpct", "libmpdata++/formulae/nabla_formulae.hpp: calc_grad_cmpct", "libmpdata++/bcond/gndsky_3d.hpp", "libmpdata++/bcond/rigid_3d.hpp"]}
{"id": "C145", "title": "Heatings add up", "statement": "For given viscosities the heating by mixing and surface flux is linear in temperature and surface flux, and adding a constant to temperature changes nothing.", "quantifier": "2D and 3D, all temperatures, surface fluxes, viscosities, densities, factors", "why_tests_cant": "a statement about all pairs of fields", "anchors": ["libmpdata++/solvers/detail/boussinesq_sgs_common.hpp: multiply_sgs_visc", "libmpdata++/formulae/stress_formulae.hpp: multiply_vctr_cmpct, flux_div_cmpct", "libmpdata++/formulae/nabla_formulae.hpp: calc_grad_cmpct", "libmpdata++/bcond/gndsky_3d.hpp", "libmpdata++/bcond/rigid_3d.hpp"]}
{"id": "C146", "title": "Heating uses no values from outside of the domain", "statement": "The heating of the cells of the domain depends on temperatures, viscosities and densities in these cells only.", "quantifier": "2D and 3D, at least two levels, all fields and all contents of the levels below the ground and above the lid", "why_tests_cant": "tests cannot enumerate contents of memory", "anchors": ["libmpdata++/solvers/detail/boussinesq_sgs_common.hpp: multiply_sgs_visc", "libmpdata++/formulae/stress_formulae.hpp: multiply_vctr_cmpct, flux_div_cmpct", "libmpdata++/formulae/nabla_formulae.hpp: calc_grad_cmpct", "libmpdata++/bcond/gndsky_3d.hpp", "libmpdata++/bcond/rigid_3d.hpp"]}
{"id": "C147", "title": "Heating does not depend on the horizontal axes", "statement": "For given viscosities, temperatures that do not vary along y are heated in three dimensions as in two; mirror images (x reversed) are heated alike, and so are fields with x and y interchanged (with their spacings).", "quantifier": "2D and 3D, all levels, temperatures, viscosities (isotropic or not), densities, surface fluxes, spacings", "why_tests_cant": "2D and 3D fluxes are separate code; tests compare neither with the other nor mirror images", "anchors": ["libmpdata++/solvers/detail/boussinesq_sgs_common.hpp: multiply_sgs_visc", "libmpdata++/formulae/stress_formulae.hpp: multiply_vctr_cmpct, flux_div_cmpct", "libmpdata++/formulae/nabla_formulae.hpp: calc_grad_cmpct", "libmpdata++/bcond/gndsky_2d.hpp", "libmpdata++/bcond/gndsky_3d.hpp", "libmpdata++/bcond/rigid_3d.hpp"]}

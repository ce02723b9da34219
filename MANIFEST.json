{"claims": [
{"property": "C01", "status": "proved", "theorems": ["C01_slab_partition", "C01_nested_partition"], "note": "ordered, balanced partition for every span and thread count; nested process/thread decomposition as corollary"},
{"property": "C02", "status": "proved", "theorems": ["C02_slab_int32_exact", "C02_slab_int32_refuted"], "note": "exact within the stated guard; outside it the product overflows (witness: 1e9 cells, 4 threads)"},
{"property": "C03", "status": "proved", "theorems": ["C03_advectee_newest", "C03_arrvec_index", "C03_arrvec_index_deep_refuted"], "note": "any number of steps, iterations, filter frequency, valid delayed mask; array-vector indexing exact for one negative period and for two time levels (a vector of 3 entries would be indexed wrongly at -4, not used by the code)"},
{"property": "C04", "status": "proved", "theorems": ["C04_stray_mask_refuted"], "note": "settled by refutation: the code returns a stale buffer; witness with one equation, mask bit 1, one pass"},
{"property": "C05", "status": "proved", "theorems": ["C05_advance_exact", "C05_advance_nonpositive", "C05_advance_additive", "C05_advance_beyond_int_refuted"], "note": "for arbitrary user hooks; total number of steps limited to 2^31-1, beyond which advance() does nothing (refuted)"},
{"property": "C06", "status": "proved", "theorems": ["C06_hook_order", "C06_each_equation_once"], "note": "complete call trace for every history of advance() calls"},
{"property": "C07", "status": "proved", "theorems": ["C07_panic_stops"], "note": "flag read at the loop head only; all threads assumed to read the same value (see C48)"},
{"property": "C08", "status": "proved", "theorems": ["C08_var_dt_reaches_target", "C08_var_dt_terminates"], "note": "rational arithmetic for time; any sequence of step lengths"},
{"property": "C09", "status": "proved", "theorems": ["C09_rescaled", "C09_at_rest", "C09_one_dimension_g_factor_refuted"], "note": "1D/2D/3D, any thread count and halo rule, exact arithmetic; in 1D with a G factor the Courant number ignores G (witness)"},
{"property": "C10", "status": "proved", "theorems": ["C10_hint_scale", "C10_hint_scale_fct_refuted"], "note": "Exact real arithmetic (stdlib real axioms). Whole runs: any number of steps, equations, threads, any interleaving. Transparent without fct (pfc or iga, or one iteration); with fct a witness shows that results change, because the limiters add a constant of fixed size to denominators. 1D."},
{"property": "C11", "status": "proved", "theorems": ["C11_gc_buffers"], "note": "all iteration counts"},
{"property": "C12", "status": "proved", "theorems": ["C12_barrier_safe", "C12_barrier_progress", "C12_barrier_work_monotone"], "note": "every schedule, any number of parties, spurious wake-ups included; calls numbered up to 2^32"},
{"property": "C13", "status": "proved", "theorems": ["C13_barrier_long_run_refuted"], "note": "settled by refutation: after 2^32 generations a thread falls through the barrier"},
{"property": "C14", "status": "proved", "theorems": ["C14_parties_1d_2d", "C14_parties_3d_refuted"], "note": "holds in 1D and 2D, refuted in 3D (both directions of the mismatch)"},
{"property": "C15", "status": "proved", "theorems": ["C15_threads_agree", "C15_threads_finish"], "note": "1D solver, all option sets that compile, cyclic/open edges, any arithmetic, all interleavings; panic, MPI and user hooks not in the program"},
{"property": "C16", "status": "proved", "theorems": ["C16_race_free_refuted"], "note": "settled by refutation: neighbouring 1D threads both write the shared face; C15 shows that the race is benign"},
{"property": "C17", "status": "proved", "theorems": ["C17_threads_agree", "C17_threads_finish", "C17_fct_threads_agree_refuted"], "note": "Proved for every option set that compiles except fct without iga, all combinations of cyclic, open and rigid edges. For fct without iga the property is false: two interleavings of two threads give different results (unsynchronised read of flux[0](first-2))."},
{"property": "C18", "status": "proved", "theorems": ["C18_sum", "C18_sum_threads", "C18_sum_exact", "C18_extrema", "C18_finish", "C18_race_free"], "note": "any arithmetic, any sequence of reduction calls, any interleaving; shared-memory reductions (no MPI)"},
{"property": "C19", "status": "proved", "theorems": ["C19_accesses_allocated"], "note": "1D solver, all options, threads, steps; cyclic and open edges; grid with at least halo+1 cells."},
{"property": "C20", "status": "proved", "theorems": ["C20_no_stale_data", "C20_no_stale_data_refuted"], "note": "Proved for 1D except div_2nd without fct with 3 or more iterations, for which it is refuted by a concrete run (third pass reads never-filled halo faces of the corrected advector)."},
{"property": "C21", "status": "proved", "theorems": ["C21_cyclic_halo_cells", "C21_cyclic_halo_faces"], "note": "1D halo exchanges of cell- and face-centred arrays."},
{"property": "C22", "status": "proved", "theorems": ["C22_cyclic_edge", "C22_cyclic_edge_refuted"], "note": "Proved for 1D except div_2nd without fct with 3 or more iterations, where it is refuted."},
{"property": "C23", "status": "proved", "theorems": ["C23_conservation", "C23_conservation_refuted"], "note": "Exact real arithmetic (stdlib real axioms). Whole runs: any number of steps, equations, threads, any interleaving. The refuted theorem gives a run with div_2nd, no fct, three iterations, excluded by no_stale in the positive theorem."},
{"property": "C24", "status": "proved", "theorems": ["C24_translation"], "note": "1D, any arithmetic (bitwise equality); same exception as C20 excluded by hypothesis."},
{"property": "C25", "status": "proved", "theorems": ["C25_mirror"], "note": "Exact real arithmetic (stdlib real axioms). Whole runs: any number of steps, equations, threads, any interleaving. "},
{"property": "C26", "status": "proved", "theorems": ["C26_open_mirror", "C26_open_mirror_refuted"], "note": "Exact real arithmetic (stdlib real axioms). Whole runs: any number of steps, equations, threads, any interleaving. Halo width 1 proved; settled by refutation for halo width 2."},
{"property": "C27", "status": "proved", "theorems": ["C27_scalar_mirrored", "C27_no_flow_at_wall", "C27_mass", "C27_mirror", "C27_antidiffusive_mirror_refuted"], "note": "Loops of rigid_2d.hpp for any halo width and domain, exact arithmetic. Mirror symmetry is refuted for the halo of antidiffusive velocities at the right wall (two or more halo points)."},
{"property": "C28", "status": "proved", "theorems": ["C28_antipode", "C28_involution", "C28_rows", "C28_even_longitudes_refuted", "C28_right_pole_velocity_refuted"], "note": "Any value type, halo width, odd number of longitudes. Refuted for an even number of longitudes, and for the zonal velocity halo beyond the right pole (off by one row)."},
{"property": "C29", "status": "proved", "theorems": ["C29_scalars", "C29_vectors", "C29_no_deadlock", "C29_ends", "C29_gather"], "note": "All interleavings of processes, rendezvous messages, one dimension, any process count >= 2, any values."},
{"property": "C30", "status": "proved", "theorems": ["C30_upwind_sign", "C30_upwind_bounds"], "note": "Exact real arithmetic (stdlib real axioms). Whole runs: any number of steps, equations, threads, any interleaving. "},
{"property": "C31", "status": "proved", "theorems": ["C31_constants"], "note": "Exact real arithmetic (stdlib real axioms). Whole runs: any number of steps, equations, threads, any interleaving. Hypotheses exclude division of zero by zero."},
{"property": "C32", "status": "proved", "theorems": ["C32_positive_definite", "C32_infinite_gauge_refuted"], "note": "Exact real arithmetic (stdlib real axioms). Whole runs: any number of steps, equations, threads, any interleaving. "},
{"property": "C33", "status": "proved", "theorems": ["C33_fct_sign", "C33_fct_bounds", "C33_fct_local"], "note": "Exact real arithmetic (stdlib real axioms). Whole runs: any number of steps, equations, threads, any interleaving. "},
{"property": "C34", "status": "proved", "theorems": ["C34_limiter"], "note": "Stated for the limiting stage of the functional form which all runs compute (C49_functional_form)."},
{"property": "C35", "status": "proved", "theorems": ["C35_unit_courant"], "note": "Exact real arithmetic (stdlib real axioms). Whole runs: any number of steps, equations, threads, any interleaving. "},
{"property": "C36", "status": "proved", "theorems": ["C36_multiples", "C36_sign_symmetry"], "note": "Exact real arithmetic (stdlib real axioms). Whole runs: any number of steps, equations, threads, any interleaving. "},
{"property": "C37", "status": "proved", "theorems": ["C37_exact_options"], "note": "Exact real arithmetic (stdlib real axioms). Whole runs: any number of steps, equations, threads, any interleaving. "},
{"property": "C38", "status": "proved", "theorems": ["C38_euler_a", "C38_euler_b", "C38_trapez"], "note": "any arithmetic, advection, forcing, mask, number of equations, history of advance() calls"},
{"property": "C39", "status": "proved", "theorems": ["C39_prediction", "C39_derivatives", "C39_density_derivative_refuted", "C39_stash_allocated"], "note": "constant and adaptive steps, with and without third order, any start contents; with vip_den and third-order options the time derivatives mix momentum and velocity (witness)"},
{"property": "C40", "status": "proved", "theorems": ["C40_divergence", "C40_predicted"], "note": "1D/2D/3D, with or without G"},
{"property": "C41", "status": "proved", "theorems": ["C41_implicit", "C41_explicit", "C41_off", "C41_fixed_point", "C41_implicit_stable", "C41_bounded", "C41_no_overshoot", "C41_implicit_with_advection_refuted", "C41_explicit_refuted"], "note": "any advection, coefficient field, sequence of step lengths; implicit form is unconditionally stable in still flow only (witness with advection)"},
{"property": "C42", "status": "proved", "theorems": ["C42_mr_ends", "C42_gcrk_ends", "C42_mr_tolerance", "C42_mr_advector", "C42_mr_monotone", "C42_gcrk_monotone", "C42_gcrk_mean_square", "C42_gcrk_tolerance_refuted", "C42_unchanged", "C42_absorber_at_open_edge_refuted"], "note": "Exact arithmetic. C42_mr_advector without G (with G the halo values of G times u and of the extrapolated product differ). Two parts of the natural claim are refuted: the conjugate residual solver does not guarantee the tolerance in each cell, and an implicit absorber acting at an open edge breaks it for both solvers."},
{"property": "C43", "status": "proved", "theorems": ["C43_recorded_steps", "C43_time_axis", "C43_time_axis_short_run_refuted", "C43_time_axis_second_call_refuted", "C43_long_window_refuted", "C43_leading_zero_refuted"], "note": "any solver, history of advance() calls, interval, start, window<=interval; counterexamples: run shorter than outstart, second advance(), long window, leading advance(0)"},
{"property": "C44", "status": "proved", "theorems": ["C44_first_order", "C44_second_order", "C44_between", "C44_exact_quadratic", "C44_long_step_refuted", "C44_second_order_refuted"], "note": "any step lengths not longer than the output interval (second order: any two consecutive ones), exact arithmetic; counterexamples otherwise"},
{"property": "C45", "status": "proved", "theorems": ["C45_flags_independent", "C45_names_determine_flags_except_div_3rd_dt", "C45_names_refuted", "C45_most_significant"], "note": "holds for all flags but div_3rd_dt, for which it is refuted; highest bit with exact logarithms"},
{"property": "C46", "status": "proved", "theorems": ["C46_pi2", "C46_pi3"], "note": "index permutation part"},
{"property": "C47", "status": "proved", "theorems": ["C47_thread_count_range", "C47_zero_threads_refuted"], "note": "range holds unless the environment value is 0 modulo 2^32, for which it is refuted"},
{"property": "C48", "status": "proved", "theorems": ["C48_panic_agreement", "C48_panic_no_deadlock", "C48_panic_stops", "C48_panic_any_time_refuted"], "note": "The flag is a plain bool read by all threads (also a C++ data race); modelled as sequentially consistent. The last theorem refutes the claim for flags set at arbitrary moments."},
{"property": "C49", "status": "proved", "theorems": ["C49_mpdata", "C49_functional_form"], "note": "Exact real arithmetic (stdlib real axioms). Whole runs: any number of steps, equations, threads, any interleaving. C49_functional_form holds for any arithmetic."},
{"property": "C50", "status": "proved", "theorems": ["C50_superposition"], "note": "Exact real arithmetic (stdlib real axioms). Whole runs: any number of steps, equations, threads, any interleaving. "},
{"property": "C51", "status": "proved", "theorems": ["C51_no_stale_data_2d", "C51_no_stale_data_2d_refuted"], "note": "Proved for cyclic edges; the excluded case (div_2nd, no fct, three iterations) is refuted by a concrete run."},
{"property": "C52", "status": "proved", "theorems": ["C52_cyclic_edges_2d", "C52_cyclic_edges_2d_refuted"], "note": "Same hypotheses and same excluded case as C51."},
{"property": "C53", "status": "proved", "theorems": ["C53_translation_2d"], "note": "Any arithmetic; same hypotheses as C51."},
{"property": "C54", "status": "proved", "theorems": ["C54_conservation_2d"], "note": "2D cyclic runs, exact arithmetic."},
{"property": "C55", "status": "proved", "theorems": ["C55_constants_2d", "C55_constants_2d_refuted"], "note": "Proved except for div_3rd with spatial part exact/aver2 in nonuniform flow, where a concrete run refutes it."},
{"property": "C56", "status": "proved", "theorems": ["C56_upwind_sign_2d", "C56_upwind_bounds_2d"], "note": "2D cyclic runs, exact arithmetic."},
{"property": "C57", "status": "proved", "theorems": ["C57_positive_definite_2d", "C57_positive_definite_2d_refuted", "C57_infinite_gauge_2d_refuted"], "note": "Proved for Courant sums up to 1/2 and G within a factor of two; refuted for Courant sum 1 and for iga. Sums strictly between are not decided."},
{"property": "C58", "status": "proved", "theorems": ["C58_fct_sign_2d", "C58_fct_bounds_2d"], "note": "fct without iga: one thread (C17)."},
{"property": "C59", "status": "proved", "theorems": ["C59_unit_courant_2d", "C59_unit_courant_2d_refuted"], "note": "Refuted for div_2nd without iga; div_3rd_dt with div_2nd is excluded."},
{"property": "C60", "status": "proved", "theorems": ["C60_mpdata_2d"], "note": "Exact real arithmetic. Published formulae are in SpecMpdata2.v, written without reference to the model."},
{"property": "C61", "status": "proved", "theorems": ["C61_mirror_2d"], "note": "Exact real arithmetic; doubly cyclic domains."},
{"property": "C62", "status": "proved", "theorems": ["C62_transpose_2d"], "note": "Exact real arithmetic; doubly cyclic domains."},
{"property": "C63", "status": "proved", "theorems": ["C63_multiples_2d", "C63_sign_symmetry_2d"], "note": "Exact real arithmetic. The sign symmetry with iga is for at most two passes, as iga requires."},
{"property": "C64", "status": "proved", "theorems": ["C64_superposition_2d"], "note": "Exact real arithmetic."},
{"property": "C65", "status": "proved", "theorems": ["C65_hint_scale_2d"], "note": "Exact real arithmetic. With flux correction it fails already in 1D (C10)."},
{"property": "C66", "status": "proved", "theorems": ["C66_exact_options_2d"], "note": "Exact real arithmetic."},
{"property": "C67", "status": "proved", "theorems": ["C67_one_dimensional_flow", "C67_one_dimensional_flow_refuted"], "note": "Exact real arithmetic. Refuted for div_3rd without iga (different denominators in 1D and 2D)."},
{"property": "C68", "status": "proved", "theorems": ["C68_threads_agree_3d", "C68_threads_finish_3d", "C68_fct_threads_agree_3d_refuted", "C68_scratch_agrees_3d_refuted"], "note": "Fails for fct without iga and two or more threads (witness), as in 2D. Scratch memory (far corners of the first component of the corrected advector) does depend on the scheduling: its halo is filled along y and z between the same two barriers (witness)."},
{"property": "C69", "status": "proved", "theorems": ["C69_no_stale_data_3d", "C69_no_stale_data_3d_refuted"], "note": "Proved with the stated exception; for div_2nd without fct and three iterations a witness shows dependence on uninitialised memory."},
{"property": "C70", "status": "proved", "theorems": ["C70_cyclic_edges_3d", "C70_cyclic_edges_3d_refuted"], "note": "Same exception as C69, with witness."},
{"property": "C71", "status": "proved", "theorems": ["C71_translation_3d"], "note": "Same exception as C69."},
{"property": "C72", "status": "proved", "theorems": ["C72_conservation_3d"], "note": "3D cyclic runs, exact arithmetic."},
{"property": "C73", "status": "proved", "theorems": ["C73_constants_3d", "C73_constants_3d_refuted"], "note": "Proved except for div_3rd with spatial part exact/aver2 in nonuniform flow, where a concrete run refutes it."},
{"property": "C74", "status": "proved", "theorems": ["C74_upwind_sign_3d", "C74_upwind_bounds_3d"], "note": "3D cyclic runs, exact arithmetic."},
{"property": "C75", "status": "proved", "theorems": ["C75_positive_definite_3d", "C75_positive_definite_3d_refuted", "C75_infinite_gauge_3d_refuted"], "note": "Proved for Courant sums up to 1/2 with uniform G, and up to 6/(11+passes) with G within a factor of two; refuted for Courant sum 1 and for iga. Sums strictly between are not decided."},
{"property": "C76", "status": "proved", "theorems": ["C76_fct_sign_3d", "C76_fct_bounds_3d"], "note": "3D cyclic runs, exact arithmetic."},
{"property": "C77", "status": "proved", "theorems": ["C77_unit_courant_3d", "C77_unit_courant_3d_refuted"], "note": "Refuted for div_2nd without iga by a concrete run."},
{"property": "C78", "status": "proved", "theorems": ["C78_mpdata_3d"], "note": "SpecMpdata3.v is a transcription of the published scheme without reference to the code. 3D solver with cyclic edges only; exact real arithmetic; one thread with fct and without iga."},
{"property": "C79", "status": "proved", "theorems": ["C79_mirror_3d"], "note": "All options. 3D solver with cyclic edges only; exact real arithmetic; one thread with fct and without iga."},
{"property": "C80", "status": "proved", "theorems": ["C80_permute_axes_3d"], "note": "All options, all six permutations. 3D solver with cyclic edges only; exact real arithmetic; one thread with fct and without iga."},
{"property": "C81", "status": "proved", "theorems": ["C81_multiples_3d", "C81_sign_symmetry_3d"], "note": "3D solver with cyclic edges only; exact real arithmetic; one thread with fct and without iga."},
{"property": "C82", "status": "proved", "theorems": ["C82_superposition_3d"], "note": "3D solver with cyclic edges only; exact real arithmetic; one thread with fct and without iga."},
{"property": "C83", "status": "proved", "theorems": ["C83_hint_scale_3d"], "note": "3D solver with cyclic edges only; exact real arithmetic; one thread with fct and without iga."},
{"property": "C84", "status": "proved", "theorems": ["C84_exact_options_3d"], "note": "fot being ignored by the 3D formulae is a finding: the option is accepted silently. 3D solver with cyclic edges only; exact real arithmetic; one thread with fct and without iga."},
{"property": "C85", "status": "proved", "theorems": ["C85_two_dimensional_flow", "C85_two_dimensional_flow_refuted"], "note": "Proved without div_2nd or with iga; refuted for div_2nd without iga by a concrete run of both solvers over the rationals. 3D solver with cyclic edges only; exact real arithmetic; one thread with fct and without iga."},
{"property": "C86", "status": "proved", "theorems": ["C86_viscous_force_exact"], "note": "Velocities and viscosities over the reals on an unbounded (periodic where stated) lattice; threads, halo exchange and surface drag not included."},
{"property": "C87", "status": "proved", "theorems": ["C87_no_momentum_created"], "note": "Velocities and viscosities over the reals on an unbounded (periodic where stated) lattice; threads, halo exchange and surface drag not included."},
{"property": "C88", "status": "proved", "theorems": ["C88_no_energy_fed", "C88_energy_rate"], "note": "Velocities and viscosities over the reals on an unbounded (periodic where stated) lattice; threads, halo exchange and surface drag not included."},
{"property": "C89", "status": "proved", "theorems": ["C89_rigid_motion"], "note": "Velocities and viscosities over the reals on an unbounded (periodic where stated) lattice; threads, halo exchange and surface drag not included."},
{"property": "C90", "status": "proved", "theorems": ["C90_eddy_force_quadratic_refuted", "C90_eddy_force_cubic"], "note": "The property is false of the code: refuted by a witness; the power that does hold is proved. Velocities and viscosities over the reals on an unbounded (periodic where stated) lattice; threads, halo exchange and surface drag not included."},
{"property": "C91", "status": "proved", "theorems": ["C91_planar_flow_constant", "C91_planar_flow_eddy_refuted"], "note": "True for constant viscosity; refuted by a witness for smg. Velocities and viscosities over the reals on an unbounded (periodic where stated) lattice; threads, halo exchange and surface drag not included."},
{"property": "C92", "status": "proved", "theorems": ["C92_trapezoidal_steps"], "note": "Fields over the reals on the lattice of cells; advection, pressure solver and closure are arbitrary functions; fixed time step; edge values set by open and rigid edges not included."},
{"property": "C93", "status": "proved", "theorems": ["C93_wave_energy_kept", "C93_wave_energy_never_grows", "C93_flow_energy_kept", "C93_flow_energy_never_grows"], "note": "Fields over the reals on the lattice of cells; advection, pressure solver and closure are arbitrary functions; fixed time step; edge values set by open and rigid edges not included."},
{"property": "C94", "status": "proved", "theorems": ["C94_rest_stays"], "note": "Fields over the reals on the lattice of cells; advection, pressure solver and closure are arbitrary functions; fixed time step; edge values set by open and rigid edges not included."},
{"property": "C95", "status": "proved", "theorems": ["C95_heat_budget", "C95_heat_budget_closure", "C95_closure_heat_refuted"], "note": "False with a closure: refuted by a witness, exact total proved. Fields over the reals on the lattice of cells; advection, pressure solver and closure are arbitrary functions; fixed time step; edge values set by open and rigid edges not included."},
{"property": "C96", "status": "proved", "theorems": ["C96_smoothing_keeps_total", "C96_smoothing_keeps_bounds", "C96_smoothing_removes_waves"], "note": "Fields over the reals on the lattice of cells; advection, pressure solver and closure are arbitrary functions; fixed time step; edge values set by open and rigid edges not included."},
{"property": "C97", "status": "proved", "theorems": ["C97_eddy_viscosity", "C97_critical_richardson", "C97_stratification_damps", "C97_unstable_rest_refuted"], "note": "False without shear under unstable stratification: refuted by a witness. One cell and its faces; numbers with infinities and NaN, otherwise exact."},
{"property": "C98", "status": "proved", "theorems": ["C98_surface_flux_budget", "C98_mixing_reduces_variance"], "note": "Horizontally periodic fields over the reals, ground and lid as set by the boundary conditions; eddy viscosity arbitrary."},
{"property": "C99", "status": "proved", "theorems": ["C99_race_free_2d", "C99_race_free_fct_refuted", "C99_race_free_3d_refuted"], "note": "proved for 2D without fct; refuted (for every run with at least two threads) with fct and in 3D"},
{"property": "C100", "status": "proved", "theorems": ["C100_shallow_water_conserves"], "note": ""},
{"property": "C101", "status": "proved", "theorems": ["C101_uniform_current_stays"], "note": ""},
{"property": "C102", "status": "proved", "theorems": ["C102_depth_not_negative", "C102_depth_not_negative_basic"], "note": ""},
{"property": "C103", "status": "proved", "theorems": ["C103_mirror_image", "C103_axes_exchanged"], "note": ""},
{"property": "C104", "status": "proved", "theorems": ["C104_dynamic_similarity"], "note": ""},
{"property": "C105", "status": "proved", "theorems": ["C105_translations", "C105_one_dimensional_flow"], "note": ""},
{"property": "C106", "status": "proved", "theorems": ["C106_forcing_exact"], "note": ""},
{"property": "C107", "status": "proved", "theorems": ["C107_uniform_velocity_stays"], "note": ""},
{"property": "C108", "status": "proved", "theorems": ["C108_no_backward_flow_refuted"], "note": "refuted by a run of two steps on four columns"},
{"property": "C109", "status": "proved", "theorems": ["C109_box_mass"], "note": ""},
{"property": "C110", "status": "proved", "theorems": ["C110_box_mirror_refuted"], "note": "Refuted: with fct, iga and div_2nd and 3 iterations, one step in a box of 4 x 4 cells gives results that are not mirrored next to the wall. The right wall fills the halo of the antidiffusive velocities from other faces than the left one (rigid_2d.hpp:154-162, see C27_antidiffusive_mirror_refuted)."},
{"property": "C111", "status": "proved", "theorems": ["C111_stress_isotropic", "C111_eddy_stress"], "note": ""},
{"property": "C112", "status": "proved", "theorems": ["C112_trapezoidal_rule"], "note": ""},
{"property": "C113", "status": "proved", "theorems": ["C113_box_upwind_sign", "C113_box_upwind_bounds", "C113_wall_courant_limit_refuted"], "note": "Proved with the flow through faces next to walls counted twice; refuted when counted once (one step turns 1 into -1/2 at a wall)."},
{"property": "C114", "status": "proved", "theorems": ["C114_open_upwind", "C114_open_upwind_sign", "C114_open_upwind_bounds"], "note": "Every possible end of a run equals the iterated reference step, from which sign and bounds follow."},
{"property": "C115", "status": "proved", "theorems": ["C115_open_axes_upwind", "C115_open_axes_refuted"], "note": "Holds with one iteration; refuted with two: at corners the flow that leaves is attributed to the first axis alone (open_2d.hpp zeroes the other velocity only for d == 0), which changes the corrective iteration in a uniform oblique flow."},
{"property": "C116", "status": "proved", "theorems": ["C116_field_stored", "C116_coordinates_stored", "C116_halo_stored", "C116_surface_stored", "C116_no_overlap", "C116_chunks", "C116_halo_3d_refuted", "C116_surface_1d_refuted"], "note": "Holds for fields and coordinates in any number of dimensions, for surface fields in two and more, and for arrays with halos except in three dimensions; refuted there: with two or more processes all but the first read beyond the end of the buffer they store (hdf5.hpp:440-445: the copy in C order has the shape written, not the shape in memory). Surface output of 1D runs is out of bounds on all but the first process."},
{"property": "C117", "status": "proved", "theorems": ["C117_global_array", "C117_global_array_large_refuted"], "note": "Holds while the number of cells of the whole domain is at most 2^31-1; refuted beyond: counts are of type int and overflow."},
{"property": "C118", "status": "proved", "theorems": ["C118_xmf_describes", "C118_temporal", "C118_aux_not_listed_refuted", "C118_aux_dimensions_refuted"], "note": "Holds for output of advectees; refuted for auxiliary fields: the first .xmf file omits them (it is written before they are added), later ones give dimensions smaller by one than stored (grid size passed where the size of the mesh is expected)."},
{"property": "C119", "status": "proved", "theorems": ["C119_names_sort_by_time"], "note": "Up to the largest int."},
{"property": "C120", "status": "proved", "theorems": ["C120_file_written", "C120_parameters_found", "C120_boussinesq_dns_refuted"], "note": "Holds except for Boussinesq solvers with the dns model, for which viscosity, drag and stress_diff are not stored (hdf5.hpp:754 records them as if there were no subgrid model). Option div_3rd_dt is not named by opts_string (C45)."},
{"property": "C121", "status": "proved", "theorems": ["C121_channel_mass"], "note": "Exact arithmetic; halo exchanges of both kinds interact at the corners as in the code."},
{"property": "C122", "status": "proved", "theorems": ["C122_channel_edges", "C122_channel_moved", "C122_channel_data_only"], "note": "For any arithmetic. More than two iterations need fct, or neither div_2nd nor iga nor dfl (plain_passes)."},
{"property": "C123", "status": "proved", "theorems": ["C123_channel_images", "C123_images_run", "C123_channel_images_refuted"], "note": "Proved for image_passes; refuted outside it (three iterations of fct, iga and div_2nd), since the antidiffusive velocities beyond the last wall are filled one face off (C27_antidiffusive_mirror_refuted)."},
{"property": "C124", "status": "proved", "theorems": ["C124_channel_sign", "C124_channel_bounds", "C124_channel_basic_sign"], "note": "From C123 and the results for doubly cyclic domains."},
{"property": "C125", "status": "proved", "theorems": ["C125_channel_constants", "C125_channel_stream"], "note": "From C123 and the results for doubly cyclic domains."},
{"property": "C126", "status": "proved", "theorems": ["C126_box_images", "C126_images_run", "C126_box_images_refuted"], "note": "Proved for image_passes; refuted outside it (three iterations of fct, iga and div_2nd), since the antidiffusive velocities beyond the last wall are filled one face off (C27_antidiffusive_mirror_refuted)."},
{"property": "C127", "status": "proved", "theorems": ["C127_box_sign", "C127_box_bounds", "C127_box_basic_sign"], "note": "From C126 and C124."},
{"property": "C128", "status": "proved", "theorems": ["C128_box_constants"], "note": "From C126 and C125."},
{"property": "C129", "status": "proved", "theorems": ["C129_channel_mirror", "C129_box_mirror"], "note": "With the images mirrored runs are runs moved by half a period (C53, C122)."},
{"property": "C130", "status": "proved", "theorems": ["C130_box_axes"], "note": "From C126, C123 and C62."},
{"property": "C131", "status": "proved", "theorems": ["C131_channel_multiples", "C131_box_multiples", "C131_channel_sign_symmetry", "C131_box_sign_symmetry", "C131_channel_superposition", "C131_box_superposition"], "note": "From the cyclic case through C123 and C126."},
{"property": "C132", "status": "proved", "theorems": ["C132_channel_exact_options", "C132_box_exact_options", "C132_channel_hint_scale", "C132_box_hint_scale"], "note": "From the cyclic case through C123 and C126."},
{"property": "C133", "status": "proved", "theorems": ["C133_channel_one_dimensional"], "note": "From the cyclic case through C123."},
{"property": "C134", "status": "proved", "theorems": ["C134_channel_mpdata", "C134_box_mpdata"], "note": "From C60 (cyclic runs compute published MPDATA) through C123 and C126."},
{"property": "C135", "status": "proved", "theorems": ["C135_box_data_only"], "note": "C122 is the statement for channels."},
{"property": "C136", "status": "proved", "theorems": ["C136_drag_law", "C136_momentum"], "note": "Forces enter with weight one half of a time step, hence the factor 2."},
{"property": "C137", "status": "proved", "theorems": ["C137_lowest_level", "C137_takes_energy"], "note": "Horizontal components; the vertical velocity at the ground is set to zero by the solver."},
{"property": "C138", "status": "proved", "theorems": ["C138_units", "C138_units_drag_refuted"], "note": "Holds without drag, refuted with drag by a linear wind profile over three levels with smg."},
{"property": "C139", "status": "proved", "theorems": ["C139_no_energy_fed"], "note": "Sums weight the outermost levels by one half, as in C98 and C136."},
{"property": "C140", "status": "proved", "theorems": ["C140_plane_flow", "C140_density_refuted"], "note": "True for constant viscosity and unit density; refuted with varying density (force -1/9 in 3D, -1/6 in 2D). For eddy viscosities see C91."},
{"property": "C141", "status": "proved", "theorems": ["C141_reads_inside_only"], "note": "At least three levels: the vertical stress at the ground is extrapolated from velocities on the three lowest levels."},
{"property": "C142", "status": "proved", "theorems": ["C142_mean_wind"], "note": "The example shows that the mean wind matters with drag."},
{"property": "C143", "status": "proved", "theorems": ["C143_reversed", "C143_mirrored", "C143_interchanged"], "note": "Mirror images in y follow from those in x by interchanging the axes."},
{"property": "C144", "status": "proved", "theorems": ["C144_hottest", "C144_coldest"], "note": "About the heating rate; bounds on whole steps additionally need a limit on the time step."},
{"property": "C145", "status": "proved", "theorems": ["C145_superposition", "C145_offset"], "note": "Viscosities are given; in a run they depend on temperature."},
{"property": "C146", "status": "proved", "theorems": ["C146_heating_reads_inside_only"], "note": "Viscosities are inputs here."},
{"property": "C147", "status": "proved", "theorems": ["C147_plane", "C147_mirrored", "C147_interchanged"], "note": "Viscosities are inputs; the viscosity along y is arbitrary in the plane."}
]}

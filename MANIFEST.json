{
 "claims": [
  {
   "property": "C01",
   "status": "proved",
   "theorems": [
    "C01_task_division_partition",
    "C01_task_division_covers_in_order",
    "C01_whose_is_the_owner",
    "C01_whose_in_range",
    "C01_process_groups_balanced",
    "C01_process_groups_valid",
    "C01_process_groups_ordered",
    "C01_core_division_total",
    "C01_every_process_gets_a_core"
   ],
   "note": ""
  },
  {
   "property": "C02",
   "status": "proved",
   "theorems": [
    "C02_threaded_loop_exactly_once",
    "C02_threaded_loop_effect",
    "C02_empty_loop_runs_nothing_refuted",
    "C02_empty_loop_runs_cell_twice_refuted"
   ],
   "note": "Holds for every non-empty loop; the two _refuted theorems show that nJobs=0 still runs the body (threadedLoop has no guard)."
  },
  {
   "property": "C03",
   "status": "proved",
   "theorems": [
    "C03_threaded_accumulate_serial",
    "C03_threaded_dot_serial",
    "C03_threaded_zdotc_serial",
    "C03_threaded_nrm2_serial",
    "C03_empty_dot_is_zero_refuted"
   ],
   "note": "Holds for N>0 and any schedule of the lock; _refuted: eblas_ddot with N=0 reads element 0."
  },
  {
   "property": "C04",
   "status": "proved",
   "theorems": [
    "C04_rLoop_visits",
    "C04_fullGspaceLoop_visits",
    "C04_halfGspaceLoop_visits",
    "C04_rLoop_all_threads",
    "C04_halfGspaceLoop_all_threads",
    "C04_fullGspaceLoop_all_threads",
    "C04_fullGspaceLoop_any_thread_count_refuted",
    "C04_fullRindex_layout",
    "C04_fullGindex_layout",
    "C04_halfGindex_layout",
    "C04_full_layout_injective",
    "C04_half_layout_injective",
    "C04_full_layout_in_bounds",
    "C04_half_layout_in_bounds",
    "C04_nyquist_has_no_mirror"
   ],
   "note": "All loops and index functions; _refuted: THREAD_fullGspaceLoop never terminates when a thread has an empty range (more threads than grid points)."
  },
  {
   "property": "C05",
   "status": "proved",
   "theorems": [
    "C05_automatic_box",
    "C05_fftSuitable_decides",
    "C05_no_cutoff_terminates_refuted"
   ],
   "note": "Full property, including that the chosen box always passes checkFFTbox; _refuted: with no cutoff (Smin=0) the search does not terminate because fftSuitable(0) loops."
  },
  {
   "property": "C06",
   "status": "proved",
   "theorems": [
    "C06_write_moves_every_element",
    "C06_read_moves_every_element",
    "C06_short_file_is_detected"
   ],
   "note": "Byte counts up to 2^63 and element sizes up to INT_MAX/2 with size_t arithmetic wrapping modulo 2^64."
  },
  {
   "property": "C07",
   "status": "proved",
   "theorems": [
    "C07_file_is_little_endian",
    "C07_read_is_host_independent",
    "C07_round_trip"
   ],
   "note": ""
  },
  {
   "property": "C08",
   "status": "proved",
   "theorems": [
    "C08_energy_check",
    "C08_energy_check_documented_refuted",
    "C08_energy_check_nan_refuted",
    "C08_norm_check"
   ],
   "note": "Energy check characterised exactly; _refuted against the documented meaning: constant energies never converge because only strictly negative changes are counted, and a NaN energy change never resets. Extended reals (finite, infinite, NaN) with exact finite arithmetic."
  },
  {
   "property": "C09",
   "status": "proved",
   "theorems": [
    "C09_relax",
    "C09_cubic",
    "C09_undo",
    "C09_quad",
    "C09_quad_undo_refuted",
    "C09_quad_sign_refuted",
    "C09_minimize_restores_refuted",
    "C09_fdTest_restores"
   ],
   "note": "False as stated for the quadratic line minimizer: on failure it may leave the state at a trial step and return the wrong sign of progress (_refuted). Proved: relax and cubic Wolfe minimizers, exact restoration on failure, and the quadratic minimizer under its acceptance condition."
  },
  {
   "property": "C10",
   "status": "proved",
   "theorems": [
    "C10_minimize",
    "C10_stop",
    "C10_beta"
   ],
   "note": "Iteration bound for CG and L-BFGS; the energy on return is that of the state left behind; reasons for stopping (all or any of the criteria) and the mixing factors of the conjugate gradient schemes for minimize. _refuted (in C09): the final energy may exceed the initial one."
  },
  {
   "property": "C11",
   "status": "proved",
   "theorems": [
    "C11_history",
    "C11_direction",
    "C11_scaling",
    "C11_pairs",
    "C11_secant_unpreconditioned",
    "C11_secant_refuted"
   ],
   "note": "History length, order, content and two-loop direction (equal to the BFGS recursion) and initial scaling proved (the scaling is not reset when report() changes the state and the history is cleared). False as stated for preconditioned problems: _refuted, the newest pair violates the secant equation because rho is 1/(s.y) but the loops use the preconditioned gradient difference; proved without preconditioner."
  },
  {
   "property": "C12",
   "status": "proved",
   "theorems": [
    "C12_solve",
    "C12_indefinite",
    "C12_orthogonal_residuals",
    "C12_finite_termination"
   ],
   "note": "LinearSolvable::solve and LinearSolvableIndefinite::CG for every linear operator and preconditioner, exact real arithmetic; for symmetric operators orthogonality of all residuals, and for definite ones termination in as many iterations as dimensions (solve). MINRES not modelled."
  },
  {
   "property": "C13",
   "status": "proved",
   "theorems": [
    "C13_best_iterate",
    "C13_initial_refuted",
    "C13_last_refuted"
   ],
   "note": "False as stated: _refuted for the initial state and for the last state being the best. Proved: whenever the lowest residual is lower than the first two and the last one, the state having it is left behind."
  },
  {
   "property": "C14",
   "status": "proved",
   "theorems": [
    "C14_history_bounded",
    "C14_overlaps",
    "C14_clear",
    "C14_coefficients",
    "C14_fixed_point",
    "C14_repeated_calls_refuted"
   ],
   "note": "False as stated for repeated calls: _refuted, a call that stops on convergence leaves the overlaps of its last residual unset and the next call (exact-exchange loop) uses them. Proved for each call starting from correct overlaps (empty, cleared or loaded history). Matrix inversion is external: coefficient statements assume it returned an inverse."
  },
  {
   "property": "C15",
   "status": "proved",
   "theorems": [
    "C15_round_trip",
    "C15_same_parameters",
    "C15_bad_length"
   ],
   "note": "Byte-level file with fixed-size variables; reading and writing one variable is external and assumed to round-trip."
  },
  {
   "property": "C16",
   "status": "proved",
   "theorems": [
    "C16_consistent",
    "C16_alloc",
    "C16_free",
    "C16_reuse",
    "C16_destroy",
    "C16_objects",
    "C16_zero_bytes_refuted"
   ],
   "note": "MemCache with its underlying allocator external, and objects using it. False for zero-byte objects as far as blocks (not bytes) are concerned: _refuted, they are never given back. Locking is not modelled (operations atomic); sizes without overflow; CPU builds without cache call the system directly."
  },
  {
   "property": "C17",
   "status": "proved",
   "theorems": [
    "C17_report"
   ],
   "note": "MemUsageReport with the events of the objects (C16_objects links the usage to the objects); formatting to GB not modelled."
  },
  {
   "property": "C18",
   "status": "proved",
   "theorems": [
    "C18_levels",
    "C18_cycle_reported",
    "C18_passes_end",
    "C18_run_in_passes",
    "C18_requirements_first",
    "C18_once_per_line",
    "C18_accepts_iff",
    "C18_order_irrelevant_for_acceptance",
    "C18_same_order_refuted"
   ],
   "note": "Order of the lines is irrelevant for acceptance and for the pass structure; the run order of commands of one pass is the order of the file (_refuted: not fully order independent). Behaviour of the individual process() functions is a parameter."
  },
  {
   "property": "C19",
   "status": "proved",
   "theorems": [
    "C19_conflict_reported",
    "C19_repeat_reported",
    "C19_mutual",
    "C19_requirements_compatible",
    "C19_cross_section_refuted",
    "C19_own_forbids_unchecked_refuted"
   ],
   "note": "False as stated across sections: _refuted with phonon / fix-electron-density, which are accepted together. Proved within a section (all jdftx commands) and whenever the forbidding command is in a later pass. _refuted: the table check ignores what a command itself forbids."
  },
  {
   "property": "C20",
   "status": "proved",
   "theorems": [
    "C20_trim",
    "C20_trim_idempotent",
    "C20_comments_and_white_space_irrelevant",
    "C20_commands_read",
    "C20_joining_preserves_words",
    "C20_words_well_defined",
    "C20_name_is_first_word",
    "C20_name_is_first_word_refuted"
   ],
   "note": "_refuted: a variable value starting with a blank yields an empty command name, because trimming precedes substitution."
  },
  {
   "property": "C21",
   "status": "proved",
   "theorems": [
    "C21_terminates",
    "C21_cycle_reported_is_cycle",
    "C21_success_means_no_cycle",
    "C21_cycle_is_error",
    "C21_distinct_files_refuted"
   ],
   "note": "Termination for finitely many files when every dollar sign opens a reference; cycle characterisation for reference-free files. _refuted: names are compared case-insensitively, so distinct files a and A count as a cycle."
  },
  {
   "property": "C22",
   "status": "proved",
   "theorems": [
    "C22_received_is_sent",
    "C22_all_processes_agree",
    "C22_all_processes_agree_refuted"
   ],
   "note": "False as stated for values containing a newline (_refuted); proved whenever no environment value holds a newline."
  },
  {
   "property": "C23",
   "status": "proved",
   "theorems": [
    "C23_no_reference_left",
    "C23_result_is_expansion",
    "C23_terminates_for_plain_values",
    "C23_terminates_refuted",
    "C23_input_file_terminates_refuted",
    "C23_error_means_unterminated"
   ],
   "note": "False as stated: two _refuted theorems (self-referential value; an input file that sets a reference-free value and then loops for ever). Proved for values without dollar sign or without opening brace; result is always the exact expansion."
  },
  {
   "property": "C24",
   "status": "proved",
   "theorems": [
    "C24_keyword_lookup",
    "C24_value_printed",
    "C24_each_keyword_one_value",
    "C24_printed_value_reads_back",
    "C24_read_value_prints",
    "C24_printed_is_the_keyword",
    "C24_unknown_keyword_rejected",
    "C24_option_list"
   ],
   "note": ""
  },
  {
   "property": "C25",
   "status": "proved",
   "theorems": [
    "C25_reduction_terminates",
    "C25_same_lattice",
    "C25_result_is_reduced",
    "C25_fuel_irrelevant"
   ],
   "note": ""
  },
  {
   "property": "C26",
   "status": "proved",
   "theorems": [
    "C26_table_in_range",
    "C26_lookup_exact",
    "C26_lookup_after_adding"
   ],
   "note": ""
  },
  {
   "property": "C27",
   "status": "proved",
   "theorems": [
    "C27_fold_complete",
    "C27_fold_totals",
    "C27_fold_refuses_bad_weights"
   ],
   "note": ""
  },
  {
   "property": "C28",
   "status": "proved",
   "theorems": [
    "C28_spin_expansion"
   ],
   "note": "Total weight relative to the reduced k-points; the reduction itself is C29."
  },
  {
   "property": "C29",
   "status": "proved",
   "theorems": [
    "C29_reduction_correct",
    "C29_reduction_with_table",
    "C29_process_count_irrelevant",
    "C29_needs_group_refuted"
   ],
   "note": "Proved for symmetry lists that form a group, with an exact lookup (and with the actual PeriodicLookup table when images within its tolerance are equal). _refuted: without closure under products (not checked for manual symmetries) the total weight changes."
  },
  {
   "property": "C30",
   "status": "proved",
   "theorems": [
    "C30_reported_derivative",
    "C30_entropy_consistent",
    "C30_range_and_monotone",
    "C30_symmetric",
    "C30_limits",
    "C30_cold_positive",
    "C30_mp1_range_refuted",
    "C30_mp1_monotone_refuted",
    "C30_cold_range_refuted",
    "C30_cold_monotone_refuted",
    "C30_cold_symmetric_refuted",
    "C30_gradient_factor"
   ],
   "note": "False as stated for every type: Methfessel-Paxton and cold smearing leave [0,1] and are not monotone, cold smearing is not symmetric (C30_*_refuted). Derivative, entropy consistency and limits proved for all types; range and monotonicity for Fermi and Gauss; symmetry for all but cold. Fermi entropy identity holds where occupations exceed the code cutoff 1e-300."
  },
  {
   "property": "C31",
   "status": "partial",
   "theorems": [
    "C31_terminates_and_brackets",
    "C31_unpolarized",
    "C31_electron_number",
    "C31_field_search",
    "C31_fixed_magnetization_partial",
    "C31_overfull_never_ends"
   ],
   "note": "Termination, bracketing and accuracy proved for a given field and for unpolarized systems; for fixed magnetization in a polarized system the field search is proved to terminate and a returned mu is proved to bracket, but termination of the outer search is not proved."
  },
  {
   "property": "C32",
   "status": "proved",
   "theorems": [
    "C32_calculated_fillings",
    "C32_electron_count",
    "C32_lowest_bands_first",
    "C32_automatic_bands_suffice",
    "C32_fillings_from_file",
    "C32_given_bands_refuted"
   ],
   "note": "False as stated when the user gives the number of bands: the check uses the average over spins, so a strongly polarized system loses electrons (C32_given_bands_refuted). Proved when the code chooses the number of bands or the given number holds each spin channel; fillings from a file always preserve the count per state."
  },
  {
   "property": "C33",
   "status": "proved",
   "theorems": [
    "C33_read_back_any_process_count",
    "C33_writes_complete",
    "C33_file_layout",
    "C33_offset_overflow_refuted"
   ],
   "note": "Element-level file model (bytes are C06/C07); any interleaving of the collective write, or write through the head process. _refuted: file offsets are int products and overflow for large matrices."
  },
  {
   "property": "C34",
   "status": "proved",
   "theorems": [
    "C34_compose",
    "C34_monoid",
    "C34_inverse"
   ],
   "note": "applyReal/applyRecip of sgo_mul, associativity, unit, two-sided inverse for determinant +-1; translations are real vectors (not reduced modulo the lattice), exact arithmetic."
  },
  {
   "property": "C35",
   "status": "proved",
   "theorems": [
    "C35_density",
    "C35_density_projection",
    "C35_spin",
    "C35_forces",
    "C35_total_force",
    "C35_total_force_refuted",
    "C35_tensor",
    "C35_translation_refuted"
   ],
   "note": "False as stated in two points: C35_total_force_refuted (the total force is replaced by its average over the group; preserved iff symmetric, in particular if zero) and C35_translation_refuted (a mesh that fits the rotations but not the translations, which the code does not check: not a projection). Proved for every finite space group whose operations map the mesh to itself: scalar densities (invariance on the mesh, fixed points, charge, average formula, reality and bounds), spin density matrices, forces, tensors. symmetrizeSpherical is not modelled."
  },
  {
   "property": "C36",
   "status": "proved",
   "theorems": [
    "C36_checkFFTbox_exact",
    "C36_rotation_stays_on_mesh",
    "C36_rotation_permutes_mesh"
   ],
   "note": ""
  },
  {
   "property": "C37",
   "status": "proved",
   "theorems": [
    "C37_exactly_the_sphere",
    "C37_indices_roundtrip",
    "C37_indices_roundtrip_far_k_refuted",
    "C37_rebuild",
    "C37_head"
   ],
   "note": "Sphere membership for every lattice, cutoff and k; index round trip proved for the FFT boxes the grid setup accepts and |k_i| < 1, refuted for k outside that range."
  },
  {
   "property": "C38",
   "status": "proved",
   "theorems": [
    "C38_expand_hermitian",
    "C38_convert_back",
    "C38_convert_back_imag",
    "C38_real_imag_recombine",
    "C38_parts_are_real_fields",
    "C38_changeGrid",
    "C38_changeGridFull",
    "C38_up_down",
    "C38_up_down_full",
    "C38_changeGrid_real_field",
    "C38_changeGrid_up_real_field_refuted",
    "C38_changeGrid_down_real_field_refuted"
   ],
   "note": "All thread counts and store orders. Preservation of the real-field property by changeGrid is refuted at the Nyquist frequency and proved without it."
  },
  {
   "property": "C39",
   "status": "proved",
   "theorems": [
    "C39_derivative",
    "C39_smooth",
    "C39_radial_in_bounds",
    "C39_screened_in_bounds_refuted"
   ],
   "note": "Holds on the whole open range including the sample points, not only inside intervals. Extra: guarded evaluation of RadialFunctionG never reads out of bounds; the guard of the screened exchange kernels admits an out-of-bounds read (C39_screened_in_bounds_refuted, latent because the table has ten spare samples)."
  },
  {
   "property": "C40",
   "status": "proved",
   "theorems": [
    "C40_interpolates",
    "C40_odd_first_sample",
    "C40_boundary",
    "C40_last_sample_refuted",
    "C40_few_samples_refuted"
   ],
   "note": "False as stated at the last sample point: C40_last_sample_refuted (evaluation reads one coefficient past the end). Proved for all other sample points from three samples on, and as a limit at the last one; also the boundary conditions."
  },
  {
   "property": "C41",
   "status": "proved",
   "theorems": [
    "C41_adjoint",
    "C41_block_reduction"
   ],
   "note": "CPU accumulation, and the GPU block reduction for every order of threads between barriers."
  },
  {
   "property": "C42",
   "status": "proved",
   "theorems": [
    "C42_integral",
    "C42_pointwise",
    "C42_equal_volumes",
    "C42_diagonal",
    "C42_tessellation_covers",
    "C42_tessellation_disjoint"
   ],
   "note": "Integral with all degeneracies; pointwise agreement with the geometric slice density; equal volumes; covering and disjointness of the tessellation; shortest diagonal. One weight function is modelled (they are independent). The lookup of mesh points is C26."
  },
  {
   "property": "C43",
   "status": "proved",
   "theorems": [
    "C43_split",
    "C43_coalesce",
    "C43_convert",
    "C43_convert_linear",
    "C43_merge",
    "C43_getDOS",
    "C43_isolated_delta_refuted",
    "C43_gap_refuted"
   ],
   "note": "False as stated for arbitrary collections: an isolated delta function is dropped (C43_isolated_delta_refuted) and gaps end in the assertion or an invalid iterator (C43_gap_refuted); proved for every gapless collection, every set of tables, and for getDOS of bands of tetrahedra connected through shared corner energies (the case of every mesh)."
  },
  {
   "property": "C44",
   "status": "proved",
   "theorems": [
    "C44_sum",
    "C44_order",
    "C44_common_value",
    "C44_unchanged"
   ],
   "note": "Sum, order, separation of distinct results and equality of entries within Etol for every Etol >= 0 and every list; identity when already separated. Entries within Etol of one another in a chain are welded together, as in the code."
  },
  {
   "property": "C45",
   "status": "proved",
   "theorems": [
    "C45_round_trip",
    "C45_round_trip_back",
    "C45_defined",
    "C45_magnetization_pauli",
    "C45_load_pauli",
    "C45_accumulate_adjoint",
    "C45_diagonal_projector",
    "C45_direction_length",
    "C45_trace",
    "C45_eigenvalues",
    "C45_diagonal_near_eigenvalues",
    "C45_diagonal_nonnegative",
    "C45_diagonal_gradient",
    "C45_gradient_accumulates",
    "C45_density_gradient"
   ],
   "note": "Round trip in both directions; the Pauli decomposition; spin-diagonal components as projections; exact gradients (also with the aliased output arrays of ExCorr.cpp line 835); eigenvalues up to the regularisation."
  },
  {
   "property": "C46",
   "status": "proved",
   "theorems": [
    "C46_shape_range",
    "C46_shape_decreasing",
    "C46_shape_gradient",
    "C46_shape_negative_density_refuted",
    "C46_sccs_range",
    "C46_sccs_decreasing",
    "C46_sccs_gradient",
    "C46_sccs_accumulates",
    "C46_candle_range",
    "C46_candle_decreasing",
    "C46_candle_gradient",
    "C46_candle_cutoff_refuted",
    "C46_expand_gradient",
    "C46_expand_positive",
    "C46_softsphere_range",
    "C46_softsphere_decreasing",
    "C46_softsphere_gradient",
    "C46_softsphere_radius_refuted"
   ],
   "note": "False as stated in three corners (_refuted): ShapeFunction uses fabs(n) but its gradient ignores the sign for n<0; CANDLE replaces tanh(x^2) by 1 above x=4 and so jumps there; SoftSphere skips a grid point lying on an atom, which loses the radius derivative. Proved everywhere else: range, monotonicity and exact (directional) gradients of ShapeFunction, SCCS (incl. the glued end points), CANDLE (joint derivative in n, Dn, Dphi, pCavity), SGA13 density expansion and SoftSphere (position and radius of any atom). Pointwise kernels; convolutions and the field-level drivers of PCM.cpp are not modelled."
  },
  {
   "property": "C47",
   "status": "proved",
   "theorems": [
    "C47_hard_sphere_derivative",
    "C47_packing_bisection",
    "C47_packing_unique",
    "C47_ion_energy_derivative",
    "C47_potential_map",
    "C47_potential_unmap",
    "C47_screening_gradient",
    "C47_screening_table",
    "C47_dielectric_bisection",
    "C47_dielectric_bisection_refuted",
    "C47_dielectric_energy_derivative",
    "C47_dielectric_series_refuted",
    "C47_dielectric_series_error",
    "C47_dielectric_large_error",
    "C47_dielectric_zero_sample",
    "C47_dielectric_linear_sample",
    "C47_dielectric_gradient",
    "C47_dielectric_shape_gradient",
    "C47_dielectric_table",
    "C47_field_map"
   ],
   "note": "False as stated in two corners (_refuted): for eps<1/10 the truncated series of logsinch is not the antiderivative of eps*frac (error exactly eps^7/4725), and for alpha>=3 (epsBulk<epsInf, not rejected by the constructor) the linear inversion loops forever. Proved: hard-sphere derivative, termination and accuracy of both bisections, uniqueness of the packing fraction and dE/dV = ionic charge (packing fraction <= 1/3), dA/dx = polarization, exactness of A_phi, A_Dphi, A_s for every smooth lookup, exact inverses of the table mappings, and the zero-field sample. The quintic-spline lookups are abstract here (their derivative is C39)."
  },
  {
   "property": "C48",
   "status": "proved",
   "theorems": [
    "C48_fmt_gradient",
    "C48_fmt_branch_refuted",
    "C48_f2_series_gap",
    "C48_fmt_domain",
    "C48_bond_gradient",
    "C48_bond_kink_refuted",
    "C48_vTmv_value",
    "C48_vTmv_gradient",
    "C48_trace_cubed_value",
    "C48_trace_cubed_gradient",
    "C48_kernel_value",
    "C48_kernel_adjoint"
   ],
   "note": "False as stated at isolated points (_refuted): the scale functions jump where the series takes over (n3=0.002, 0.005), and the clamped vector factor of the bonding correction has a kink at |n2v|=n2. Proved everywhere else on n0,n1,n2>0, 0<n3<1: joint directional derivative of the energy density in all 15 weighted density components, of the bonding correction, values and gradients of the tensor contractions, value and adjointness of the reciprocal space tensor kernel."
  },
  {
   "property": "C49",
   "status": "proved",
   "theorems": [
    "C49_spin_potentials",
    "C49_unpolarized_potential",
    "C49_PZ_refuted",
    "C49_spin_exchange",
    "C49_equal_spins",
    "C49_full_polarization",
    "C49_interpolation",
    "C49_PW_negative"
   ],
   "note": "False as stated for Perdew-Zunger correlation at rs=1, where its two branches do not meet (C49_PZ_refuted). Proved for all seven functionals otherwise: both spin potentials as the joint derivative of the energy density (n_s>0, total above the cutoff), unpolarized potential, spin exchange symmetry, agreement of the polarized and unpolarized code for equal spins, ferromagnetic limit, properties of the interpolation function. pow is modelled for non-negative arguments."
  },
  {
   "property": "C50",
   "status": "proved",
   "theorems": [
    "C50_getAhs",
    "C50_carnahan_starling",
    "C50_vapor_pressure_term",
    "C50_JeffereyAustin",
    "C50_JeffereyAustin_volume",
    "C50_TaoMason",
    "C50_uniform_fluid",
    "C50_vdwRadius"
   ],
   "note": "Proved for all densities N>0 with positive Ginv and packing below 1 (where the code does not return NAN) and every temperature at which the exclusion volume is nonzero (automatic up to 1408.4 K); the parameters of the Jeffery-Austin constructor are modelled with the unit constants of Units.h. Tao-Mason holds for arbitrary parameters. N=0 exactly (where Aex jumps to the value 0 used for negative densities) is excluded."
  },
  {
   "property": "C51",
   "status": "proved",
   "theorems": [
    "C51_periodic",
    "C51_spherical",
    "C51_ionkernel",
    "C51_slab",
    "C51_exchange_periodic",
    "C51_exchange_screened",
    "C51_exchange_spherical",
    "C51_exchange_spherical_fixed_radius_refuted",
    "C51_exchange_slab"
   ],
   "note": "False as stated for the spherical exchange kernel without exchange regularization, where the radius is the fixed radius of CoulombSpherical but the gradient contains the term of a radius growing like detR^(1/3) (_refuted). Proved: whole-grid getLatticeGradient of the periodic, spherical, slab and ion kernels as strain derivative of the pair energy; periodic, erfc-screened, spherical (radius from supercell volume) and unscreened slab exchange kernels per reciprocal vector away from the threshold. Slab kernels under the orthogonality the code itself requires, for strains preserving it. The spline-tabulated screened truncated kernels and numerical kernels are not modelled."
  },
  {
   "property": "C52",
   "status": "proved",
   "theorems": [
    "C52_proper",
    "C52_roundtrip",
    "C52_near_lock_refuted",
    "C52_near_lock_error",
    "C52_angles",
    "C52_range",
    "C52_polar",
    "C52_axis",
    "C52_axis_row",
    "C52_axis_image",
    "C52_axis_comment_refuted"
   ],
   "note": "False as stated for rotations within 1e-7 of gimbal lock but not locked (C52_near_lock_refuted); there every entry of the reconstructed matrix is proved to be within 1/2000. Proved exactly for all other rotations including exactly locked ones, plus the inverse round trip on angles, ranges of the angles and the axis conversions. The comment that polarUnitVector(alpha,beta) is the axis reached by the rotation does not hold for matrixFromEuler (C52_axis_comment_refuted): it is the third row for gamma,beta and the image of z is polarUnitVector(PI-alpha,beta)."
  },
  {
   "property": "C53",
   "status": "proved",
   "theorems": [
    "C53_sum",
    "C53_grid_vector",
    "C53_adjoint",
    "C53_linear",
    "C53_constant",
    "C53_bounds",
    "C53_direction_refuted",
    "C53_schedules",
    "C53_fourier_value",
    "C53_fourier_adjoint",
    "C53_fourier_compose",
    "C53_fourier_sum",
    "C53_fourier_real",
    "C53_fourier_nyquist_refuted"
   ],
   "note": "Proved for every thread count and interleaving of the loop bodies. The comment T_t(x(r))=x(r+t) in TranslationOperator.h has the opposite sign to the code (C53_direction_refuted). The Fourier operator is modelled on the half-space coefficients (the transforms themselves are not modelled); it keeps fields real except at Nyquist frequencies (C53_fourier_nyquist_refuted)."
  },
  {
   "property": "C54",
   "status": "proved",
   "theorems": [
    "C54_submatrix_read",
    "C54_bad_read_rejected",
    "C54_submatrix_write",
    "C54_submatrix_accumulate",
    "C54_read_back",
    "C54_bad_row_write_rejected",
    "C54_bad_column_write_rejected_refuted",
    "C54_negative_column_write_rejected_refuted",
    "C54_transposed_view",
    "C54_plain_view",
    "C54_product_of_views",
    "C54_product_with_diagonal_right",
    "C54_product_with_diagonal_left",
    "C54_trace"
   ],
   "note": "_refuted: the column bound checks of matrix::set and accum use || and so accept an out-of-bounds column range."
  },
  {
   "property": "C55",
   "status": "proved",
   "theorems": [
    "C55_tiled_right_product",
    "C55_tiled_left_product_square_tiles",
    "C55_tiled_left_product_wide_tiles_refuted",
    "C55_tiled_left_product_tall_tiles_refuted"
   ],
   "note": "_refuted: left product of a tiled block matrix is wrong for non-square tiles."
  },
  {
   "property": "C56",
   "status": "proved",
   "theorems": [
    "C56_threaded_product_is_serial",
    "C56_serial_product_value"
   ],
   "note": ""
  },
  {
   "property": "C57",
   "status": "proved",
   "theorems": [
    "C57_total_is_sum_of_components",
    "C57_accumulate_component",
    "C57_set_component",
    "C57_scalar_assign_and_accumulate",
    "C57_printed_lines_sum_to_total",
    "C57_printed_line_value",
    "C57_nonzero_components_printed",
    "C57_printed_name"
   ],
   "note": ""
  },
  {
   "property": "C58",
   "status": "proved",
   "theorems": [
    "C58_crc32_is_standard"
   ],
   "note": ""
  },
  {
   "property": "C59",
   "status": "proved",
   "theorems": [
    "C59_positive_remainder",
    "C59_positive_remainder_all_ints_refuted",
    "C59_ceildiv_is_ceiling",
    "C59_floorMultiple_is_greatest",
    "C59_gcd",
    "C59_gcdReduce",
    "C59_gcdReduce_keeps_direction_refuted",
    "C59_gcdReduce_total_refuted",
    "C59_wrappedIndex"
   ],
   "note": "positiveRemainder is exact in its int16/uint16 domain; the _refuted theorems show int arguments beyond 16 bits, loss of direction in gcdReduce of negative vectors, and division by zero for the zero vector."
  },
  {
   "property": "C60",
   "status": "proved",
   "theorems": [
    "C60_errors_reach_all"
   ],
   "note": "Messages are non-NUL characters; total length assumed to fit an int."
  },
  {
   "property": "C61",
   "status": "proved",
   "theorems": [
    "C61_projection",
    "C61_no_symmetry",
    "C61_hyperplanes_refuted",
    "C61_symmetric_hyperplane_refuted",
    "C61_symmetry_check"
   ],
   "note": "False as stated (_refuted) for hyperplane constraints whose normals are not orthogonal (they are removed one after the other), and for hyperplanes not mapped onto each other by the symmetries, which isEquivalent accepts because it compares the zero vector d. Proved otherwise: the result is allowed and symmetric, allowed symmetric displacements are unchanged, idempotent, and the orthogonal projection."
  },
  {
   "property": "C62",
   "status": "proved",
   "theorems": [
    "C62_reversible",
    "C62_velocities_allowed",
    "C62_momentum_unprojected",
    "C62_momentum_equal_masses",
    "C62_relative_acceleration",
    "C62_momentum_refuted",
    "C62_average"
   ],
   "note": "False as stated for momentum (_refuted): constrain removes the unweighted mean of the accelerations, so with unequal masses the total momentum changes although forces sum to zero. Proved: time reversal of n steps for every force field with constraints and symmetries, velocities stay allowed, momentum with equal masses or without the projection (external potential), relative accelerations, mean of the accumulated density. Thermostats and the electronic minimization are not modelled; forces are a function of the positions."
  },
  {
   "property": "C63",
   "status": "proved",
   "theorems": [
    "C63_ionic",
    "C63_lattice_fixed_cell",
    "C63_lattice_defect",
    "C63_lattice_refuted"
   ],
   "note": "False as stated for lattice steps that change the cell (_refuted): steps multiply the lattice, so two steps differ from one by alpha beta L^2 R (C63_lattice_defect states the exact difference of lattice and positions). Proved for ionic steps, and for lattice steps with fixed cell."
  },
  {
   "property": "C64",
   "status": "proved",
   "theorems": [
    "C64_reduce",
    "C64_mesh",
    "C64_construction",
    "C64_initial_faces",
    "C64_constructed_faces",
    "C64_boundary_distance",
    "C64_inradius",
    "C64_neighbours_refuted",
    "C64_neighbours"
   ],
   "note": "WS_Model transcribes the face equations, the initial parallelepiped and its vertices, the enumeration of candidate planes, the slicing loop, the choice of one face per inversion pair, both reductions, boundaryDistance, inRadius and getNeighbours. The polyhedron bookkeeping (vertices, edges, addPlane's graph surgery) is not modelled: addPlane and the largest vertex distance are functions with the hypotheses slices and extent. C64_reduce gives termination (enough fuel exists and more fuel changes nothing), equivalence, non-increase of the distance and membership of the cell up to 2e-8 |l|^2; C64_construction shows that the enumerated planes bound exactly the cell. Finding: the continue of WignerSeitz.cpp line 184 only affects the inner loop, so getNeighbours returns neighbours along truncated directions too (C64_neighbours_refuted)."
  },
  {
   "property": "C65",
   "status": "proved",
   "theorems": [
    "C65_gradient_value",
    "C65_gradient_divergence",
    "C65_gradient_divergence_fields",
    "C65_gradient_real_field",
    "C65_divergence_real_field",
    "C65_D_real_field_refuted",
    "C65_tensor_gradient_value",
    "C65_tensor_gradient_divergence",
    "C65_tensor_fields",
    "C65_tensor_projection",
    "C65_tensor_pack",
    "C65_l_gradient_divergence"
   ],
   "note": "Pointwise and for whole fields under the inner product of the code; value of the gradient; real fields stay real except for the single-direction derivative D, refuted at the Nyquist frequency."
  },
  {
   "property": "C66",
   "status": "proved",
   "theorems": [
    "C66_dot",
    "C66_sum",
    "C66_dot_odd_refuted"
   ],
   "note": "False as stated for odd third dimension >= 3: C66_dot_odd_refuted (the last slice is counted once although it is not at the Nyquist frequency). Proved for even or unit third dimension."
  },
  {
   "property": "C67",
   "status": "proved",
   "theorems": [
    "C67_sigma",
    "C67_unpolarized_gradient",
    "C67_collinear_gradient",
    "C67_noncollinear_gradient_one_process",
    "C67_noncollinear_processes_agree_refuted",
    "C67_noncollinear_deficit"
   ],
   "note": "False as stated for noncollinear densities on several processes: the increments of ExCorr.cpp line 889 are not summed over processes (C67_noncollinear_processes_agree_refuted, deficit in C67_noncollinear_deficit); proved for unpolarized and collinear densities with any number of processes and for noncollinear densities on one process."
  },
  {
   "property": "C68",
   "status": "proved",
   "theorems": [
    "C68_unitary",
    "C68_cover",
    "C68_product",
    "C68_inversion"
   ],
   "note": "Proved for all orthogonal matrices further than 1e-7 from gimbal lock or exactly locked; unitarity holds for every input."
  },
  {
   "property": "C69",
   "status": "proved",
   "theorems": [
    "C69_modes",
    "C69_planar_z_refuted"
   ],
   "note": "False as stated for planar constraints with normal along z (_refuted): both components compare equal, the z axis is chosen as reference and the mode is 0/0. Proved for all others, with NaN as the value None. The branch of the code for hyperplane constraints ends with an error and is excluded."
  },
  {
   "property": "C70",
   "status": "proved",
   "theorems": [
    "C70_fixed_vectors",
    "C70_projector"
   ],
   "note": "Proved for every lattice, group and path on which the lattice stays non-singular, with the commensurability condition which the constructor checks (transcribed as the hypothesis commensurate)."
  },
  {
   "property": "C71",
   "status": "proved",
   "theorems": [
    "C71_safe_step",
    "C71_actual_strain",
    "C71_safe_step_refuted"
   ],
   "note": "False as stated (_refuted): the criterion adds alpha*dir to the strain, but the step multiplies the lattice, so the resulting strain (C71_actual_strain) has another term and compute may return NAN after a safe step. Proved: termination, positivity, half of the allowed strain, and the bound on the sum."
  },
  {
   "property": "C72",
   "status": "proved",
   "theorems": [
    "C72_partition_of_unity",
    "C72_interpolation",
    "C72_support",
    "C72_reversal",
    "C72_equivalence_refuted",
    "C72_equivalence"
   ],
   "note": "CellMap_Model transcribes getCellMap: the search box, the smooth weights, the normalization of sets of equivalent cells with its assertion (None), with the result as a list of entries. The circumscribed radius and the neighbour list are arguments: the radius must contain the Wigner-Seitz cell of the supercell (contains_cell), the neighbours are arbitrary (closed under inversion for C72_reversal; C64_neighbours gives the list the code uses). Supercell matrices are exact integer combinations, truncated directions orthogonal to the others and not mixed by the supercell. C72_partition_of_unity holds up to 1/symmThreshold cells; beyond that the test of equivalence accepts inequivalent cells (C72_equivalence_refuted), which is a limitation rather than a practical error. File output (writeCellMap) is not modelled."
  },
  {
   "property": "C73",
   "status": "proved",
   "theorems": [
    "C73_expand_shrink",
    "C73_images",
    "C73_adjoint",
    "C73_odd_mesh_refuted"
   ],
   "note": "False as stated (C73_odd_mesh_refuted): when every sample count is odd (possible with a user-specified fftbox, which is only checked against a minimum) the boundary map can be empty, and symmEquiv.rbegin() at Coulomb.cpp 428 is undefined behaviour. Proved when some sample count is even (automatic meshes are), for truncated directions orthogonal to the others, meshes resolved by the tolerance (mesh points are on a bounding plane or off it by more than the tolerance; the code compares a squared length with 1e-8 on the inside and a fraction on the outside) and mesh coordinates that fit in 16 bits (positiveRemainder). Embed_Model transcribes the real-space parts: index map, boundary map as a multimap, classes, symmetrization, scatter and gather. Fourier transforms and the shift by the embedding center are not modelled. The faces are those of C64."
  },
  {
   "property": "C74",
   "status": "proved",
   "theorems": [
    "C74_linear_cg",
    "C74_terminates",
    "C74_line_minimum",
    "C74_test_step_never_reduced"
   ],
   "note": "Equality of the results of Minimizable::minimize and LinearSolvable::solve in exact arithmetic, for the three conjugate gradient formulas and linminQuad, with the energy threshold at zero (which decreasing energies never meet). Observation proved as C74_test_step_never_reduced: Minimize_linmin.h 101 tests alphaT/alpha where its message says alpha/alphaT, so that the reduction of an overlong test step is unreachable with the default factors."
  },
  {
   "property": "C75",
   "status": "proved",
   "theorems": [
    "C75_d2_energy",
    "C75_lennard_jones_energy",
    "C75_coordination_numbers",
    "C75_d3_energy"
   ],
   "note": "VdW_Model transcribes energyAndGrad of D2 and D3 and computeCN with the half-space loops of C04 and the division of cells of C01; the whole box is what the loops represent. For D2 the theorem is for atoms further apart than the radius at which the code switches to a constant (below it the energy is a constant by design). For D3 it needs coefficient tables symmetric under exchange of the species (true of correctly laid out tables, see C77 for where the code lays them out wrongly), coordination numbers within reach of the references (otherwise the code takes the largest reference, C77_largest_reference), and non-zero C6 for Becke-Johnson damping (the code divides by it)."
  },
  {
   "property": "C76",
   "status": "proved",
   "theorems": [
    "C76_d2_gradient",
    "C76_d3_gradient",
    "C76_d2_total_force",
    "C76_d3_total_force",
    "C76_d2_symmetric_stress",
    "C76_d3_symmetric_stress"
   ],
   "note": "Derivative along an arbitrary joint displacement and strain. Excluded are the geometries where the energy itself jumps or has a kink: pairs exactly at a cutoff or at the switching radius, coincident atoms, and a sum of weights exactly at the underflow threshold. Holds for any list of cells per process, and for any tables (in particular also with the layout of C77_layout_refuted)."
  },
  {
   "property": "C77",
   "status": "proved",
   "theorems": [
    "C77_layout_refuted",
    "C77_layout_same_element",
    "C77_layout_single_reference",
    "C77_pair_index",
    "C77_references",
    "C77_weights",
    "C77_interpolation_bounds",
    "C77_largest_reference",
    "C77_reach_orthogonal",
    "C77_reach_refuted",
    "C77_cache",
    "C77_cache_refuted"
   ],
   "note": "False as stated in three ways. C77_layout_refuted (data of hydrogen and oxygen from VanDerWaalsD3_data.h): VanDerWaalsD3.cpp 78-87 writes the coefficients with the second species running fastest into a matrix stored with the first index running fastest, so that the coefficients of pairs of different elements with more than one reference each are permuted (3741 of the 4371 pairs of the tables), and the two orders of a pair disagree. C77_reach_refuted: the number of sampled cells is the cutoff divided by the length of the lattice vector rather than by the height of the cell, so that skewed cells (the primitive fcc cell of the witness with the default cutoff) miss images within the cutoff. C77_cache_refuted: the cache of radial functions is keyed by atomic numbers only, so that species with overridden parameters get those of whichever species came first. Proved: layout for the same element or a single reference, weights, indexing of pairs, reach in orthogonal cells, and the cache without overrides."
  },
  {
   "property": "C78",
   "status": "proved",
   "theorems": [
    "C78_thermostat_conserves",
    "C78_barostat_conserves",
    "C78_pressure_work",
    "C78_strain_allowed"
   ],
   "note": "Exact statement for the differential equations; the discretization error of the Verlet steps is not modelled (C62 covers the steps themselves without thermostat). The potential energy is any function whose derivatives are the accelerations and stress along the trajectory. With a barostat all atoms must be unconstrained (the friction from the strain rate does not respect constraints); chains of length zero are reads out of range (None)."
  },
  {
   "property": "C79",
   "status": "proved",
   "theorems": [
    "C79_berendsen_temperature",
    "C79_berendsen_strain",
    "C79_berendsen_pressure",
    "C79_pressure",
    "C79_initial_temperature",
    "C79_storage",
    "C79_corrector",
    "C79_degrees_of_freedom",
    "C79_hyperplane_refuted",
    "C79_all_fixed_refuted",
    "C79_external_potential_refuted"
   ],
   "note": "False as stated in four ways. C79_hyperplane_refuted: the degrees of freedom of atoms constrained to hyperplanes are counted as three each (IonicMinimizer removes one for the whole group), so that a single atom that moves in a plane is reported to have no degrees of freedom. C79_all_fixed_refuted: with all atoms fixed, the count is forced to one instead of stopping. C79_external_potential_refuted: three degrees of freedom are taken off for the translations of unconstrained atoms even when an external potential lets them move. C79_berendsen_pressure: with B0 the bulk modulus the pressure relaxes with a third of the requested damping time. Proved: the number of degrees of freedom is the trace of the constraint projector in systems without hyperplanes, external potentials and symmetries; all the other parts."
  },
  {
   "property": "C80",
   "status": "proved",
   "theorems": [
    "C80_periodic_gradients"
   ],
   "note": "Ewald_Model transcribes the loops of EwaldPeriodic with the half cells of C04; the number of samples and the width are held fixed under displacement and strain, as in the object that the code constructs once. Excluded are atoms on top of images of each other (division by zero) and atoms exactly on the edge of the home cell, where the truncated sum jumps by the terms bounded in C82."
  },
  {
   "property": "C81",
   "status": "proved",
   "theorems": [
    "C81_total_force",
    "C81_symmetric_lattice_derivative",
    "C81_images",
    "C81_ewald_formula"
   ],
   "note": ""
  },
  {
   "property": "C82",
   "status": "proved",
   "theorems": [
    "C82_real_space_cutoff",
    "C82_reciprocal_space_cutoff",
    "C82_slab_real_space_cutoff",
    "C82_slab_reciprocal_space_cutoff",
    "C82_slab_boxes_one_layer",
    "C82_widths_scale"
   ],
   "note": "Bounds on each factor left out, not on the whole infinite sum. The constant nSigmasPerWidth = 1+sqrt(-2 log(DBL_EPSILON)) is written out in the statement as 1+sqrt(104 ln 2)."
  },
  {
   "property": "C83",
   "status": "proved",
   "theorems": [
    "C83_slab_gradients",
    "C83_slab_total_force",
    "C83_slab_symmetric_lattice_derivative",
    "C83_slab_images",
    "C83_slab_formula",
    "C83_slab_stops_only_near_boundary"
   ],
   "note": "The formula is proved for truncation directions orthogonal to the other lattice vectors, which Coulomb.cpp checks elsewhere. The code drops terms with G|z| above 100 to avoid overflow (CoulombSlab.cpp 130): the gradients are those of the energy except exactly at the jump, and C83_slab_formula bounds the difference from the formula by exp(-100)-sized terms (leftOut)."
  },
  {
   "property": "C84",
   "status": "proved",
   "theorems": [
    "C84_isolated_coulomb_law",
    "C84_isolated_gradients",
    "C84_isolated_total_force",
    "C84_isolated_symmetric_lattice_derivative",
    "C84_isolated_margin",
    "C84_field_gradient",
    "C84_field_potential",
    "C84_field_uniform",
    "C84_field_threshold",
    "C84_field_periodic",
    "C84_field_lattice_derivative_refuted",
    "C84_embedding_gradients",
    "C84_embedding_positions"
   ],
   "note": "False as stated for the lattice derivative in an electric field: C84_field_lattice_derivative_refuted (Coulomb.cpp 298-312 adds the energy and forces of the field but nothing to E_RRT, although the energy depends on the strain). The reduction to the Wigner-Seitz cell is a parameter, as in C73: the theorems hold wherever it is locally a translation. Everything else proved."
  },
  {
   "property": "C85",
   "status": "proved",
   "theorems": [
    "C85_periodic",
    "C85_screened_probe",
    "C85_ewald_probe",
    "C85_spherical",
    "C85_slab",
    "C85_shifted_kpoint_refuted",
    "C85_screened_zero",
    "C85_spherical_zero"
   ],
   "note": "False as stated for k-points equal up to a non-zero reciprocal lattice vector: C85_shifted_kpoint_refuted (Coulomb_ExchangeEval.cpp 635 tests kDiff itself and adds the derivative to the iG=0 component, while the kernel uses the G=0 value wherever iG+kDiff vanishes). Otherwise proved, for grids where no other wave vector is below the threshold. The box of the probe-charge sum is fixed under the strain. Screened spherical and slab, cylindrical and numerical kernels are not modelled."
  },
  {
   "property": "C86",
   "status": "proved",
   "theorems": [
    "C86_probe_energy",
    "C86_probe_derivative",
    "C86_probe_cutoff",
    "C86_ewald_probe_energy",
    "C86_correction",
    "C86_effGsq_periodic",
    "C86_effGsq_nonneg",
    "C86_effGsq_zero",
    "C86_effGsq_limit",
    "C86_singular_3D",
    "C86_singular_3D_value",
    "C86_singular_3D_screened",
    "C86_singular_2D_value",
    "C86_singular_2D_screened",
    "C86_singular_2D_zero",
    "C86_erf_by_x",
    "C86_erf_by_x_derivative",
    "C86_erf_series_derivative",
    "C86_mesh_sum",
    "C86_mesh_constant",
    "C86_finite_difference"
   ],
   "note": "The quadrature of the auxiliary function over the zone (lines 75-141) is a parameter I. At |x| = 1e-3, where erf_by_x switches between its branches with a jump below 1e-19, no derivative is claimed."
  },
  {
   "property": "C87",
   "status": "proved",
   "theorems": [
    "C87_sample_count",
    "C87_extraction",
    "C87_reduced_differences",
    "C87_offset_assertion",
    "C87_pair_kernel",
    "C87_pair_reads",
    "C87_shift_bound",
    "C87_grid_edge_refuted",
    "C87_real_kernel"
   ],
   "note": "False as stated at the edge of the grid: C87_grid_edge_refuted (multTransformedKernel_calc wraps a shifted component onto another wave vector); proved when the shifted components stay on the grid. The cubature of the supercell kernel itself (CoulombKernel::compute) is a parameter."
  },
  {
   "property": "C88",
   "status": "proved",
   "theorems": [
    "C88_partition",
    "C88_ranges",
    "C88_balance",
    "C88_cost_positive"
   ],
   "note": "Estimated costs are integers; overflow of the product of the process index and the total cost is not modelled."
  },
  {
   "property": "C89",
   "status": "proved",
   "theorems": [
    "C89_multiplicities",
    "C89_sound",
    "C89_complete",
    "C89_no_duplicates",
    "C89_number",
    "C89_state_weight",
    "C89_total_weight",
    "C89_momentum",
    "C89_inverse",
    "C89_candidates_near",
    "C89_candidates_all",
    "C89_candidates_distinct"
   ],
   "note": "The search for the best choice of transforms (lines 324-363) is not modelled: the theorems hold for every choice."
  },
  {
   "property": "C90",
   "status": "proved",
   "theorems": [
    "C90_messages_match",
    "C90_receives_completed",
    "C90_everything_sent",
    "C90_wavefunctions_never_completed",
    "C90_sends_completed_refuted"
   ],
   "note": "False as stated: C90_sends_completed_refuted (ExactExchange.cpp 493-501 adds no request before the sends of the occupations and eigenvalues, so the handle of the send of the wavefunctions is overwritten and never waited for: C90_wavefunctions_never_completed). Proved for receives, for the matching of messages and for occupations."
  },
  {
   "property": "C91",
   "status": "proved",
   "theorems": [
    "C91_fixed_N_gradient",
    "C91_fixed_N_and_M_gradient",
    "C91_fixed_mu_gradient",
    "C91_fixed_mu_and_M_derivative",
    "C91_fixed_mu_and_M_gradient_refuted",
    "C91_energies_of_fillings",
    "C91_fixed_mu_and_field_energies_refuted",
    "C91_smearGrad_rotations"
   ],
   "note": "False as stated: C91_fixed_mu_and_M_gradient_refuted (ElecVars.cpp 458 divides by the difference of the channels instead of the sum: C91_fixed_mu_and_M_derivative) and C91_fixed_mu_and_field_energies_refuted (ElecInfo.cpp 264-265 leave Bz at 0 when mu is given). Proved for fixed N, fixed N and M, and fixed mu and field. The off-diagonal part is C91_smearGrad_rotations, for eigenvalues that are equal or at least 1e-6 apart."
  },
  {
   "property": "C92",
   "status": "proved",
   "theorems": [
    "C92_pow_independent_of_eigenvectors",
    "C92_pow_exponents_add",
    "C92_pow_one_and_zero",
    "C92_invsqrt",
    "C92_invsqrt_singular",
    "C92_invsqrt_stops_only_if_singular",
    "C92_square_root",
    "C92_negative_eigenvalues_dropped",
    "C92_cis_unitary",
    "C92_cis_independent_of_eigenvectors",
    "C92_cis_of_cisInv",
    "C92_cisInv_of_cis",
    "C92_sqrt_gradient",
    "C92_cis_gradient",
    "C92_orthoMatrix",
    "C92_dagger_symmetrize"
   ],
   "note": "Eigenvectors, eigenvalues and the inverse Cholesky factor from LAPACK are inputs with contracts (MatFun_Spec). Matrices are over the exact complex numbers."
  },
  {
   "property": "C93",
   "status": "proved",
   "theorems": [
    "C93_constrain",
    "C93_scalar_fillings_gradient",
    "C93_auxiliary_gradient",
    "C93_rotation_derivative",
    "C93_rotation_gradient_refuted",
    "C93_fixed_Hamiltonian"
   ],
   "note": "False as stated for constant fillings that differ between bands: C93_rotation_gradient_refuted (ElecMinimizer.cpp 214 leaves out the weight of the state; C93_rotation_derivative has the correct derivative). Proved for scalar fillings and for the auxiliary Hamiltonian. One state at a time; LAPACK results are inputs with contracts; eigenvalues equal or at least 1e-6 apart (threshold in smearGrad), eigenvectors differentiable with the identity at the start."
  },
  {
   "property": "C94",
   "status": "proved",
   "theorems": [
    "C94_steps_compose",
    "C94_only_total_length",
    "C94_start",
    "C94_report",
    "C94_scalar_steps_refuted",
    "C94_trial_gradient_refuted"
   ],
   "note": "False as stated: C94_scalar_steps_refuted (with constant scalar fillings step adds the direction to wavefunctions that were already orthonormalized without rotating or scaling it, ElecMinimizer.cpp 163-167, so that a step and its reverse do not cancel) and C94_trial_gradient_refuted (ElecMinimizer.cpp 201 multiplies by the inverse of the rotation instead of its adjoint, which matters away from the start of a line search). Orthonormality, rotations, dependence on total length, and report are proved."
  },
  {
   "property": "C95",
   "status": "proved",
   "theorems": [
    "C95_pairs",
    "C95_energy",
    "C95_semidefinite",
    "C95_rpa_fillings"
   ],
   "note": "Linear maps (transforms, Coulomb kernel) are arbitrary matrices; all bands of one state on one process (the division among processes is C88-C90); the lattice gradient is not modelled."
  },
  {
   "property": "C96",
   "status": "proved",
   "theorems": [
    "C96_compressed_operator",
    "C96_exact_on_span",
    "C96_bound",
    "C96_consistent",
    "C96_span_only",
    "C96_matches_full",
    "C96_when_used"
   ],
   "note": "Exact arithmetic: eigenvalues that are zero are exactly zero. The full computation is that of C95."
  },
  {
   "property": "C97",
   "status": "proved",
   "theorems": [
    "C97_symmetric",
    "C97_no_net_force",
    "C97_fixed",
    "C97_nearest",
    "C97_numbering",
    "C97_cell_map",
    "C97_remapped",
    "C97_hermitian",
    "C97_acoustic",
    "C97_all_paired"
   ],
   "note": "Doubles are reals; the diagonalization itself is not modelled."
  },
  {
   "property": "C98",
   "status": "proved",
   "theorems": [
    "C98_moment_removed",
    "C98_symmetric",
    "C98_no_net_force",
    "C98_unchanged",
    "C98_reported_error",
    "C98_defined",
    "C98_single_cell_refuted",
    "C98_axis_refuted"
   ],
   "note": "False as stated for existence: C98_single_cell_refuted (a single repetition along an untruncated direction makes alphaInv singular) and C98_axis_refuted (truncation flags number lattice directions but are applied to Cartesian axes). Proved: existence when the cells of one pair of atoms span space and nothing is truncated; the derivative vanishes whenever the correction exists, with truncated directions aligned with the axes of the same number."
  },
  {
   "property": "C99",
   "status": "proved",
   "theorems": [
    "C99_total_weight",
    "C99_degree",
    "C99_points",
    "C99_inversion",
    "C99_free_energy",
    "C99_entropy",
    "C99_order",
    "C99_zero_point",
    "C99_imaginary_reported",
    "C99_no_false_alarm",
    "C99_zero_mode_refuted",
    "C99_molecule_refuted",
    "C99_unit_weight_refuted"
   ],
   "note": "False as stated in three places: the weights add up to (1+5e-34)^d (1-3^(-7d)) for d periodic directions (C99_total_weight, C99_unit_weight_refuted); with every direction truncated there are no points and all free energies are zero (C99_molecule_refuted); a lowest eigenvalue of exactly zero reads before the start of the list of points (C99_zero_mode_refuted). The rest proved; imaginary modes are left out of the sums as in the code."
  },
  {
   "property": "C100",
   "status": "proved",
   "theorems": [
    "C100_homogeneous",
    "C100_smooth",
    "C100_harmonic",
    "C100_orthogonal",
    "C100_normalised",
    "C100_integral_unique",
    "C100_addition",
    "C100_axis"
   ],
   "note": "orthogonality exact; normalisation within 4e-16 and addition theorem within 3e-12 because the code's constants are decimals"
  },
  {
   "property": "C101",
   "status": "proved",
   "theorems": [
    "C101_product",
    "C101_terms",
    "C101_symmetric",
    "C101_high_degree_refuted"
   ],
   "note": "False as stated for degrees above 3, which the harmonics support but the table does not (C101_high_degree_refuted); proved for degrees up to 3"
  },
  {
   "property": "C102",
   "status": "proved",
   "theorems": [
    "C102_gradient"
   ],
   "note": "within 2e-14 because the constants are decimals"
  },
  {
   "property": "C103",
   "status": "proved",
   "theorems": [
    "C103_large_exact",
    "C103_error",
    "C103_unique",
    "C103_parity",
    "C103_zero",
    "C103_accuracy_refuted",
    "C103_high_degree_refuted"
   ],
   "note": "False as stated for degrees above 6 (C103_high_degree_refuted) and for the accuracy the comment promises (C103_accuracy_refuted); proved for degrees up to 6 with 4e-15"
  },
  {
   "property": "C104",
   "status": "proved",
   "theorems": [
    "C104_residual",
    "C104_monotone",
    "C104_minimal",
    "C104_krylov",
    "C104_converged",
    "C104_state",
    "C104_iterations",
    "C104_finite_termination",
    "C104_solved_start",
    "C104_solved_start_refuted",
    "C104_restart_refuted"
   ],
   "note": "False as stated for starts that already solve the system (C104_solved_start_refuted) and for restarts (C104_restart_refuted); proved for all other runs"
  },
  {
   "property": "C105",
   "status": "proved",
   "theorems": [
    "C105_exact",
    "C105_exists",
    "C105_linear",
    "C105_pivots",
    "C105_defined"
   ],
   "note": "Doubles are idealised as reals. The split over threads is left out, since locations are independent."
  },
  {
   "property": "C106",
   "status": "proved",
   "theorems": [
    "C106_simpson",
    "C106_defined",
    "C106_even_drops",
    "C106_weights_refuted"
   ],
   "note": "False as stated for weights from initWeights (C106_weights_refuted); proved under a logarithmic grid."
  },
  {
   "property": "C107",
   "status": "proved",
   "theorems": [
    "C107_spin_potentials",
    "C107_unpolarized_potentials",
    "C107_uniform",
    "C107_weizsacker",
    "C107_bounds",
    "C107_equal_spins"
   ],
   "note": "The PW91 form is differentiated for positive gradients only, since a square root of the contraction enters. Short-ranged omega-PBE, GLLB-sc and LB94 are not modelled."
  },
  {
   "property": "C108",
   "status": "proved",
   "theorems": [
    "C108_spin_potentials",
    "C108_unpolarized_potentials",
    "C108_H0",
    "C108_uniform_negative",
    "C108_bounds",
    "C108_uniform",
    "C108_equal_spins"
   ],
   "note": "Full polarization is excluded, where the code itself drops a singular term."
  },
  {
   "property": "C109",
   "status": "proved",
   "theorems": [
    "C109_integral1",
    "C109_integral3",
    "C109_integral5",
    "C109_integral2_derivative",
    "C109_integral2_limit",
    "C109_derivatives1",
    "C109_derivatives2",
    "C109_derivatives3",
    "C109_derivatives5"
   ],
   "note": "n = 2 has no elementary antiderivative: it is characterized by its derivative with respect to B, stated with the improper integral of the differentiated integrand, and its limit for large B."
  },
  {
   "property": "C110",
   "status": "proved",
   "theorems": [
    "C110_derivatives",
    "C110_uniform_refuted",
    "C110_scaling_refuted",
    "C110_scaling_jump"
   ],
   "note": "False as stated: C110_uniform_refuted (at s2 = 0 the s2 derivative divides zero by zero) and C110_scaling_refuted (the scaling of s is not continuous at s = 1); proved for every s2 > 0 other than the two thresholds 1 and 225. At the level of GGA_eval; the composition with the density is C107 for the other functionals."
  },
  {
   "property": "C111",
   "status": "proved",
   "theorems": [
    "C111_LB94",
    "C111_LB94_sign",
    "C111_LB94_equal_spins",
    "C111_LB94_spin_refuted",
    "C111_LB94_tail",
    "C111_LB94_asymptote_refuted",
    "C111_GLLBsc"
   ],
   "note": "False as stated: C111_LB94_spin_refuted (the formula is evaluated at the density multiplied by the number of channels instead of the spin density) and C111_LB94_asymptote_refuted (the cutoff on the density removes the tail); proved: C111_LB94 with the scaled density, sign, equal spins, tail and GLLB-sc."
  },
  {
   "property": "C112",
   "status": "proved",
   "theorems": [
    "C112_axis",
    "C112_samples",
    "C112_normalized",
    "C112_positive",
    "C112_average",
    "C112_site"
   ],
   "note": "Largest among the exact symmetries; a symmetry within the threshold but not exact may be accepted or missed. The quadrature over nodes itself (exactness to jMax) is not part of the claim."
  },
  {
   "property": "C113",
   "status": "proved",
   "theorems": [
    "C113_neutral",
    "C113_unique",
    "C113_iterations_refuted",
    "C113_derivatives",
    "C113_fixed"
   ],
   "note": "False as stated: C113_iterations_refuted (the loop ends silently after ten iterations far from neutrality although a neutral shift exists); proved when the loop ends by its convergence test. The differentiability of the neutral shift is a hypothesis of C113_derivatives."
  }
 ]
}

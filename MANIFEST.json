{
 "claims": [
  {
   "property": "C01",
   "status": "proved",
   "theorems": [
    "C01_box_index"
   ],
   "note": "any dimension"
  },
  {
   "property": "C02",
   "status": "proved",
   "theorems": [
    "C02_global_index",
    "C02_large_lattice_refuted"
   ],
   "note": "up to 2^31 sites; beyond, the code runs into signed overflow (witness)"
  },
  {
   "property": "C03",
   "status": "proved",
   "theorems": [
    "C03_ownership"
   ],
   "note": ""
  },
  {
   "property": "C04",
   "status": "proved",
   "theorems": [
    "C04_global_neighbours"
   ],
   "note": ""
  },
  {
   "property": "C05",
   "status": "proved",
   "theorems": [
    "C05_sum_diff",
    "C05_opposite",
    "C05_opposite_origin",
    "C05_opposite_refuted"
   ],
   "note": "sum and difference proved; glblxOpp characterised on every rank: it is the opposite exactly on the rank at the origin (refuted elsewhere)"
  },
  {
   "property": "C06",
   "status": "proved",
   "theorems": [
    "C06_labels"
   ],
   "note": ""
  },
  {
   "property": "C07",
   "status": "proved",
   "theorems": [
    "C07_tables"
   ],
   "note": ""
  },
  {
   "property": "C08",
   "status": "proved",
   "theorems": [
    "C08_neighbours",
    "C08_edges_refuted"
   ],
   "note": "for local and border sites; the entries of edge sites stepping outward are wrong (refutation)"
  },
  {
   "property": "C09",
   "status": "proved",
   "theorems": [
    "C09_bulk"
   ],
   "note": ""
  },
  {
   "property": "C10",
   "status": "proved",
   "theorems": [
    "C10_halo"
   ],
   "note": "lx fields; message matching per MPI tag/peer; any execution order of the surface loop"
  },
  {
   "property": "C11",
   "status": "proved",
   "theorems": [
    "C11_edges"
   ],
   "note": ""
  },
  {
   "property": "C12",
   "status": "proved",
   "theorems": [
    "C12_eo_labels"
   ],
   "note": ""
  },
  {
   "property": "C13",
   "status": "proved",
   "theorems": [
    "C13_split_paste"
   ],
   "note": "any execution order of the loops"
  },
  {
   "property": "C14",
   "status": "proved",
   "theorems": [
    "C14_eo_neighbours"
   ],
   "note": "local sites, and border sites where the target is stored"
  },
  {
   "property": "C15",
   "status": "proved",
   "theorems": [
    "C15_halo_eo",
    "C15_edges_eo"
   ],
   "note": "halo and edges of one parity part"
  },
  {
   "property": "C16",
   "status": "proved",
   "theorems": [
    "C16_minimal_surface_grid",
    "C16_degenerate_refuted"
   ],
   "note": "for 1 < ranks < volume, whatever the overflowing tie-break products give; with one rank or one site per rank the constraints are ignored (refuted); the missing abort when nothing is found is shown by example"
  },
  {
   "property": "C17",
   "status": "proved",
   "theorems": [
    "C17_factorize"
   ],
   "note": ""
  },
  {
   "property": "C18",
   "status": "proved",
   "theorems": [
    "C18_boxes"
   ],
   "note": ""
  },
  {
   "property": "C19",
   "status": "proved",
   "theorems": [
    "C19_mirror"
   ],
   "note": ""
  },
  {
   "property": "C20",
   "status": "proved",
   "theorems": [
    "C20_stagphases"
   ],
   "note": ""
  },
  {
   "property": "C21",
   "status": "proved",
   "theorems": [
    "C21_ildg_order"
   ],
   "note": "up to 2^31 sites (the codes are int)"
  },
  {
   "property": "C22",
   "status": "proved",
   "theorems": [
    "C22_scatter",
    "C22_gather",
    "C22_remap",
    "C22_symmetric",
    "C22_ildg",
    "C22_ildg_refuted"
   ],
   "note": "any schedule of the parallel loops; lists must be balanced and the local part right, refuted otherwise on a valid grid"
  },
  {
   "property": "C23",
   "status": "proved",
   "theorems": [
    "C23_locd",
    "C23_delivery",
    "C23_unbalanced_refuted"
   ],
   "note": ""
  },
  {
   "property": "C24",
   "status": "proved",
   "theorems": [
    "C24_gathering_list",
    "C24_owner_refuted"
   ],
   "note": "bookkeeping proved; that the owner is asked is refuted"
  },
  {
   "property": "C25",
   "status": "proved",
   "theorems": [
    "C25_paths",
    "C25_paths_eo",
    "C25_links_once",
    "C25_recording_cells",
    "C25_buffer_overrun_refuted",
    "C25_summ_twice_refuted",
    "C25_empty_path_refuted"
   ],
   "note": "values, communications and numbering proved; buffer bound, double sum and empty paths refuted"
  },
  {
   "property": "C26",
   "status": "proved",
   "theorems": [
    "C26_format",
    "C26_found",
    "C26_missing",
    "C26_long_name_refuted",
    "C26_endless_refuted"
   ],
   "note": "names up to 127 characters; longer ones refuted; a corrupted length can make the search endless"
  },
  {
   "property": "C27",
   "status": "proved",
   "theorems": [
    "C27_aligned",
    "C27_unaligned_refuted"
   ],
   "note": "lengths multiple of 8; the others refuted as the property says"
  },
  {
   "property": "C28",
   "status": "proved",
   "theorems": [
    "C28_checksum",
    "C28_grid_independent"
   ],
   "note": "lattices up to 2^32 sites; the undefined shift by 32 assumed to give 0 or the operand"
  },
  {
   "property": "C29",
   "status": "proved",
   "theorems": [
    "C29_checksum_text"
   ],
   "note": "printf %#010x and sscanf %x modelled"
  },
  {
   "property": "C30",
   "status": "proved",
   "theorems": [
    "C30_byteSwap",
    "C30_round_trip",
    "C30_value"
   ],
   "note": ""
  },
  {
   "property": "C31",
   "status": "proved",
   "theorems": [
    "C31_buffer_queue",
    "C31_portable"
   ],
   "note": ""
  },
  {
   "property": "C32",
   "status": "proved",
   "theorems": [
    "C32_words",
    "C32_past_the_end",
    "C32_missing_refuted",
    "C32_unclosed",
    "C32_list",
    "C32_wrong_tag",
    "C32_single_char_refuted",
    "C32_not_a_number_refuted"
   ],
   "note": "formats %s and %d; tokens shorter than the 1024 characters buffer; comments made of tokens of at least two characters (one-character ones are refuted); doubles not modelled"
  },
  {
   "property": "C33",
   "status": "proved",
   "theorems": [
    "C33_config",
    "C33_no_file",
    "C33_missing_value",
    "C33_unterminated_refuted"
   ],
   "note": "integer parameters (the double ones are read through the same path with another format); names shorter than 100 characters"
  },
  {
   "property": "C34",
   "status": "proved",
   "theorems": [
    "C34_ran2",
    "C34_random_position",
    "C34_zero_refuted",
    "C34_seed_max_refuted",
    "C34_dead_component_refuted"
   ],
   "note": "int operations checked one by one; double operations as IEEE binary64 (Flocq), no fused multiply-add"
  },
  {
   "property": "C35",
   "status": "proved",
   "theorems": [
    "C35_save_restore",
    "C35_any_content",
    "C35_small_buffer_refuted"
   ],
   "note": "printf %d and sscanf %s, %d modelled"
  },
  {
   "property": "C36",
   "status": "proved",
   "theorems": [
    "C36_site_generators"
   ],
   "note": "lattices below 2^31-1 sites"
  },
  {
   "property": "C37",
   "status": "proved",
   "theorems": [
    "C37_permutation"
   ],
   "note": ""
  },
  {
   "property": "C38",
   "status": "proved",
   "theorems": [
    "C38_counter",
    "C38_zero_refuted"
   ],
   "note": ""
  },
  {
   "property": "C39",
   "status": "proved",
   "theorems": [
    "C39_no_reuse",
    "C39_layout_independent",
    "C39_large_lattice_refuted",
    "C39_single_usage"
   ],
   "note": "little endian machine for the low 32 bits; unspecified order of the two calls covered both ways"
  },
  {
   "property": "C40",
   "status": "proved",
   "theorems": [
    "C40_fresh",
    "C40_blocks_disjoint",
    "C40_accounting",
    "C40_never_undefined",
    "C40_release_unknown",
    "C40_reuse",
    "C40_clear",
    "C40_destroy",
    "C40_small_alignment_refuted",
    "C40_verbose_clear_refuted",
    "C40_overflow_refuted"
   ],
   "note": "the system allocator is any one whose answers are aligned, non null and disjoint from the blocks it has handed out; int64 counters do not wrap"
  },
  {
   "property": "C41",
   "status": "proved",
   "theorems": [
    "C41_registry",
    "C41_safe",
    "C41_duplicate",
    "C41_flags",
    "C41_null_refuted"
   ],
   "note": "tags and the tag check of vector_reset not modelled; malloc answers an address not in use"
  },
  {
   "property": "C42",
   "status": "proved",
   "theorems": [
    "C42_locReduce",
    "C42_schedule_independent",
    "C42_glb_reduce",
    "C42_field_reduce",
    "C42_glbReduce_max_refuted"
   ],
   "note": "any schedule at the level of single memory accesses; MPI_Allreduce combines in any order and bracketing; preciseReduce not modelled"
  },
  {
   "property": "C43",
   "status": "proved",
   "theorems": [
    "C43_each_index_once",
    "C43_serial_equivalence",
    "C43_wide_loop_refuted"
   ],
   "note": "when the largest thread index fits the counter; loops beyond 2^32 refuted"
  },
  {
   "property": "C44",
   "status": "proved",
   "theorems": [
    "C44_halo_fresh",
    "C44_loops",
    "C44_edges_fresh",
    "C44_never_fails",
    "C44_reader_first_refuted",
    "C44_kept_reference_refuted",
    "C44_memory_space_copy_refuted"
   ],
   "note": "histories where no read-only reference outlives a writable one; the other histories are refuted"
  },
  {
   "property": "C45",
   "status": "proved",
   "theorems": [
    "C45_index",
    "C45_large_refuted",
    "C45_subscripts",
    "C45_site_sum_refuted",
    "C45_halo_words"
   ],
   "note": "fewer than 2^31 sites; beyond it refuted"
  },
  {
   "property": "C46",
   "status": "proved",
   "theorems": [
    "C46_elementwise",
    "C46_scalar",
    "C46_scalar_product",
    "C46_normalize",
    "C46_ends",
    "C46_normalize_of_refuted"
   ],
   "note": "exact real arithmetic; two-field normalize refuted"
  },
  {
   "property": "C47",
   "status": "proved",
   "theorems": [
    "C47_bitrev",
    "C47_bitrev_involution",
    "C47_find_max_pow2",
    "C47_find_max_pow2_zero_refuted",
    "C47_log2N",
    "C47_log2N_refuted",
    "C47_get_bit"
   ],
   "note": "log2N refuted as the logarithm, proved for what it computes; find_max_pow2(0) never ends"
  },
  {
   "property": "C48",
   "status": "proved",
   "theorems": [
    "C48_determinant",
    "C48_minor",
    "C48_empty_refuted"
   ],
   "note": "over any commutative ring (mathcomp determinant); n=0 refuted"
  },
  {
   "property": "C49",
   "status": "proved",
   "theorems": [
    "C49_complex_safe",
    "C49_complex_unsafe",
    "C49_reciprocal",
    "C49_sqrt",
    "C49_unsafe_refuted",
    "C49_conj1_i_refuted"
   ],
   "note": "exact real arithmetic; complex_pow and the float/vector variants not modelled; complex_sqrt(0) divides by zero"
  },
  {
   "property": "C50",
   "status": "proved",
   "theorems": [
    "C50_schedule",
    "C50_reversible"
   ],
   "note": "exact reals, one numbering of the sites, forces are any functions of the links; without the final projection; exponentials in the region without truncated series (or of zero)"
  },
  {
   "property": "C51",
   "status": "proved",
   "theorems": [
    "C51_momenta",
    "C51_links"
   ],
   "note": "as C50"
  },
  {
   "property": "C52",
   "status": "proved",
   "theorems": [
    "C52_hills",
    "C52_interpolation",
    "C52_continuous",
    "C52_derivative",
    "C52_odd_refuted",
    "C52_jump_refuted",
    "C52_load_check",
    "C52_load_refuted"
   ],
   "note": "exact reals; even number of cells and width dividing twice the barrier, the other cases refuted"
  },
  {
   "property": "C53",
   "status": "proved",
   "theorems": [
    "C53_extreme",
    "C53_copy_refuted"
   ],
   "note": "for any strict total order"
  },
  {
   "property": "C54",
   "status": "proved",
   "theorems": [
    "C54_mirrorize",
    "C54_mirror_invariant",
    "C54_mirror_last_refuted",
    "C54_odd",
    "C54_cubic",
    "C54_cubic_invariant",
    "C54_cubic_refuted"
   ],
   "note": "on the half lattice the routines visit; the sites they do not visit are refuted"
  },
  {
   "property": "C55",
   "status": "proved",
   "theorems": [
    "C55_single_shift",
    "C55_quad_shift",
    "C55_quad_sign_refuted"
   ],
   "note": "matrices opaque; quad version refuted for sign -1"
  },
  {
   "property": "C56",
   "status": "proved",
   "theorems": [
    "C56_count_substrings",
    "C56_count_null",
    "C56_count_empty_refuted",
    "C56_take_last",
    "C56_friendly",
    "C56_friendly_exact",
    "C56_friendly_refuted",
    "C56_orders_one_refuted",
    "C56_printed_times",
    "C56_ceil8"
   ],
   "note": ""
  },
  {
   "property": "C57",
   "status": "proved",
   "theorems": [
    "C57_lock_refuted",
    "C57_cannot_open_refuted",
    "C57_unlock_refuted"
   ],
   "note": "the property is refuted: the tests on the result of lockf are inverted"
  },
  {
   "property": "C58",
   "status": "proved",
   "theorems": [
    "C58_topo",
    "C58_odd_refuted"
   ],
   "note": ""
  },
  {
   "property": "C59",
   "status": "proved",
   "theorems": [
    "C59_tuning_transparent",
    "C59_nested_tuning",
    "C59_double_capture_refuted"
   ],
   "note": ""
  },
  {
   "property": "C60",
   "status": "proved",
   "theorems": [
    "C60_field_round_trip",
    "C60_float_refuted"
   ],
   "note": "number of ranks dividing the time extent, data length multiple of 8"
  },
  {
   "property": "C61",
   "status": "proved",
   "theorems": [
    "C61_delta_source"
   ],
   "note": ""
  },
  {
   "property": "C62",
   "status": "proved",
   "theorems": [
    "C62_nested_inputs"
   ],
   "note": "the reads between open and close are any change of the state of the current file"
  },
  {
   "property": "C63",
   "status": "proved",
   "theorems": [
    "C63_check_means_last_writer",
    "C63_one_winner",
    "C63_exclusion",
    "C63_exclusion_refuted",
    "C63_zero_tag_refuted"
   ],
   "note": "each write or read of the file is one atomic step; mutual exclusion under the stated waiting assumption, refuted without"
  },
  {
   "property": "C64",
   "status": "proved",
   "theorems": [
    "C64_elementwise",
    "C64_products",
    "C64_safe",
    "C64_more",
    "C64_diagonal",
    "C64_numbers",
    "C64_rows",
    "C64_rows_refuted"
   ],
   "note": "exact real arithmetic; limited-rows product with dagger on the left refuted"
  },
  {
   "property": "C65",
   "status": "proved",
   "theorems": [
    "C65_orthonormalise",
    "C65_fixed",
    "C65_third_row"
   ],
   "note": "exact real arithmetic"
  },
  {
   "property": "C66",
   "status": "proved",
   "theorems": [
    "C66_inverse",
    "C66_inverse_safe"
   ],
   "note": "exact real arithmetic"
  },
  {
   "property": "C67",
   "status": "proved",
   "theorems": [
    "C67_parts",
    "C67_algebra"
   ],
   "note": "exact real arithmetic"
  },
  {
   "property": "C68",
   "status": "proved",
   "theorems": [
    "C68_cooling",
    "C68_overrelaxation",
    "C68_maximal_trace",
    "C68_maximal_trace_ends",
    "C68_slow"
   ],
   "note": "exact real arithmetic; the clean-up through the explicit inverse is any operation (in exact arithmetic it is never called)"
  },
  {
   "property": "C69",
   "status": "proved",
   "theorems": [
    "C69_exponential",
    "C69_anti_hermitian",
    "C69_zero",
    "C69_small",
    "C69_sinc"
   ],
   "note": "exact real arithmetic; for small matrices within 1e-12 of the series; for nearly degenerate eigenvalues (not in the statement) only the error of the sin(w)/w series is covered"
  },
  {
   "property": "C70",
   "status": "proved",
   "theorems": [
    "C70_order",
    "C70_inverse"
   ],
   "note": ""
  },
  {
   "property": "C71",
   "status": "proved",
   "theorems": [
    "C71_momenta",
    "C71_links"
   ],
   "note": "as C50; the momenta for any exponentials"
  },
  {
   "property": "C72",
   "status": "proved",
   "theorems": [
    "C72_operations",
    "C72_base",
    "C72_basis",
    "C72_rotators",
    "C72_projectors"
   ],
   "note": "exact real arithmetic"
  },
  {
   "property": "C73",
   "status": "proved",
   "theorems": [
    "C73_elementwise",
    "C73_products",
    "C73_safe",
    "C73_traces",
    "C73_rotation"
   ],
   "note": "exact real arithmetic; determinant of a spinspin and _conj2 variants not modelled"
  },
  {
   "property": "C74",
   "status": "proved",
   "theorems": [
    "C74_hopping",
    "C74_operator",
    "C74_squared",
    "C74_squared_same",
    "C74_adjoint",
    "C74_positive",
    "C74_gauge",
    "C74_lattice"
   ],
   "note": "Exact real arithmetic. The tables of the neighbours are arbitrary for what the routines write; adjointness needs that they are those of a lattice, which C74_lattice proves for the tables of one rank (with more ranks they point in the halo: C14, C15)."
  },
  {
   "property": "C75",
   "status": "proved",
   "theorems": [
    "C75_solution",
    "C75_returns",
    "C75_exact_guess_crashes",
    "C75_niter_refuted",
    "C75_last_iteration_refuted"
   ],
   "note": "Exact real arithmetic; a field is the list of its real degrees of freedom on all the ranks. Limits that the routine has and that are proved beside: a guess already exact crashes (0/0), niter<=0 returns after one iteration without converging, convergence exactly at iteration niter is refused."
  },
  {
   "property": "C76",
   "status": "proved",
   "theorems": [
    "C76_solution",
    "C76_returns",
    "C76_kernel_crashes"
   ],
   "note": "Exact real arithmetic. The operator at shift zero must be positive definite even when all the shifts are positive: C76_kernel_crashes."
  },
  {
   "property": "C77",
   "status": "proved",
   "theorems": [
    "C77_solution",
    "C77_returns",
    "C77_rational",
    "C77_multishift_returns"
   ],
   "note": "The operator called by the solvers is the modelled program apply_stD2ee_m2 (C74) run on the memory; inside the solver fields are lists of real numbers. The multishift solver starts from the massless operator, so its termination needs that this has no kernel."
  },
  {
   "property": "C78",
   "status": "proved",
   "theorems": [
    "C78_apply",
    "C78_gamma",
    "C78_hermiticity",
    "C78_regular",
    "C78_gauge",
    "C78_blocks",
    "C78_inverse",
    "C78_kernel",
    "C78_schur",
    "C78_lattice"
   ],
   "note": "Exact real arithmetic. A field is a function of site, spin and colour held in a numbered object; halos are taken as already valid (C15)."
  },
  {
   "property": "C79",
   "status": "proved",
   "theorems": [
    "C79_solution",
    "C79_returns",
    "C79_odd_source"
   ],
   "note": "Exact real arithmetic; the operator called by the solver is the modelled program tmDkern_eoprec_square_eos run on the memory. The solver on the 24 n reals is cg_invert of C75. The checks of the residual with apply_tmQ printed by the caller and the QUDA/DDalphaAMG branches are not modelled."
  },
  {
   "property": "C80",
   "status": "proved",
   "theorems": [
    "C80_fft",
    "C80_inverse",
    "C80_round_trip"
   ],
   "note": "Exact real arithmetic; the library FFT on one line is taken as the discrete Fourier transform of its manual (CPU branch with FFTW). On the other grids the remapping may lose data (C23_unbalanced_refuted)."
  },
  {
   "property": "C81",
   "status": "proved",
   "theorems": [
    "C81_topo_corr",
    "C81_time_momentum",
    "C81_correlator_refuted"
   ],
   "note": "Exact real arithmetic. The true behaviour is proved and the promised one refuted."
  },
  {
   "property": "C82",
   "status": "proved",
   "theorems": [
    "C82_staples",
    "C82_summed"
   ],
   "note": "The matrices are values of any type with the products of the code; the iterations of each parallel loop run one after the other in any order."
  },
  {
   "property": "C83",
   "status": "proved",
   "theorems": [
    "C83_plaquette",
    "C83_gauge_invariant"
   ],
   "note": "Exact real arithmetic. The even/odd version is not modelled."
  },
  {
   "property": "C84",
   "status": "proved",
   "theorems": [
    "C84_action",
    "C84_force",
    "C84_energy"
   ],
   "note": "Exact real arithmetic; Wilson gauge action (not the improved ones)."
  },
  {
   "property": "C85",
   "status": "proved",
   "theorems": [
    "C85_transform",
    "C85_transform_eo",
    "C85_plaquette"
   ],
   "note": "Exact real arithmetic."
  },
  {
   "property": "C86",
   "status": "proved",
   "theorems": [
    "C86_functional",
    "C86_gradient",
    "C86_descent"
   ],
   "note": "Exact real arithmetic. The Fourier acceleration and the generalised conjugate gradient, which replace the derivative by another direction, are not modelled."
  },
  {
   "property": "C87",
   "status": "proved",
   "theorems": [
    "C87_returns",
    "C87_iterations",
    "C87_special_unitary",
    "C87_polar",
    "C87_fixed_points",
    "C87_covariant"
   ],
   "note": "Exact real arithmetic: with rounding the default tolerance 1e-15 is below the precision of the entries, and whether the loop leaves is not covered."
  },
  {
   "property": "C88",
   "status": "proved",
   "theorems": [
    "C88_fixes",
    "C88_gauge_orbit",
    "C88_plaquette",
    "C88_returns",
    "C88_unitarize_each",
    "C88_overrelax_refuted"
   ],
   "note": "The directions and lengths of the steps are arbitrary functions of the state on which the theorems quantify; the functional is not part of the driver model. The expectation that an overrelaxing sweep transforms the links by a gauge transformation is false: C88_overrelax_refuted."
  },
  {
   "property": "C89",
   "status": "proved",
   "theorems": [
    "C89_search",
    "C89_returns",
    "C89_parabola"
   ],
   "note": "A zero trial length (NaN in the program) is modelled as giving up."
  },
  {
   "property": "C90",
   "status": "proved",
   "theorems": [
    "C90_put",
    "C90_remove",
    "C90_history"
   ],
   "note": "Exact real arithmetic; the equality of the recorded angles tested by adapt_theta is that of the reals."
  },
  {
   "property": "C91",
   "status": "proved",
   "theorems": [
    "C91_field",
    "C91_crash"
   ],
   "note": "Exact real arithmetic; a component below 1e-10 is off, as in the program."
  },
  {
   "property": "C92",
   "status": "proved",
   "theorems": [
    "C92_couple",
    "C92_plaquette",
    "C92_undo",
    "C92_signs"
   ],
   "note": ""
  },
  {
   "property": "C93",
   "status": "proved",
   "theorems": [
    "C93_call",
    "C93_loop"
   ],
   "note": "The steps of the methods are arbitrary functions of the configuration; HYP has no step (the program stops)."
  },
  {
   "property": "C94",
   "status": "proved",
   "theorems": [
    "C94_operator",
    "C94_bases",
    "C94_propagator",
    "C94_field",
    "C94_square"
   ],
   "note": "Exact real arithmetic; kappa not 0 and r 0 or 1."
  },
  {
   "property": "C95",
   "status": "proved",
   "theorems": [
    "C95_energy",
    "C95_naive_energy",
    "C95_operator",
    "C95_wave",
    "C95_naive"
   ],
   "note": "For 1/(2 kappa) > sum_i cos p_i, where the denominator of the energy is positive."
  },
  {
   "property": "C96",
   "status": "proved",
   "theorems": [
    "C96_propagator",
    "C96_kinetic",
    "C96_crash",
    "C96_gauge_independence",
    "C96_positive"
   ],
   "note": "Exact real arithmetic; c1<=0 (Wilson, tree level Symanzik, Iwasaki)."
  },
  {
   "property": "C97",
   "status": "proved",
   "theorems": [
    "C97_field",
    "C97_multiply",
    "C97_convolution",
    "C97_photon",
    "C97_energy"
   ],
   "note": "The Fourier transforms are not opened here; the branch compiled with Eigen is not modelled."
  },
  {
   "property": "C98",
   "status": "proved",
   "theorems": [
    "C98_routines",
    "C98_translations",
    "C98_operators",
    "C98_gauge"
   ],
   "note": "Exact real arithmetic; the halo (C10) is not repeated; the type spincolor."
  },
  {
   "property": "C99",
   "status": "proved",
   "theorems": [
    "C99_run",
    "C99_iso",
    "C99_properties",
    "C99_add"
   ],
   "note": "Exact real arithmetic; the type spincolor; the smearing with a polynomial is not modelled, see the findings."
  },
  {
   "property": "C100",
   "status": "proved",
   "theorems": [
    "C100_routines",
    "C100_times",
    "C100_ward",
    "C100_algebra"
   ],
   "note": "Exact real arithmetic; the halo (C10) is not repeated; the type spincolor; the output is not the input. The operator of the Ward identity is the one computed by apply_tmQ (C78) without anisotropy."
  }
 ]
}
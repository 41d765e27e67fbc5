# Formal model of sunpho84/nissa in Rocq (Coq 8.16.1)

## Approach

The model is written in Gallina, function by function, from `/repo/src`.  Each
definition carries a comment with the file and lines it models, and says what was simplified.  Files:

* `theories/*Model.v`  definitions only (transcription of the code),
* `theories/*Spec.v`   small specifications written without the model's helpers,
* `theories/*Proofs.v` and others: lemmas,
* `theories/Prop_*.v`  property theorems only, each closed by `exact`, each followed
  by `Print Assumptions`, with `Example`s showing that a concrete, non trivial case
  meets the hypotheses.

Theorems with suffix `_refuted` prove that the property fails for the stated inputs (the code is wrong, or is right only
under the guards of the positive theorems); theorems with suffix `_partial` prove less than the property.

Conventions

* C++ integers are unbounded `Z` unless the property is about overflow; then the wrap or
  the range guard is explicit.  C++ `/` and `%` are `Z.quot`/`Z.rem` where a negative operand
  can occur, `Z.div`/`Z.modulo` where operands are provably non negative (noted).
* `CRASH(...)` (abort) and undefined behaviour are distinct outcomes of the model where the property needs it, and are both `None`
  elsewhere.
* Complex numbers, colours and matrices live in a memory addressed by paths (an object and its subscripts), so that all ways the
  arguments of a routine can coincide are covered.
* MPI ranks are modelled as a family of states indexed by the rank; an exchange is a
  function from all ranks' send buffers to all ranks' receive buffers defined by matching
  (source, destination, tag).
* Parallel loops are arbitrary interleavings of single memory accesses (C42, C43, C59); C43 justifies the sequential loops used elsewhere.

## Plan per property

| id | property | modelled in | how it is proved | theorems in | status |
|----|----------|-------------|------------------|-------------|--------|
| C01 | Box index and box coordinates are inverse | GeometryModel | induction on the list of sides (any dimension) | Prop_Geometry.v | proved |
| C02 | Global index decodes to the coordinates it was built from | GeometryModel | induction, range guard, witness beyond the guard | Prop_Geometry.v | proved |
| C03 | Every global site lives on exactly one rank at exactly one local index | GeometryModel | C01 and division algorithm | Prop_Geometry.v | proved |
| C04 | Global neighbours are periodic unit shifts | GeometryModel | C02 and modular arithmetic | Prop_Geometry.v | proved |
| C05 | Sites form a group under glblxOfSum/glblxOfDiff/glblxOpp | GeoMiscModel | modular arithmetic | Prop_Geometry.v | proved |
| C06 | Local, border and edge labels are one-to-one and onto | GeometryModel | case analysis on directions and C01 | Prop_Geometry.v | proved |
| C07 | Geometry tables hold the true global coordinates of every stored site | GeometryModel | loop invariant of the table filling | Prop_Geometry.v | proved |
| C08 | Neighbour tables point to the adjacent site | GeometryModel | C06, C07; refutation for edges | Prop_Geometry.v | proved |
| C09 | Bulk and surface lists partition the local volume | GeoMiscModel | counting by induction over dimensions | Prop_Geometry.v | proved |
| C10 | Halo update delivers the owner's value to every border site | HaloModel | matching of messages, C06-C08 | Prop_Halo.v | proved |
| C11 | Edge update delivers the owner's value to every edge site | HaloModel | matching of messages, C06-C08 | Prop_Halo.v | proved |
| C12 | Even/odd relabelling is a bijection preserving parity | EoModel | loop invariant, parity pairing | Prop_Halo.v | proved |
| C13 | Splitting into even/odd parts and pasting back is the identity | EoModel | C12 | Prop_Halo.v | proved |
| C14 | Even/odd neighbour tables flip parity and agree with the full-lattice ones | EoModel | C12, C08 | Prop_Halo.v | proved |
| C15 | Even/odd halo update delivers the owner's value | EoModel, HaloModel | as C10 | Prop_Halo.v | proved |
| C16 | The chosen process grid is valid and has minimal communication surface | GridModel | invariant of the search loop | Prop_Grid.v | proved |
| C17 | factorize returns the prime factorisation | GridModel | induction on fuel, which is shown not to run out | Prop_Grid.v | proved |
| C18 | Boxes tile the local volume | GeoMiscModel | arithmetic | Prop_Geometry.v | proved |
| C19 | Mirrored coordinates are an involution inside the lattice | GeoMiscModel | arithmetic | Prop_Geometry.v | proved |
| C20 | Staggered phases | GeoMiscModel | arithmetic | Prop_Geometry.v | proved |
| C21 | ILDG site reordering is an exact permutation | IldgModel | modular arithmetic | Prop_Remap.v | proved |
| C22 | All-to-all remapping delivers every element to its destination | AllToAllModel, IldgModel | permutations of the messages; refutation | Prop_Remap.v | proved |
| C23 | Direction-local remapping and its inverse | AllToAllModel, IldgModel | as C22 | Prop_Remap.v | proved |
| C24 | Requesting the links of a gauge path asks the owner of each link | IldgModel | as C22 | Prop_Remap.v | proved |
| C25 | Arbitrary path structure evaluates each path as the ordered product of its links | ArbModel.v (spec ArbSpec.v) | all the ranks together: invariant of the recording (each movement carries its flags and link), numbering of the sorted non local links by induction, blocks of the sorted list = messages of the displacements, invariant of the computation loop | Prop_Arb.v | proved |
| C26 | ILDG records written one after the other can be found and read back | IldgFileModel | induction on the list of records | Prop_IO.v | proved |
| C27 | A lattice data record leaves the file aligned for the next record | IldgFileModel | arithmetic on lengths | Prop_IO.v | proved |
| C28 | The ILDG checksum does not depend on the process grid or site visiting order | ChecksumModel | commutativity of xor, permutations | Prop_IO.v | proved |
| C29 | Checksum record text reads back the same words | ChecksumTextModel | printing and parsing of hexadecimal digits | Prop_IO.v | proved |
| C30 | Byte swapping is an involution reversing the bytes | BytesModel | induction on bytes | Prop_IO.v | proved |
| C31 | Binary buffer reads back what was written in order | IldgFileModel | induction on the list of values | Prop_IO.v | proved |
| C32 | Comments in input files are skipped exactly | InputModel | induction on the text | Prop_Input.v | proved |
| C33 | Configuration file assigns exactly the named parameters | InputModel | induction on the text | Prop_Input.v | proved |
| C34 | Random generator arithmetic never overflows and stays in range | Ran2Model | interval invariants; binary64 with Flocq | Prop_Random.v | proved |
| C35 | Saving and restoring the random generator continues the same sequence | Ran2TextModel | printing and parsing of decimal digits | Prop_Random.v | proved |
| C36 | Site generators do not depend on the process grid | Ran2Model | C03 | Prop_Random.v | proved |
| C37 | Counter-based generator: encryption is a permutation | SitmoModel | explicit inverse of the rounds | Prop_Random.v | proved |
| C38 | Advancing the counter adds the offset | SitmoModel | carry arithmetic | Prop_Random.v | proved |
| C39 | No random number is ever used twice and field draws do not depend on the layout | SitmoModel | injectivity, C37, C38 | Prop_Random.v | proved |
| C40 | Memory manager never hands out memory in use and accounts exactly | MemModel | invariant over all histories of calls | Prop_Memory.v | proved |
| C41 | Named vector registry stays a well formed list with exact total | VectModel | invariant over all histories of calls | Prop_Memory.v | proved |
| C42 | Tree reduction equals the sequential sum | ReduceModel | strong induction on the length, any interleaving | Prop_Parallel.v | proved |
| C43 | Parallel loops run each index exactly once | ParModel | interleavings of disjoint footprints | Prop_Parallel.v | proved |
| C44 | A field never serves stale halo values | FieldModel, HaloModel | invariant over histories; refutations | Prop_Field.v | proved |
| C45 | Field storage index is a bijection for every layout | FieldModel | arithmetic | Prop_Field.v | proved |
| C46 | Field linear algebra | FieldAlgModel | loops on disjoint cells | Prop_Field.v | proved |
| C47 | Bit reversal and powers of two | MathModel | induction on bits | Prop_Math.v | proved |
| C48 | Recursive determinant is the determinant | DetModel | mathcomp determinant, induction on the size | Prop_Det.v | proved |
| C49 | Complex arithmetic in memory | CplxModel | all aliasing cases, ring | Prop_Cplx.v | proved |
| C50 | Molecular dynamics is reversible | EvolveModel | the schedule is a palindrome, each elementary step undone by itself after reversal; induction on the steps | Prop_Hmc.v | proved |
| C51 | The integrator covers exactly the requested trajectory length | EvolveModel | sums over the schedule; powers of the exponential by interpolation on the eigenvalues | Prop_Hmc.v | proved |
| C52 | Metadynamics potential | MetaModel | real arithmetic, induction on the history | Prop_Meta.v | proved |
| C53 | Value with extreme tracks the maximum | ExtremeModel | induction on the history | Prop_Memory.v | proved |
| C54 | Symmetrisation of gathered vectors | GatherModel | permutations of coordinates | Prop_Gather.v | proved |
| C55 | Shifting a field | ShiftModel | C10 | Prop_Shift.v | proved |
| C56 | Small text utilities | TextModel | induction on strings | Prop_Text.v | proved |
| C57 | Advisory lock result | TextModel | direct | Prop_Text.v | proved |
| C58 | Topological correlator remapping is a permutation | IldgModel | counting; refutation for odd extents | Prop_Remap.v | proved |
| C59 | Autotuning a kernel does not change its effect | ParModel | C43 on the backup and restore around the timing runs | Prop_Parallel.v | proved |
| C60 | A field written to disk is read back the same on any process grid | VectorFileModel | C21, C22, C26-C30 together | Prop_IO.v | proved |
| C61 | The delta source is set on the requested site only | Ran2Model, GeometryModel | C03 | Prop_Random.v | proved |
| C62 | Nested input files | InputModel | stack invariant | Prop_Input.v | proved |
| C63 | Lock file shared by several jobs | LockModel | invariant over all interleavings of jobs | Prop_Text.v | proved |
| C64 | Matrix and colour routines store exactly what they name | MatModel | loops on disjoint cells, ring | Prop_Su3.v | proved |
| C65 | Projection on SU(3) by orthonormalisation | MatModel | algebra of rows | Prop_Su3.v | proved |
| C66 | Explicit inverse | MatModel | cofactors, ring | Prop_Su3.v | proved |
| C67 | Projection on the algebra | MatModel | ring | Prop_Su3.v | proved |
| C68 | Cooling and overrelaxation keep SU(3) and the trace | MatAlgoModel | SU(2) subgroups, trace maximisation; loop invariant | Prop_Su3.v | proved |
| C69 | Exact exponential of a hermitian matrix | ExpModel | Cayley-Hamilton, interpolation on the eigenvalues, limits of the partial sums; remainder bounds | Prop_Su3.v | proved |
| C70 | Order of the directions in gauge files | MatModel | direct | Prop_Su3.v | proved |
| C71 | Momenta stay in the algebra and links in the group | EvolveModel | induction on the steps | Prop_Hmc.v | proved |
| C72 | Dirac matrices | DiracModel | integer computation lifted to C by a ring morphism; general operations by rows | Prop_Dirac.v | proved |
| C73 | Spin matrices | SpinModel | loops on disjoint cells, ring | Prop_Dirac.v | proved |
| C74 | Staggered Dirac operator | StagModel | each routine on the memory with parallel loops in any order (ParLoop), the sums on the sites reindexed through the neighbour bijections | Prop_Stag.v | proved |
| C75 | Conjugate gradient | CgModel | invariant r=source-f(sol); residuals mutually orthogonal and directions conjugate by strong induction, hence at most N nonzero residuals by Bessel inequality | Prop_Cg.v | proved |
| C76 | Multishift conjugate gradient | CgModel | the residual of a running shift is zas times the one of the unshifted system: three terms recurrence; 0<zas<=zps keeps the denominators away from zero | Prop_Cg.v | proved |
| C77 | Staggered solvers | CgStagModel | C74 makes the program a linear, symmetric and positive operator on the 6n reals; C75, C76; reconstruction of the odd part | Prop_CgStag.v | proved |
| C78 | Twisted mass Wilson operator | TmModel | symbolic execution of the body on one site, par loop frame (sites independent); algebra of the gamma matrices and sums over the lattice by bijection of the shifts | Prop_Tm.v | proved |
| C79 | Even-odd preconditioned twisted mass solver | TmSolveModel | C78 makes the kernel a linear, symmetric and positive operator on the 24n reals; C75; block elimination | Prop_TmSolve.v | proved |
| C80 | Fourier transform of a distributed field | FftModel | remapping of C23 delivers the lines, independent lines in any order, composition of the directions, orthogonality of the characters | Prop_Fft.v | proved |
| C81 | Correlator of the topological charge | FftModel | C80 twice, convolution theorem (shift invariance of the periodic sum) | Prop_Fft.v | proved |
| C82 | Staples of the distributed configuration | StapleModel | each of the seven steps keeps the staples already right and writes those of its list; the two exchanges of one orientation carry the lower surface up and the backward staples of the upper border down | Prop_Staple.v | proved |
| C83 | Plaquette of the distributed configuration | GaugeModel | C10 for the halo, C42 for the reduction, C09-like permutation of the sites, algebra of the traces | Prop_Gauge.v | proved |
| C84 | Wilson action and its force | GaugeModel | C82 for the staples, product rule on matrices, each link of a plaquette gives one staple, invariance of the sum under translations | Prop_Gauge.v | proved |
| C85 | Gauge transformation of the distributed configuration | GfixModel | C10/C13 for the halo of the transformation; each (site,direction) written once by the parallel loop, from its own link only; C83 for the plaquette | Prop_Gfix.v | proved |
| C86 | Functional, derivative and quality of Landau and Coulomb gauge fixing | GfixModel | C10 for the halo, C42 for the reduction, product rule, translation invariance of the sum, the algebra of SU(3) is spanned by the generators of explicit paths; near zero the exponential of the code is a polynomial in alpha | Prop_Gfix.v | proved |
| C87 | Projection of a matrix on SU(3) by averaging with its inverse | UnitModel | big-step loop on the memory of the routine, refined to a loop on matrices; |T|^2-3 falls by 4 at each step after the first; N N^dag = 1 + E E^dag/4; the steps commute with rotations and keep hermitian nonnegative matrices so | Prop_Unit.v | proved |
| C88 | The procedure of gauge fixing | GfdModel, OvrModel | big-step relations for the two nested loops over distributed fields; invariant: the configuration is the given one transformed by the fixer; the overrelaxing sweep run on a 2^4 lattice with every order of the sites and all unitary rotations | Prop_Gfd.v | proved |
| C89 | The adaptative search of the step of the gauge fixing | AdaModel | do-while loop as a big-step relation over distributed fields; the functional measured is identified with the one of the lattice by C85/C86 | Prop_Ada.v | proved |
| C90 | Boundary conditions of a configuration | BackModel | parallel loops in any order over the entries of a rank; phases as exact complex numbers | Prop_Bound.v | proved |
| C91 | The background electromagnetic field | BackModel | angles as real numbers, curl of the integer arguments by case analysis on the position | Prop_Back.v | proved |
| C92 | Coupling of a background field to a configuration | BackModel | even-odd loops reduced to one write per site; the sign of the plaquettes by C20 | Prop_Back.v | proved |
| C93 | Schedule of the measurements on a smoothed configuration | SmoothModel | induction on the number of measures left | Prop_Smooth.v | proved |
| C94 | Free twisted mass propagator in momentum space | FreeTmModel | Clifford algebra of the combination of gamma matrices: its square is the sum of the squares | Prop_FreeTm.v | proved |
| C95 | Free quarks on shell | FreeTmModel | dispersion relation linear in cosh E; products of the wave functions component by component | Prop_Shell.v | proved |
| C96 | Tree level Symanzik gauge propagator | GluonModel | the identity of Weisz: K times the transverse part is polynomial times the transverse projector, entry by entry; uniqueness of the quadratic form by polarisation | Prop_Gluon.v | proved |
| C97 | Photon fields in momentum space | GluonModel | loops over disjoint regions | Prop_Gluon2.v | proved |
| C98 | Covariant translations and Laplace operators | CovModel | loops over sites in any order with the memory of TmModel; reindexing of the scalar product; the two translations are inverse | Prop_Cov.v | proved |
| C99 | Gaussian smearing | CovModel | induction on the number of steps; the norm by a weighted Cauchy-Schwarz inequality on each component | Prop_Cov.v | proved |
| C100 | Insertion of tadpoles, photons and conserved currents | VertexModel | the loop on directions summed up to the vertex; the adjoint from that of the hopping with arbitrary links; the rotation to the physical basis computed on the gamma table | Prop_Vertex.v | proved |

No property is left out as inexpressible; properties marked "not done" have no theorem yet.

## Trusted base

* The kernel of Coq 8.16.1, and `coqc` run as `_CoqProject` says.  No axiom is declared in this development, no kernel check is switched off,
  no functor or module type is defined.
* The axioms of the standard library that `Print Assumptions` lists, all of them in the theory of the reals:
  * A1 `ClassicalDedekindReals.sig_forall_dec`
  * A2 `ClassicalDedekindReals.sig_not_dec`
  * A3 `FunctionalExtensionality.functional_extensionality_dep`
  * A4 `Classical_Prop.classic`
* Libraries loaded: the standard library, mathcomp (`DetModel`, `DetProofs`, `Prop_Det`; axiom free), Flocq (definitions and lemmas about
  binary64 rounding), Coquelicot (complex numbers, limits).  They add no axioms to those above.
* That the model is what the code does: the correspondence is by reading, function by function.

Per theorem:

* closed under the global context (167 theorems): C01_box_index, C02_global_index, C02_large_lattice_refuted, C03_ownership, C04_global_neighbours, C05_opposite, C05_opposite_origin, C05_opposite_refuted, C05_sum_diff, C06_labels, C07_tables, C08_edges_refuted, C08_neighbours, C09_bulk, C10_halo, C11_edges, C12_eo_labels, C13_split_paste, C14_eo_neighbours, C15_edges_eo, C15_halo_eo, C16_degenerate_refuted, C16_minimal_surface_grid, C17_factorize, C18_boxes, C19_mirror, C20_stagphases, C21_ildg_order, C22_gather, C22_ildg, C22_ildg_refuted, C22_remap, C22_scatter, C22_symmetric, C23_delivery, C23_locd, C23_unbalanced_refuted, C24_gathering_list, C24_owner_refuted, C25_buffer_overrun_refuted, C25_empty_path_refuted, C25_links_once, C25_paths, C25_paths_eo, C25_recording_cells, C25_summ_twice_refuted, C26_endless_refuted, C26_format, C26_found, C26_long_name_refuted, C26_missing, C27_aligned, C27_unaligned_refuted, C28_checksum, C28_grid_independent, C29_checksum_text, C30_byteSwap, C30_round_trip, C30_value, C31_buffer_queue, C31_portable, C32_list, C32_missing_refuted, C32_not_a_number_refuted, C32_past_the_end, C32_single_char_refuted, C32_unclosed, C32_words, C32_wrong_tag, C33_config, C33_missing_value, C33_no_file, C33_unterminated_refuted, C34_seed_max_refuted, C35_any_content, C35_save_restore, C35_small_buffer_refuted, C37_permutation, C38_counter, C38_zero_refuted, C39_large_lattice_refuted, C39_no_reuse, C39_single_usage, C40_accounting, C40_blocks_disjoint, C40_clear, C40_destroy, C40_fresh, C40_never_undefined, C40_overflow_refuted, C40_release_unknown, C40_reuse, C40_small_alignment_refuted, C40_verbose_clear_refuted, C41_duplicate, C41_flags, C41_null_refuted, C41_registry, C41_safe, C42_field_reduce, C42_glbReduce_max_refuted, C42_glb_reduce, C42_locReduce, C42_schedule_independent, C43_each_index_once, C43_serial_equivalence, C43_wide_loop_refuted, C44_edges_fresh, C44_halo_fresh, C44_kept_reference_refuted, C44_loops, C44_memory_space_copy_refuted, C44_never_fails, C44_reader_first_refuted, C45_halo_words, C45_index, C45_large_refuted, C45_site_sum_refuted, C45_subscripts, C47_bitrev, C47_bitrev_involution, C47_find_max_pow2, C47_find_max_pow2_zero_refuted, C47_get_bit, C47_log2N, C47_log2N_refuted, C48_determinant, C48_empty_refuted, C48_minor, C53_copy_refuted, C53_extreme, C55_quad_shift, C55_quad_sign_refuted, C55_single_shift, C56_ceil8, C56_count_empty_refuted, C56_count_null, C56_count_substrings, C56_friendly, C56_friendly_exact, C56_friendly_refuted, C56_orders_one_refuted, C56_printed_times, C56_take_last, C57_cannot_open_refuted, C57_lock_refuted, C57_unlock_refuted, C58_odd_refuted, C58_topo, C59_double_capture_refuted, C59_nested_tuning, C59_tuning_transparent, C60_field_round_trip, C60_float_refuted, C61_delta_source, C62_nested_inputs, C63_check_means_last_writer, C63_exclusion, C63_exclusion_refuted, C63_one_winner, C63_zero_tag_refuted, C74_lattice, C78_lattice, C82_staples, C82_summed, C93_call, C93_loop
* A1 (1 theorems): C46_elementwise
* A1 + A3 (97 theorems): C100_routines, C100_times, C46_scalar, C46_scalar_product, C49_complex_unsafe, C49_conj1_i_refuted, C49_reciprocal, C49_unsafe_refuted, C52_continuous, C52_derivative, C52_hills, C52_interpolation, C52_jump_refuted, C52_load_check, C52_load_refuted, C52_odd_refuted, C54_cubic, C54_cubic_invariant, C54_cubic_refuted, C54_mirror_invariant, C54_mirror_last_refuted, C54_mirrorize, C54_odd, C64_diagonal, C64_elementwise, C64_more, C64_products, C64_rows, C64_rows_refuted, C64_safe, C65_third_row, C66_inverse, C66_inverse_safe, C67_algebra, C67_parts, C70_inverse, C70_order, C72_base, C72_basis, C72_operations, C72_projectors, C73_elementwise, C73_products, C73_safe, C73_traces, C74_adjoint, C74_gauge, C74_hopping, C74_operator, C74_positive, C74_squared, C74_squared_same, C75_exact_guess_crashes, C75_last_iteration_refuted, C75_niter_refuted, C75_returns, C75_solution, C76_kernel_crashes, C76_returns, C76_solution, C77_multishift_returns, C77_rational, C77_returns, C77_solution, C78_apply, C78_blocks, C78_gamma, C78_gauge, C78_hermiticity, C78_inverse, C78_kernel, C78_regular, C78_schur, C79_odd_source, C79_returns, C79_solution, C83_gauge_invariant, C83_plaquette, C84_action, C85_plaquette, C85_transform, C85_transform_eo, C86_functional, C89_parabola, C92_couple, C92_plaquette, C92_signs, C92_undo, C94_square, C98_gauge, C98_operators, C98_routines, C98_translations, C99_add, C99_iso, C99_properties, C99_run
* A1 + A2 + A3 (43 theorems): C100_algebra, C100_ward, C46_ends, C46_normalize, C46_normalize_of_refuted, C49_complex_safe, C49_sqrt, C64_numbers, C65_fixed, C65_orthonormalise, C68_cooling, C68_maximal_trace, C68_maximal_trace_ends, C68_overrelaxation, C68_slow, C72_rotators, C73_rotation, C80_fft, C80_inverse, C80_round_trip, C81_correlator_refuted, C81_time_momentum, C81_topo_corr, C84_energy, C84_force, C90_history, C90_put, C90_remove, C91_crash, C91_field, C94_bases, C94_field, C94_operator, C94_propagator, C96_crash, C96_gauge_independence, C96_kinetic, C96_positive, C96_propagator, C97_convolution, C97_field, C97_multiply, C97_photon
* A1 + A2 + A3 + A4 (39 theorems): C34_dead_component_refuted, C34_ran2, C34_random_position, C34_zero_refuted, C36_site_generators, C39_layout_independent, C50_reversible, C50_schedule, C51_links, C51_momenta, C69_anti_hermitian, C69_exponential, C69_sinc, C69_small, C69_zero, C71_links, C71_momenta, C86_descent, C86_gradient, C87_covariant, C87_fixed_points, C87_iterations, C87_polar, C87_returns, C87_special_unitary, C88_fixes, C88_gauge_orbit, C88_overrelax_refuted, C88_plaquette, C88_returns, C88_unitarize_each, C89_returns, C89_search, C95_energy, C95_naive, C95_naive_energy, C95_operator, C95_wave, C97_energy

## What is modelled and what is not

Modelled (under `/repo/src`):

* `geometry/geometry_lx.{cpp,hpp}` (labels, tables, neighbours, surfaces, bulk), `geometry_eo.{cpp,hpp}`, `geometry_mix.hpp`,
  `base/init.cpp` (grid search, boxes), `routines/math_routines.cpp` (except `metro_*`).
* `base/field.{hpp,cpp}`: storage index, flags, halo and edge exchange, linear algebra, reductions.  `communicate/all_to_all.{hpp,cpp}`,
  `operations/remap_vector.{hpp,cpp}`, `operations/shift.hpp`, `operations/vector_gather.cpp`.
* `threads/threads.hpp` loops, `threads/benchmarks.hpp` tuning (without its file), `linalgs/reduce.hpp`.
* `io/ILDG_File.{hpp,cpp}`, `io/buffer.hpp`, `io/endianness.hpp`, `io/checksum.hpp`, `write_real_vector`, `read_real_vector`, `io/input.cpp`,
  `routines/ios.{hpp,cpp}` (text utilities, lock file).
* `base/random.{cpp,hpp}` (ran2, its text form, the field of generators, delta source), `base/sitmo.hpp`.
* `base/memory_manager.hpp` (CPU), `base/vectors.{cpp,hpp}`, `new_types/metadynamics.cpp`, `new_types/value_with_extreme.hpp`.
* `new_types/complex.hpp`, `new_types/su3_op.{hpp,cpp}` (most of it), the exponential, the molecular dynamics in `hmc/`.
* `new_types/dirac.{hpp,cpp}`, `new_types/spin.hpp` (without the printing, the determinant and the _conj2 variants).
* dirac_operators/stD/dirac_operator_stD.hpp: everything but the functor and the timings (StagModel); not apply_Adams and the like, which are CRASH("reimplement")
* inverters/templates/cg_invert_template_threaded.hpp, cgm_invert_template_threaded.hpp (CgModel), inverters/staggered/* (CgStagModel): everything but timings and prints
* dirac_operators/tmQ/dirac_operator_tmQ_portable.cpp, tmD_eoprec portable files (TmModel): everything but the communication of the borders and the timings; inverters/twisted_mass/cg_invert_tmD_eoprec.cpp native branch (TmSolveModel)
* operations/fft.hpp fft4d, CPU branch (FftModel): the FFTW call is its manual; measures/gauge/topological_charge.cpp compute_topo_corr only
* operations/su3_paths/squared_staples.cpp, lx version, and the exchange of one orientation of base/field.cpp (StapleModel); the even/odd version compute_summed_squared_staples_eo_conf is not modelled
* operations/su3_paths/plaquette.hpp (lx version), hmc/gauge/Wilson_action.hpp, hmc/gauge/Wilson_force.cpp (lx version), hmc/gauge/gluonic_force.cpp with the Wilson action (GaugeModel)
* src/operations/su3_paths/arbitrary.{hpp,cpp}: the whole structure (recording, sorting through any sorting function, numbering, senders and receivers, gathering of lx and eo configurations, computation); the matrices are values of any type; the array of movements has no bound in the model (the code writes one cell past its end).
* operations/gauge_fixing.cpp: gauge_transform_conf (lx and eo), functional, derivative, quality, exp_der_alpha_half, add_current_transformation (GfixModel)
* new_types/su3_op.hpp: su3_unitarize_explicitly_inverting, with complex_pow of new_types/complex.hpp (UnitModel)
* operations/gauge_fixing.cpp: Landau_or_Coulomb_gauge_fix (both loops), add_current_transformation, the sweep of the overrelaxing method on one rank (GfdModel, OvrModel)
* operations/gauge_fixing.cpp: adapt_alpha (AdaModel)
* operations/gaugeconf.cpp:125-181 (BackModel)
* hmc/backfield.cpp: everything but the rephasing of vectors (BackModel)
* operations/smearing/smooth.hpp and smooth.cpp: the schedule of the smoothing (SmoothModel)
* free_theory/twisted_propagator.cpp:22-320 except the Fourier transforms, and the multiplication of fields by the propagator (FreeTmModel)
* free_theory/tlSym_gauge_propagator.cpp:23-205, the branch without Eigen of 207-286, the loops in momentum space of 344-397 and 440-462 (GluonModel)
* operations/covariant_derivative.cpp:58-185 and operations/smearing/gaussian.hpp:13-105, 157-170 for spincolor (CovModel)
* operations/covariant_derivative.cpp:200-424 for spincolor, without the products with gammas and colour deltas (VertexModel)
Not modelled: Dirac operators and inverters other than those listed above, smearing, measurements, contractions, rational approximations, GPU code (CUDA
kernels, device memory), the vectorised (`vir`) layouts, the QED and stagg/clover parts, the programs under `projects/`.

Assumptions

* Reals: `double` is an exact real in the algebra (Field linear algebra, complex, matrices, exponential, molecular dynamics, metadynamics, gather).
  The random generators use binary64 rounding (Flocq).
* Files: a read returns what the last write put there; bytes are never lost; all ranks see the same file; no error from MPI-IO or stdio unless
  the model says so.
* MPI: messages are matched by source, destination and tag and delivered unchanged; collectives are executed by all the ranks.
* Allocator: the system allocator answers aligned, non null memory which is not in use (or null where modelled).
* Local variables ("stack slots") are different from the arguments; their initial content is arbitrary.

## What the proofs found

Behaviour of the code which contradicts what a user would expect.  "Refuted" theorems prove the first
ones; the others were met while modelling.

* operations/smearing/gaussian.hpp:109-154 (by reading): the smearing with a polynomial of H multiplies the same field which it goes on smearing by the coefficient of each term, so that term i gets the product of the coefficients up to i and not its own; it passes fields where the routine it calls wants pointers, so it would not compile if it were used; a term whose exponent is smaller than the previous one is not smeared back. Not modelled.
* free_theory/tlSym_gauge_propagator.cpp:365: multiply_by_sqrt_tlSym_gauge_propagator multiplies the photon by sqrtf(glbVol), the square root in single precision: when it is not exact the square of the field is normalised with a relative error of order 1e-7 (C97_photon needs sqrtf(V)^2=V).
* free_theory/twisted_propagator.cpp:237-254: twisted_wavefunction_of_imom divides by sqrt(mass+sinh(e)) in both bases; in the Wilson base the norm of the wave function is then 2 sinh(E) (M+sinh(E))/(mass+sinh(E)) instead of 2 sinh(E) (C95_wave states exactly this).
* operations/smearing/recursive_Wflower.hpp: copy_level passes LxField objects to vector_copy and the destructor passes objects made with new to nissa_free, both of which read a nissa_vect header before the object: undefined behaviour; since the closest level of the first update is always level 0, every first update with nWflow>=1 does it. With nrecu=0, nflows=1 the constructor accepts but update never evolves the configuration.
* operations/gauge_fixing.cpp adapt_alpha: the configuration is left transformed by two steps of the last trial, not as it was found; the only caller overwrites it.
* operations/gauge_fixing.hpp:150-152: LC_gauge_fixing_pars_t::get_str prints nmaxIterations and unitarizeEach with the tag TargetPrecision, which read back would overwrite the target precision.
* operations/gauge_fixing.cpp:305-316: the overrelaxing sweep writes fixedConf[b][mu]=g*fixedConf[ivol][mu]*g^dag, with b the backward neighbour, instead of g*fixedConf[ivol][mu] and fixedConf[b][mu]*g^dag: the links it relaxes are no more a gauge transform of the given ones (C88_overrelax_refuted). What is finally returned is recomputed from the fixer, so it stays on the orbit.
* operations/gauge_fixing.cpp:857: get_out|=(not (iter%unitarizeEach==0)) is inverted: the inner loop is left, and the fixer unitarised, at all the iterations but the multiples of unitarizeEach (C88_unitarize_each).
* operations/gauge_fixing.cpp:879-881: the CRASH after the loop (configuration not fixed) is unreachable, as the outer loop is left only with really_get_out; when nmaxIterations is used up the unconverged configuration is returned silently (C88_fixes: prec<=target or iter>=nmaxIterations).
* new_types/su3_op.hpp su3_unitarize_explicitly_inverting: the scaling factor gamma of the Newton iteration is the square root of |T^-1|/|T| in the usual method; here it is computed from the squared norms, so gamma is |T^-1|/|T|, the square of the optimal one: a matrix s*1 is mapped to (1/s+s)/2*1 as without scaling. The loop converges anyway (C87), only more slowly.
* arbitrary.hpp:111-116: summ_to_previous_path checks that the flag is not yet set only to decrement cur_path, but adds the flag again: a second call turns 8+8 in a shift of the link index by one and loses the flag (C25_summ_twice_refuted).
* arbitrary.hpp:117-120: switch_to_next_step sets link_for_movements[cur_mov] after incrementing cur_mov up to ntot_mov included, while ntot_mov cells are allocated: the last move always writes one int past the buffer (C25_buffer_overrun_refuted).
* compute_topo_corr (topological_charge.cpp:131) multiplies the Fourier transform of the charge by itself (safe_complex_prod) instead of by its conjugate: the result is the self-convolution sum_y q(y)q(x-y)/V and not the correlator; for a charge on one site x0 it peaks at 2*x0 and not at 0 (C81_correlator_refuted)
* inv_tmD_cg_eoprec_native takes guess_Koo by value (std::optional), so the assignment "return new one" (cg_invert_tmD_eoprec.cpp:138) updates a copy: the guess of the caller is never refreshed (visible in the model: the guess is an input only)
* cgm_invert crashes when the source is in the kernel of the operator at shift zero, although all the shifted systems are regular (C76_kernel_crashes): for the staggered operator the unshifted system is massless
* cg_invert crashes (nan) when the guess is already the exact solution (C75_exact_guess_crashes), crashes when the convergence is reached exactly at iteration niter (C75_last_iteration_refuted), and with niter<=0 returns an unconverged solution (C75_niter_refuted)
* `unsafe_spinspin_prod_dirac` overwrites instead of accumulating: right only for Dirac matrices with one entry per column.
* ILDG remapping with the shift by a non uniform grid fails for 2x2x6x4 over 1x1x3x2 ranks (C22_ildg_refuted); direction-local remapping is unbalanced for 2x2x2x6 over 1x1x1x3 (C23).
* Swapped pair of links in the path request (C24); topological correlator remapping collides for odd extents (C58).
* `glblxOpp` is wrong off the origin rank; `glbCoordOfGlblx` overflows int above 2^31 sites; neighbour tables of edge sites stepping outward hold garbage.
* `finishCommunicatingEdges` sets `_haloIsValid` instead of `_edgesAreValid`; the edges flag is never set; stale halo through a kept reference; assignment between memory spaces keeps flags (C44).
* `externalSize` goes through int; `SubscribedField +=` touches the wrong components; two-argument `normalize` takes a double square root; `scalarProdWith` static_assert always fails; `EoField *=` does not compile.
* `findMinimalSurfaceGrid` never CRASHes when nothing is found, ignores the constraints when there is one rank or one site per rank; `nParalDir` accumulates stale `isDirParallel`; `compute_border_variance` overflows int.
* `all_to_all_comm_t`: the local copy uses `nper_rank_to[irank_fr_this]`; incoming offsets set only if there are outgoing messages; the default move constructor leads `inverse()` to a double free.
* `glbReduce` with max still MPI-sums; CUDA loops above 2^32 never reach the end; int loops with min>0 near 2^31 wrap; a field captured twice by the autotuner is freed twice.
* Checksum rotation shifts a 32 bit word by 32 (undefined); record names over 127 characters are truncated; a record of length 2^64-144 makes the search endless; double padding in `write_ildg_data_all`; a single-precision file is accepted unconverted by `read_real_vector`; `read_checksum` leaves its result uninitialised if the record is missing, and two zero words are taken as missing.
* ran2 returns exactly 0 for seed 1927279561 at the second draw; seed INT_MAX overflows; seed 2147483562 kills one component; `strncat` size misuse; Sitmo state+0 adds 2^64; streams of a field are reused on a 192x256^3 lattice; unspecified evaluation order in `getUniformDistributed`.
* Memory manager: `clearCache` only pops 16-aligned blocks, the verbose print dereferences end(), sizes near 2^64 wrap to 0.  `nissa_free` of a NULL vector is undefined; the copy assignment of ValWithExtreme overwrites the extreme.
* Input: `read_var` ignores end of file, one-character tokens in comments are undefined, a configuration file without trailing white space aborts, "1.5" is accepted as the int 1, `count_file_lines` reads stdin; `get_file_size` never closes and truncates to int; the tests of `file_lock`/`file_unlock` are inverted.
* `log2N` off by one; `find_max_pow2(0)` endless; determinant of size 0 is 0; friendly units overrun the table from 2^61, are endless for orders=1.
* Metadynamics: an odd number of intervals misplaces the hill; the potential jumps when the width does not divide twice the barrier; save prints x with 6 digits so that load may reject it; well tempering and bend unused.
* `mirrorize` ignores the 4th coordinate and x3>L/2; cubic symmetrisation only visits half of the lattice; `vector_gather` is CRASH("reimplement"); `quad_su3_vec_single_shift` with sign -1 goes out of bounds.
* `complex` conj1_prod_i forgets the factor i; `complex_sqrt(0)` is 0/0; `unsafe_su3_dag_prod_su3` uses nr_max in the inner sum; `su3_overrelax` with ord<2 overruns its local array.
* The path recorder `switch_to_next_step` writes one past its buffer; the Omelyan gauge evolver divides by zero when ngauge_substeps=0; where the exponential truncates series the integrator is reversible only up to the truncation.

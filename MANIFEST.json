{
 "claims": [
  {
   "property": "C01",
   "status": "proved",
   "theorems": [
    "C01_numbering_is_periodic_bijection"
   ],
   "note": "All positive extents, all integer coordinates."
  },
  {
   "property": "C02",
   "status": "proved",
   "theorems": [
    "C02_local_layout_one_period",
    "C02_local_layout_further_refuted"
   ],
   "note": "Positive statement within one period; a coordinate further out in one direction never gets the number of its image."
  },
  {
   "property": "C03",
   "status": "proved",
   "theorems": [
    "C03_neighbours",
    "C03_rank_tables"
   ],
   "note": "On global numbers and through the tables of every rank."
  },
  {
   "property": "C04",
   "status": "proved",
   "theorems": [
    "C04_startup_accepts_exactly_valid_grids",
    "C04_ownership_partition"
   ],
   "note": ""
  },
  {
   "property": "C05",
   "status": "proved",
   "theorems": [
    "C05_local_numbering"
   ],
   "note": "For an arbitrary list of stencil displacements."
  },
  {
   "property": "C06",
   "status": "proved",
   "theorems": [
    "C06_stencil_readable"
   ],
   "note": ""
  },
  {
   "property": "C07",
   "status": "proved",
   "theorems": [
    "C07_two_steps_back",
    "C07_thin_boxes_refuted"
   ],
   "note": "Exact characterisation: the two theorems cover all cases."
  },
  {
   "property": "C08",
   "status": "proved",
   "theorems": [
    "C08_halo_update",
    "C08_halo_update_terminates"
   ],
   "note": "All ranks, all interleavings, all tag tables; FIFO matching per (source, destination, tag) as guaranteed by MPI."
  },
  {
   "property": "C09",
   "status": "proved",
   "theorems": [
    "C09_updates_in_flight"
   ],
   "note": "Any sequence of starts and waits equal on all ranks."
  },
  {
   "property": "C10",
   "status": "partial",
   "theorems": [
    "C10_tags_in_bounds_iff",
    "C10_tags_in_bounds_refuted",
    "C10_single_sharer_tags_distinct_partial"
   ],
   "note": "The property is false of the code (MPILayout.h 219 uses the sharer index as chunk index): witness on a 2x2 process grid. The exact condition for in-bounds reads is proved; distinctness for tables with at most one sharer per chunk."
  },
  {
   "property": "C11",
   "status": "proved",
   "theorems": [
    "C11_conversion"
   ],
   "note": "Copy through the index map never reads outside, then halo update."
  },
  {
   "property": "C12",
   "status": "proved",
   "theorems": [
    "C12_global_sum"
   ],
   "note": "Any thread schedule and any reduction tree; exact arithmetic (any commutative monoid)."
  },
  {
   "property": "C13",
   "status": "proved",
   "theorems": [
    "C13_line",
    "C13_file",
    "C13_lines_of_file",
    "C13_spaces",
    "C13_inline_comment_stops",
    "C13_indented_comment"
   ],
   "note": "The regular expression of main.cpp is modelled as the maximal runs of its character class; a '#' that is not the first character never starts a comment, so inline comments stop the program and an indented comment can set an option."
  },
  {
   "property": "C14",
   "status": "proved",
   "theorems": [
    "C14_list_option"
   ],
   "note": "The list may be preceded by text without '{' and followed by anything."
  },
  {
   "property": "C15",
   "status": "proved",
   "theorems": [
    "C15_schedule",
    "C15_one_cycle",
    "C15_zero_step_undefined",
    "C15_default_warm_up_refuted"
   ],
   "note": "From the option text to the number of executions; the default value of warm_up_sweeps names an unknown sweep and stops the program (refutation)."
  },
  {
   "property": "C16",
   "status": "partial",
   "theorems": [
    "C16_xml_document",
    "C16_txt_document",
    "C16_txt_portions",
    "C16_xml_portions",
    "C16_stops",
    "C16_pop_refuted"
   ],
   "note": "Documents, order and portions are proved for all call sequences. Two parts of the claim are false of the code and refuted: a txt document never closes its outer brace, and closing a group that is not open is only noticed for a name never used. xml portions give the same tokens, not the same blanks."
  },
  {
   "property": "C17",
   "status": "partial",
   "theorems": [
    "C17_read_next",
    "C17_read_many",
    "C17_stop_after_success_refuted"
   ],
   "note": "The part 'never after a successful read' is false of the code (success at the hundredth attempt) and refuted; everything else is proved for any number of reads."
  },
  {
   "property": "C18",
   "status": "proved",
   "theorems": [
    "C18_native_round_trip",
    "C18_other_lattice_refused",
    "C18_failed_read_unchanged_refuted"
   ],
   "note": "Any two process grids and stencils of the same lattice, all sites owned or mirrored by the reading rank. Text form of the descriptor not modelled. A failed read leaves a partly overwritten configuration (refuted)."
  },
  {
   "property": "C19",
   "status": "proved",
   "theorems": [
    "C19_su2_round_trip",
    "C19_read_shape",
    "C19_trailer",
    "C19_negative_kappa_refuted",
    "C19_ranks_agree_refuted"
   ],
   "note": "Entries come back as rounded to float. Any floating-point rounding that commutes with the sign. Refuted: negative kappa, agreement of the ranks on failure."
  },
  {
   "property": "C20",
   "status": "proved",
   "theorems": [
    "C20_read_is_SU3",
    "C20_two_columns_suffice",
    "C20_su3_round_trip"
   ],
   "note": "Exact real arithmetic; float conversion an arbitrary map commuting with the sign. Dependent columns divide by zero (NaN)."
  },
  {
   "property": "C21",
   "status": "proved",
   "theorems": [
    "C21_parallel_stream"
   ],
   "note": "Every interleaving, buffered or unbuffered sends; termination and absence of deadlock included. For 16 or 48 words per site."
  },
  {
   "property": "C22",
   "status": "proved",
   "theorems": [
    "C22_int",
    "C22_double",
    "C22_float",
    "C22_sequence",
    "C22_end_of_file"
   ],
   "note": "Byte level model of RFC 4506; the library itself is not in the repository."
  },
  {
   "property": "C23",
   "status": "proved",
   "theorems": [
    "C23_sign_flip",
    "C23_twice",
    "C23_commute",
    "C23_open"
   ],
   "note": "every rank, halo copies included; open boundary as well"
  },
  {
   "property": "C24",
   "status": "partial",
   "theorems": [
    "C24_names_consistent",
    "C24_force_consistent",
    "C24_names_consistent_refuted",
    "C24_missing_option_refuted"
   ],
   "note": "true for every name except fermion_full_antiperiodic, for which it is refuted on every lattice"
  },
  {
   "property": "C25",
   "status": "partial",
   "theorems": [
    "C25_translate_partial",
    "C25_negative_ignored_refuted",
    "C25_negative_unwritten_refuted"
   ],
   "note": "proved for displacements that are not negative, refuted for negative ones"
  },
  {
   "property": "C26",
   "status": "proved",
   "theorems": [
    "C26_accepted_independent",
    "C26_order_irrelevant",
    "C26_constructor_correct",
    "C26_small_extent_never_accepted_refuted",
    "C26_two_extent_out_of_bounds_refuted",
    "C26_uninitialised_halo_refuted"
   ],
   "note": "one process; the constructor is proved correct for every lattice with extents at least 3; extents below 3 and the uninitialised halo of several processes are refuted"
  },
  {
   "property": "C27",
   "status": "proved",
   "theorems": [
    "C27_energy_is_wilson_action",
    "C27_local_is_global",
    "C27_tables_have_extent2"
   ],
   "note": "Any number of colours over any algebraically closed field with conjugation, any periodic lattice with extents at least 2; the tables of MPILayout.h give such a lattice."
  },
  {
   "property": "C28",
   "status": "proved",
   "theorems": [
    "C28_energy_is_symanzik_action",
    "C28_local_is_global",
    "C28_tables_have_extent3"
   ],
   "note": "Real non-zero u0, extents at least 3."
  },
  {
   "property": "C29",
   "status": "proved",
   "theorems": [
    "C29_gauge_invariance",
    "C29_covariance",
    "C29_plaquettes"
   ],
   "note": "Unitary transformation at each site."
  },
  {
   "property": "C30",
   "status": "partial",
   "theorems": [
    "C30_wilson_loops",
    "C30_wilson_loops_empty_refuted",
    "C30_polyakov_temporal",
    "C30_polyakov_spatial_partial",
    "C30_polyakov_spatial_refuted",
    "C30_gauge_invariant"
   ],
   "note": "Wilson loops, the temporal Polyakov loop and gauge invariance are proved for every grid and number of colours. Spatial Polyakov loops are divided by the spatial volume, so they are the average only when that extent equals the temporal one; the general claim is refuted, as is a table with zero maximal extent."
  },
  {
   "property": "C31",
   "status": "proved",
   "theorems": [
    "C31_force",
    "C31_momenta"
   ],
   "note": "Wilson and improved gauge force for any staple; momenta filled by the loops of randomMomenta. The force of the fermion and scalar terms is not covered here."
  },
  {
   "property": "C32",
   "status": "proved",
   "theorems": [
    "C32_wilson",
    "C32_improved",
    "C32_twice",
    "C32_sweep_back",
    "C32_moves"
   ],
   "note": "Exact arithmetic; one process without threads; any order of links, Wilson action on extents of at least 2 and Symanzik action on extents of at least 3. The step is skipped when the absolute determinant of the staple is at most 1e-4; every statement covers that case."
  },
  {
   "property": "C33",
   "status": "proved",
   "theorems": [
    "C33_group",
    "C33_onto",
    "C33_singular"
   ],
   "note": "Exact arithmetic; the draw is any real point of the unit sphere (the samplers of the radius and direction are C65)."
  },
  {
   "property": "C34",
   "status": "partial",
   "theorems": [
    "C34_two_colours",
    "C34_two_colours_defined",
    "C34_two_colours_scaled",
    "C34_unitary",
    "C34_fixed",
    "C34_first_row_refuted",
    "C34_scaled_refuted"
   ],
   "note": "Proved for two colours and for links that are already unitary. Refuted for more than two colours: ReUnit.cpp divides each row by the square of its norm, so every link whose first row is not exactly normalised gives a non-unitary result."
  },
  {
   "property": "C35",
   "status": "partial",
   "theorems": [
    "C35_curve_exists",
    "C35_curve_unique",
    "C35_matrix_exp",
    "C35_matrix_exp_zero",
    "C35_small_refuted",
    "C35_small_error",
    "C35_exp_map",
    "C35_exp_map_zero_refuted"
   ],
   "note": "Exact real arithmetic. matrix_exp is the exponential, in SU(2) and inverted by the opposite, for norms of at least 1e-7 and for zero; below it the series result is proved not to be in SU(2) (error at most norm^4). ExpMap::exp is proved for every matrix but zero, where it divides by zero."
  },
  {
   "property": "C36",
   "status": "partial",
   "theorems": [
    "C36_smearing",
    "C36_exponential_partial",
    "C36_small_exponent_refuted",
    "C36_adjoint_refuted",
    "C36_three_colours_cold_refuted"
   ],
   "note": "The smearing laws hold for every exponential that maps the Lie algebra to the group and commutes with changes of basis. The exponential for more than three colours has these properties for zero and for exponents above its threshold, the one for three colours for the exponents of C73; below the threshold the truncated series is not unitary (refuted), and with three colours the cold configuration gives 0/0 (refuted). The smearing of adjoint links is not gauge covariant (refuted)."
  },
  {
   "property": "C37",
   "status": "proved",
   "theorems": [
    "C37_reversible",
    "C37_stays_in_group"
   ],
   "note": "All five integrators, any nesting, any force that depends on the links only and lies in the Lie algebra."
  },
  {
   "property": "C38",
   "status": "proved",
   "theorems": [
    "C38_total_time",
    "C38_zero_steps_refuted",
    "C38_integer_step_refuted",
    "C38_single_step"
   ],
   "note": "Vector-of-forces variants of all five integrators. Refuted for zero steps of fourth_omelyan and for the one-force variants of omelyan and fourth_omelyan, which keep the step in an int."
  },
  {
   "property": "C39",
   "status": "proved",
   "theorems": [
    "C39_decision",
    "C39_decision_value",
    "C39_step"
   ],
   "note": "Metropolis rule, old or proposal on all processes, energy-lowering proposals accepted."
  },
  {
   "property": "C40",
   "status": "proved",
   "theorems": [
    "C40_clifford",
    "C40_derived_tables",
    "C40_chroma_matrices",
    "C40_basis_matrices"
   ],
   "note": "all tables of Gamma.h and the colour-replicating constructors"
  },
  {
   "property": "C41",
   "status": "proved",
   "theorems": [
    "C41_wilson",
    "C41_basic",
    "C41_agree"
   ],
   "note": "both unrolled implementations equal the formula with the tabulated gamma matrices, with and without gamma5, for any initial content of the output"
  },
  {
   "property": "C42",
   "status": "proved",
   "theorems": [
    "C42_hermitian",
    "C42_gamma5dot",
    "C42_square"
   ],
   "note": "any links, real kappa; scalar products as computed in AlgebraUtils.h"
  },
  {
   "property": "C43",
   "status": "proved",
   "theorems": [
    "C43_covariant"
   ],
   "note": "both implementations, both flags, unitary transformations"
  },
  {
   "property": "C44",
   "status": "partial",
   "theorems": [
    "C44_wilson",
    "C44_square",
    "C44_twisted",
    "C44_block_exactly_closed",
    "C44_block_refuted",
    "C44_square_twisted_refuted"
   ],
   "note": "the law holds for Wilson, basic, squared and twisted; it is false for the block operator (multiplyAdd does not mask neighbours; exact condition proved) and for the squared twisted operator (twist multiplies the second vector)"
  },
  {
   "property": "C45",
   "status": "partial",
   "theorems": [
    "C45_chebyshev_value",
    "C45_operator",
    "C45_scalar",
    "C45_agree",
    "C45_equal_ends",
    "C45_degree_refuted"
   ],
   "note": "the operator and scalar versions evaluate the Chebyshev polynomial of degree n+1 of the rescaled argument and agree on eigenvectors; the clause about the degree is false in the code: order n gives degree n+1"
  },
  {
   "property": "C46",
   "status": "proved",
   "theorems": [
    "C46_polynomial",
    "C46_scalar",
    "C46_agree",
    "C46_preconditioned",
    "C46_no_roots",
    "C46_rational",
    "C46_rational_scalar",
    "C46_rational_mismatch"
   ],
   "note": "polynomials for non-empty roots (an empty list is undefined); rational functions given the solutions of the shifted systems (error of the real solver: C49_errors)"
  },
  {
   "property": "C47",
   "status": "partial",
   "theorems": [
    "C47_residual",
    "C47_exact_guess_refuted"
   ],
   "note": "success means a small residual; the clause about an exact initial vector is false in the code: 0/0 at the first step"
  },
  {
   "property": "C48",
   "status": "partial",
   "theorems": [
    "C48_residual_partial",
    "C48_preconditioner_refuted"
   ],
   "note": "proved for the identity preconditioner; false for others: the residual is advanced with A s instead of A P s"
  },
  {
   "property": "C49",
   "status": "partial",
   "theorems": [
    "C49_residuals",
    "C49_errors",
    "C49_zero_steps_refuted",
    "C49_undefined"
   ],
   "note": "proved for a positive number of steps; with maxSteps = 0 the code reports success without solving"
  },
  {
   "property": "C50",
   "status": "proved",
   "theorems": [
    "C50_adjoint",
    "C50_fundamental",
    "C50_metropolis",
    "C50_exit",
    "C50_extent_one_refuted"
   ],
   "note": "The local energy change equals the change of the total action whenever no extent is one, and the whole two-block update equals the textbook Metropolis algorithm for the total action; with an extent of one site the two changes differ (refuted)."
  },
  {
   "property": "C51",
   "status": "partial",
   "theorems": [
    "C51_parity",
    "C51_metropolis",
    "C51_any_update",
    "C51_odd_refuted",
    "C51_order_refuted"
   ],
   "note": "Proved for even extents, for the scalar update and for any update that reads only the site and its neighbours; with any odd extent greater than one two sites of equal parity are neighbours, and on a 3x2x2x2 lattice the result depends on the order."
  },
  {
   "property": "C52",
   "status": "partial",
   "theorems": [
    "C52_two_colours",
    "C52_unitary_copy",
    "C52_special_unitary_refuted",
    "C52_defined",
    "C52_best_copy",
    "C52_best_copy_refuted"
   ],
   "note": "proved in full for two colours; for more colours the copy is by unitary matrices and the functional does not decrease, but the relaxation leaves SU(N) (refuted for three colours on a lattice with even extents); the copy kept is the best one only when some functional is positive; parameters for which the call divides by zero are characterised"
  },
  {
   "property": "C53",
   "status": "proved",
   "theorems": [
    "C53_blocks",
    "C53_positions",
    "C53_zero_block_refuted"
   ],
   "note": "all layouts, ranks and positive block sizes; a zero block size is undefined behaviour"
  },
  {
   "property": "C54",
   "status": "proved",
   "theorems": [
    "C54_adjoint",
    "C54_projector"
   ],
   "note": "adjointness for any basis and thread partition; restriction after prolongation is the identity and the loss is orthogonal for an orthonormal basis"
  },
  {
   "property": "C55",
   "status": "proved",
   "theorems": [
    "C55_generators",
    "C55_tables",
    "C55_action",
    "C55_homomorphism",
    "C55_orthogonal",
    "C55_character",
    "C55_paths",
    "C55_covariance"
   ],
   "note": "every number of colours, including both hand-written tables"
  },
  {
   "property": "C56",
   "status": "proved",
   "theorems": [
    "C56_flow",
    "C56_total_time",
    "C56_no_intervals_refuted"
   ],
   "note": "Wilson and improved flow, any number of colours, exact exponential through an eigenvalue solver; existence of solver and exponential shown. With zero intervals nothing flows."
  },
  {
   "property": "C57",
   "status": "partial",
   "theorems": [
    "C57_ranks",
    "C57_ranks_refuted",
    "C57_threads",
    "C57_threads_refuted"
   ],
   "note": "distinct for ranks below 534 calling in step; ranks 294 and 534 always collide; on one process the exact collision condition, draws of mt19937 being inputs"
  },
  {
   "property": "C58",
   "status": "proved",
   "theorems": [
    "C58_force_is_gradient"
   ],
   "note": "Exact statement for a linear displacement of the link."
  },
  {
   "property": "C59",
   "status": "partial",
   "theorems": [
    "C59_correlator",
    "C59_gauge_invariant",
    "C59_label_refuted"
   ],
   "note": "The l-th number is the correlation at distance l+1 normalised by the number of colours times the spatial volume; the printed label l is refuted by a two-site configuration. Stale halo of the first shift on several processes is not modelled here."
  },
  {
   "property": "C60",
   "status": "proved",
   "theorems": [
    "C60_observables"
   ],
   "note": "Any configuration of matrices."
  },
  {
   "property": "C61",
   "status": "partial",
   "theorems": [
    "C61_twisted",
    "C61_gamma5_refuted"
   ],
   "note": "the first half holds; with gamma5 set the twist term misses its gamma5, for every twist above the threshold"
  },
  {
   "property": "C62",
   "status": "proved",
   "theorems": [
    "C62_block",
    "C62_decoupled"
   ],
   "note": "block operator as P D P + (1-P) + i twist gamma5"
  },
  {
   "property": "C63",
   "status": "proved",
   "theorems": [
    "C63_converges",
    "C63_fails_iff_exact"
   ],
   "note": "exact arithmetic"
  },
  {
   "property": "C64",
   "status": "proved",
   "theorems": [
    "C64_heat_bath",
    "C64_subgroup",
    "C64_subgroups",
    "C64_overrelaxation",
    "C64_proposal_reversible"
   ],
   "note": "The QR decomposition is an oracle returning a unitary Q; the accept decision is any function."
  },
  {
   "property": "C65",
   "status": "proved",
   "theorems": [
    "C65_sphere",
    "C65_defined",
    "C65_onto",
    "C65_link",
    "C65_zero_draw_refuted",
    "C65_negative_beta"
   ],
   "note": "Exact real arithmetic; log 0 is minus infinity. A second uniform number that is exactly zero together with an exactly vanishing cosine is accepted as NaN."
  },
  {
   "property": "C66",
   "status": "partial",
   "theorems": [
    "C66_heavy",
    "C66_light_refuted"
   ],
   "note": "Proved for squared masses of at least 24; refuted for squared masses below 8 without quartic couplings, where constant fields give arbitrarily negative values."
  },
  {
   "property": "C67",
   "status": "proved",
   "theorems": [
    "C67_commutators",
    "C67_algebra"
   ],
   "note": "every number of colours, including both hand-written tables"
  },
  {
   "property": "C68",
   "status": "proved",
   "theorems": [
    "C68_constructor",
    "C68_set_dimension_refuted"
   ],
   "note": "the constructor is right; setBasisDimension stores the old dimension (refutation, with the out-of-bounds read)"
  },
  {
   "property": "C69",
   "status": "proved",
   "theorems": [
    "C69_orthogonalize",
    "C69_orthogonalize_one"
   ],
   "note": "exact arithmetic; halo updates not modelled"
  },
  {
   "property": "C70",
   "status": "partial",
   "theorems": [
    "C70_galerkin",
    "C70_multiply_add",
    "C70_matrix",
    "C70_matrix_refuted"
   ],
   "note": "asMatrix is the matrix of the operator on one process only: with two processes it is refuted"
  },
  {
   "property": "C71",
   "status": "proved",
   "theorems": [
    "C71_relaxation"
   ],
   "note": "any number of colours, any periodic box with even extents; eigensolver assumed to diagonalise Hermitian matrices"
  },
  {
   "property": "C72",
   "status": "proved",
   "theorems": [
    "C72_wilson_staple_reads",
    "C72_improved_staple_reads",
    "C72_improved_staple_thin_boxes_refuted",
    "C72_improved_energy_reads",
    "C72_hopping_reads"
   ],
   "note": "The condition on the backward diagonal is exact: C72_improved_staple_thin_boxes_refuted shows the out-of-bounds read on all other grids."
  },
  {
   "property": "C73",
   "status": "partial",
   "theorems": [
    "C73_exponential",
    "C73_error",
    "C73_series_refuted",
    "C73_zero_refuted",
    "C73_change_of_basis"
   ],
   "note": "Exact when two eigenvalues coincide or all are a tenth apart; otherwise the truncated series is never exactly unitary (refuted), with eigenvalues off by at most 10^-17. The zero matrix gives 0/0 (refuted)."
  },
  {
   "property": "C74",
   "status": "proved",
   "theorems": [
    "C74_energy_of_draws",
    "C74_energy_positive",
    "C74_coordinates"
   ],
   "note": "Exact arithmetic; the numbers drawn are arbitrary reals, their distribution is not modelled."
  },
  {
   "property": "C75",
   "status": "partial",
   "theorems": [
    "C75_gradient",
    "C75_gradient_adjoint",
    "C75_energy",
    "C75_regular",
    "C75_two_flavor_partial",
    "C75_two_flavor_adjoint_partial",
    "C75_two_flavor_refuted"
   ],
   "note": "The rational action has the gradient in full. The two flavour action has it only when no link has a changed sign; with antiperiodic boundary conditions the code violates it."
  },
  {
   "property": "C76",
   "status": "partial",
   "theorems": [
    "C76_step",
    "C76_step_black",
    "C76_sap",
    "C76_residual",
    "C76_fixed",
    "C76_chequerboard",
    "C76_chequerboard_refuted"
   ],
   "note": "exact block solvers and zero twist; the colouring separates adjacent blocks only with one or an even number of blocks per direction, refuted for three"
  },
  {
   "property": "C77",
   "status": "partial",
   "theorems": [
    "C77_success",
    "C77_optimal",
    "C77_progress",
    "C77_rate",
    "C77_defined",
    "C77_dimension_refuted",
    "C77_dimension_zero_refuted",
    "C77_exact_guess_refuted",
    "C77_block_source_refuted"
   ],
   "note": "exact arithmetic; refuted for dimensions above the allocated thirteen vectors and for exact first guesses"
  },
  {
   "property": "C78",
   "status": "partial",
   "theorems": [
    "C78_gradient",
    "C78_forces_agree",
    "C78_algebra",
    "C78_matrix_action",
    "C78_lambda_8_refuted",
    "C78_invariant",
    "C78_multi",
    "C78_multi_empty_refuted"
   ],
   "note": "refuted: lambda_8 has no effect, and a sum of no actions leaves the old force"
  },
  {
   "property": "C79",
   "status": "partial",
   "theorems": [
    "C79_multiply",
    "C79_multiply_add",
    "C79_square",
    "C79_hermitian",
    "C79_covariant",
    "C79_wilson",
    "C79_block",
    "C79_block_add_refuted"
   ],
   "note": "Everything is proved except multiplyAdd of the block version, which is refuted for blocks with an outside: the code does not mask the neighbours there."
  },
  {
   "property": "C80",
   "status": "partial",
   "theorems": [
    "C80_schur",
    "C80_hermitian",
    "C80_residual",
    "C80_solve",
    "C80_gamma5_refuted",
    "C80_stride_refuted",
    "C80_stale_refuted",
    "C80_precision_refuted"
   ],
   "note": "Proved for three colours and fresh inverses; refuted for other numbers of colours, for the flag gamma5 in the solver, for kappa changed after setLattice and for the precision of the inner solver."
  },
  {
   "property": "C81",
   "status": "partial",
   "theorems": [
    "C81_gradient",
    "C81_gradient_adjoint",
    "C81_algebra",
    "C81_regular",
    "C81_solvable",
    "C81_wilson",
    "C81_copy_refuted"
   ],
   "note": "All of it except the last sentence, which is false: derivative on a copy is undefined."
  },
  {
   "property": "C82",
   "status": "partial",
   "theorems": [
    "C82_trace",
    "C82_slab",
    "C82_diluted",
    "C82_mean",
    "C82_deviation",
    "C82_deviation_refuted",
    "C82_condensate",
    "C82_written",
    "C82_real",
    "C82_solvable",
    "C82_singlet",
    "C82_hopping",
    "C82_source",
    "C82_smear",
    "C82_smear_slice"
   ],
   "note": "Everything is proved for all inputs; the claim fails only for the standard deviation of a single estimator (zero over zero). Momentum sources, the overlap branches and the smearing of links in ChiralCondensate are not modelled."
  },
  {
   "property": "C83",
   "status": "partial",
   "theorems": [
    "C83_pion",
    "C83_vector",
    "C83_scalar_refuted",
    "C83_ps",
    "C83_pcac",
    "C83_pcac_refuted",
    "C83_cancel",
    "C83_origin",
    "C83_gauge",
    "C83_disconnected",
    "C83_disconnected_refuted",
    "C83_slice_refuted"
   ],
   "note": "The correlators, the origin and the gauge invariance are proved. The code violates the rest: the axial correlator is a sum that cancels, so that the PCAC mass averages to zero, the scalar correlator is that of the vector current, the disconnected parts are four times the trace and the first time slice is not written."
  },
  {
   "property": "C84",
   "status": "partial",
   "theorems": [
    "C84_translate",
    "C84_translate_refuted",
    "C84_inverse",
    "C84_sites",
    "C84_sites_refuted",
    "C84_exact",
    "C84_exact_refuted",
    "C84_connected",
    "C84_connected_refuted",
    "C84_disconnected",
    "C84_disconnected_diagonal",
    "C84_disconnected_refuted"
   ],
   "note": "proved for every operator what the code writes: translations, inversion, sites, and the three sums in terms of the propagator; the claim fails in the code: transposed propagator, shared noise, column sums, negative displacements, extents of one"
  },
  {
   "property": "C85",
   "status": "partial",
   "theorems": [
    "C85_gradient",
    "C85_stationary",
    "C85_maximum",
    "C85_transverse",
    "C85_propagator",
    "C85_normalisation",
    "C85_vertex",
    "C85_labels_refuted",
    "C85_momenta",
    "C85_written"
   ],
   "note": "Everything but the labels is proved; the last label of the propagator is wrong in the code (C85_labels_refuted)."
  },
  {
   "property": "C86",
   "status": "partial",
   "theorems": [
    "C86_hessian",
    "C86_symmetric",
    "C86_constants",
    "C86_free",
    "C86_outcome",
    "C86_written",
    "C86_free_refuted"
   ],
   "note": "The operator is characterised in full. That true means a solution is false in the code when the error becomes a zero mode: C86_outcome gives what is returned and C86_free_refuted the case of unit links."
  },
  {
   "property": "C87",
   "status": "partial",
   "theorems": [
    "C87_operator",
    "C87_square",
    "C87_square_add_partial",
    "C87_multiply_add_partial",
    "C87_multiply_add_refuted",
    "C87_hermitian",
    "C87_ginsparg_wilson",
    "C87_mass",
    "C87_gauge"
   ],
   "note": "All proved but the law of multiplyAdd without gamma5, which the code violates: C87_multiply_add_refuted says exactly for which vectors it holds."
  },
  {
   "property": "C88",
   "status": "partial",
   "theorems": [
    "C88_operator",
    "C88_sign",
    "C88_ginsparg_wilson",
    "C88_hermitian",
    "C88_gauge",
    "C88_eigenvalues",
    "C88_null_refuted",
    "C88_degenerate_refuted"
   ],
   "note": "Proved for lists of orthonormal eigenvectors of H. That computeEigenvalues stores such vectors is false in the code for degenerate eigenvalues of the square (C88_degenerate_refuted) and it crashes without a solver (C88_null_refuted)."
  },
  {
   "property": "C89",
   "status": "partial",
   "theorems": [
    "C89_propagator",
    "C89_chirality",
    "C89_connected",
    "C89_connected_refuted",
    "C89_rotation_mass",
    "C89_rotation_both",
    "C89_rotation_invariant"
   ],
   "note": "All proved but the normalisation of the connected part, which is off by 1-m in the code (C89_connected, C89_connected_refuted)."
  },
  {
   "property": "C90",
   "status": "partial",
   "theorems": [
    "C90_derivative_partial",
    "C90_derivative_refuted",
    "C90_energy_partial",
    "C90_regular"
   ],
   "note": "Proved for a scaling that is not negative or an odd number of roots; refuted for a negative scaling with an even number of roots."
  },
  {
   "property": "C91",
   "status": "partial",
   "theorems": [
    "C91_coarse_partial",
    "C91_coarse_refuted",
    "C91_direction",
    "C91_solve",
    "C91_lifetime_refuted",
    "C91_again_refuted",
    "C91_spent_refuted",
    "C91_shift_partial",
    "C91_shifts_partial",
    "C91_large",
    "C91_multishift_refuted"
   ],
   "note": "Residuals of the outer solver are proved for every preconditioner, and the large shifts of the multishift solver are solved. The return value, repeated calls, the coarse solver and the small shifts are refuted; partial theorems say what remains."
  },
  {
   "property": "C92",
   "status": "proved",
   "theorems": [
    "C92_solved",
    "C92_converges",
    "C92_last",
    "C92_unordered_refuted",
    "C92_negative_refuted",
    "C92_guess",
    "C92_guess_exists",
    "C92_chronological",
    "C92_memory_refuted"
   ],
   "note": "Proved for shifts with the smallest non-negative one last; other orders, only negative shifts and zero memory are refuted."
  },
  {
   "property": "C93",
   "status": "proved",
   "theorems": [
    "C93_glueball",
    "C93_gauge",
    "C93_axes",
    "C93_adjoint",
    "C93_fundamental",
    "C93_fundamental_refuted"
   ],
   "note": "The fundamental mean fields are refuted on several processes: their sums are not reduced."
  }
 ]
}
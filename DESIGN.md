# Formal model of LeonardYM: design

Code under study: `/repo/source` (C++). It is read as text; nothing is built or run.
The proofs are about the Gallina model in `rocq/theories`; the tie to the code is the
file/line citation carried by each definition.

## Conventions

* `*Model.v` definitions only (function by function, with citations); `*Spec.v` small
  independent specifications; `*Proofs*.v`, `*Facts*.v`, `*Main.v` lemmas; `*Props.v` the property theorems, each closed by
  `exact` or a line of glue, with a concrete `Example` beside it and `Print Assumptions` at the end of the file.
* Undefined behaviour of C++ (out-of-range read, division by zero on integers, dereferencing `end()`)
  is an outcome of its own (`UB`, or `None` where the comment says so), and so is `exit(n)`. A floating-point `0/0` is an explicit outcome
  (`NotANumber`/`None`) wherever a division occurs in modelled code.
* Integers are unbounded `Z`/`nat` (no overflow is modelled); real arithmetic is exact.
* General-N gauge algebra uses MathComp matrices over an arbitrary `numClosedFieldType`
  (covers the complex numbers; axiom free). Formulas with sqrt, exp, sin, cos use the standard library's `R`.
* Libraries are oracles with a stated contract: Eigen/armadillo eigensolvers (ExpSpec, FixSpec: they return a decomposition), QR
  decompositions (UpdModel: a unitary factor), `std::exp` (ExpSpec), uniform random draws (arguments). That each contract can be met is itself proved
  (`hermitian_eig_exists` in FixProps.v, `C35_curve_exists`, the instances in RealField.v and SmearProps.v).
* A property the code violates gets a `_refuted` theorem with a witness, plus the
  strongest true statement. An incomplete property gets a theorem with suffix `_partial`.

## Model files

| family | code | simplifications |
|--------|------|-----------------|
| Layout | MPILattice/MPILayout.h, LocalLayout.h, Site.h, StencilVector | unbounded integers; id strings are lists of ranks |
| Halo | MPILattice/Lattice.h (communicateHalo, waitHalo), layout conversion | MPI is FIFO matching per (source, destination, tag), any interleaving |
| Sum | MultiThreadSummator.h, MPIUtils.h | addition is exact |
| Text | main.cpp, StorageParameters, LatticeSweep | regular expression as maximal runs of its class |
| Out | io/GlobalOutput.h | printed text of numbers is given |
| Format, Su3 | io/OutputSweep.cpp, ReadStartGaugeConfiguration.cpp | doubles are bit patterns; orthonormalisation of three-colour links over R |
| Field | LatticeBoundaryConditions.h, NFlavorFermionAction names, Translate.h | link values abstract with a negation |
| Colour | Checkerboard.cpp and the sweeps | one process |
| Gauge, Loop | actions, WilsonGaugeAction, ImprovedGaugeAction, Plaquette, WilsonLoop, PolyakovLoop(Correlator) | exact arithmetic; lattice as a finite set with neighbour maps (instances: boxes and the tables of MPILayout.h) |
| Exp, Smear | ExpMap.h, Integrate.cpp, StoutSmearing.cpp, WilsonFlow.cpp | eigensolver an oracle |
| Md | hmc_integrators, HMCUpdater | force any function of the links |
| Upd, Su2, Heat | PureGaugeUpdater, PureGaugeOverrelaxation, ReUnit, matrix_exp, ExpMap for two colours | random draws are arguments |
| Gamma, Dirac | Gamma.cpp, Dirac operators | components transcribed line by line |
| Solver | inverters, dirac_functions | one text for any arithmetic; vectors abstract |
| Scalar | ScalarAction.cpp, MetropolisScalarUpdater.cpp | fields real by hypothesis |
| Adj | LieGenerators.h, ConvertLattice.h | |
| Block, Mg, MgSolve | multigrid | halo and construction of the basis not modelled |
| Seed | RandomSeed.h/.cpp | mt19937 draws are inputs |
| Fix | gauge_fixing | random draws and eigensolver are arguments |

## Properties: what is modelled and how it is proved

Status `proved`: the statement of properties.jsonl holds of the model for all inputs, or (when a `_refuted` theorem is listed) the exact range in which it holds is proved and the complement refuted as the note says. Status `partial`: a clause of the statement is false of the code (refuted) or missing, as the note says.

| id | status | what is modelled | how it is proved | theorems (file) | note |
|----|--------|------------------|------------------|-----------------|------|
| C01 Global site numbering is a periodic bijection | proved | `modulus` (recursive, fuel), coordinate/number conversions of the MPI layout over Z | equality with Euclidean mod; div/mod arithmetic gives the bijection | `C01_numbering_is_periodic_bijection` (LayoutProps.v) | All positive extents, all integer coordinates. |
| C02 Single-process layout wraps exactly one period | proved | `LocalLayout::modulus` (one period) | case analysis; refuted beyond one period with a witness | `C02_local_layout_one_period`, `C02_local_layout_further_refuted` (LayoutProps.v) | Positive statement within one period; a coordinate further out in one direction never gets the number of its image. |
| C03 Forward and backward neighbours are inverse and commute | proved | neighbour tables on global coordinates | from C01 and modular arithmetic | `C03_neighbours`, `C03_rank_tables` (LayoutProps.v) | On global numbers and through the tables of every rank. |
| C04 Ownership is an even partition of the lattice | proved | processor grid, owner formula, start-up checks as exit codes | counting lemma on boxes, for any grid that passes the checks | `C04_startup_accepts_exactly_valid_grids`, `C04_ownership_partition` (LayoutProps.v) |  |
| C05 Local numbering is a bijection with the documented ranges | proved | exchange table, id strings, chunks, offsets, three numbering passes | invariants of the folds over chunks, for an arbitrary list of stencil offsets | `C05_local_numbering` (LayoutProps.v) | For an arbitrary list of stencil displacements. |
| C06 Every stencil neighbour of an owned site is readable | proved | same | a neighbour owned elsewhere lists this rank in its sharers, hence is in a halo chunk | `C06_stencil_readable` (LayoutProps.v) |  |
| C07 Two-step backward reads on the extended layout | proved | extended stencil list | case analysis on local extents; witness for extents 1 | `C07_two_steps_back`, `C07_thin_boxes_refuted` (LayoutProps.v) | Exact characterisation: the two theorems cover all cases. |
| C08 Halo update copies the owner's values | proved | MPI as per-channel FIFO queues, each rank a program of sends/receives; small-step nondeterminism | invariant on (sent, delivered) prefixes; every terminal state is the expected one, and a terminal state is always reachable | `C08_halo_update`, `C08_halo_update_terminates` (HaloProps.v) | All ranks, all interleavings, all tag tables; FIFO matching per (source, destination, tag) as guaranteed by MPI. |
| C09 Several halo updates in flight do not mix | proved | same with several fields posted in sequence | same invariant, messages of field k are the k-th block of each queue | `C09_updates_in_flight` (HaloProps.v) | Any sequence of starts and waits equal on all ranks. |
| C10 Start-up computes message tags within table bounds | partial | the tag loop with its index expression, out-of-range as UB | refuted by a concrete chunk table; conditional positive statement | `C10_tags_in_bounds_iff`, `C10_tags_in_bounds_refuted`, `C10_single_sharer_tags_distinct_partial` (LayoutProps.v) | The property is false of the code (MPILayout.h 219 uses the sharer index as chunk index): witness on a 2x2 process grid. The exact condition for in-bounds reads is proved; distinctness for tables with at most one sharer per chunk. |
| C11 Converting a field between layouts preserves it | proved | `getMapIndex` and the assignment loops | composition of the two numberings | `C11_conversion` (HaloProps.v) | Copy through the index map never reads outside, then halo update. |
| C12 Global sums count each site once | proved | per-thread partial sums and reduction in any order | permutation invariance in a commutative monoid and the partition of C04 | `C12_global_sum` (HaloProps.v) | Any thread schedule and any reduction tree; exact arithmetic (any commutative monoid). |
| C13 Configuration lines: comments, spaces and pairs | proved | `clean_line`, the regular expression splitting, option map loop, on character lists | induction on lines; witness for trailing comment | `C13_line`, `C13_file`, `C13_lines_of_file`, `C13_spaces`, `C13_inline_comment_stops`, `C13_indented_comment` (TextProps.v) | The regular expression of main.cpp is modelled as the maximal runs of its character class; a '#' that is not the first character never starts a comment, so inline comments stop the program and an indented comment can set an option. |
| C14 List-valued options parse to the listed elements | proved | the list parser state machine on characters | induction on the nesting structure | `C14_list_option` (TextProps.v) | The list may be preceded by text without '{' and followed by anything. |
| C15 Sweep schedule executes each sweep the requested number of times | proved | sweep specification reader, `call`, the sweep loops | arithmetic of multiples, induction on n | `C15_schedule`, `C15_one_cycle`, `C15_zero_step_undefined`, `C15_default_warm_up_refuted` (TextProps.v) | From the option text to the number of executions; the default value of warm_up_sweeps names an unknown sweep and stops the program (refutation). |
| C16 Output files nest properly | partial | `GlobalOutput` streams as an operation/state machine | invariant: text = rendering of the open path; grammar of documents | `C16_xml_document`, `C16_txt_document`, `C16_txt_portions`, `C16_xml_portions`, `C16_stops`, `C16_pop_refuted` (OutProps.v) | Documents, order and portions are proved for all call sequences. Two parts of the claim are false of the code and refuted: a txt document never closes its outer brace, and closing a group that is not open is only noticed for a name never used. xml portions give the same tokens, not the same blanks. |
| C17 Reading configurations skips missing files and reports failure honestly | partial | retry loop with an oracle for readability | induction; the off-by-one at the limit is refuted | `C17_read_next`, `C17_read_many`, `C17_stop_after_success_refuted` (TextProps.v) | The part 'never after a successful read' is false of the code (success at the hundredth attempt) and refuted; everything else is proved for any number of reads. |
| C18 Native format: write then read restores the field on any grid | proved | per-rank record lists, scatter by coordinate | composition with C04 partition for two grids | `C18_native_round_trip`, `C18_other_lattice_refused`, `C18_failed_read_unchanged_refuted` (FormatProps.v) | Any two process grids and stencils of the same lattice, all sites owned or mirrored by the reading rank. Text form of the descriptor not modelled. A failed read leaves a partly overwritten configuration (refuted). |
| C19 Muenster format round trip for two colours | proved | number stream per site, reader reconstruction over complex numbers | algebra over R | `C19_su2_round_trip`, `C19_read_shape`, `C19_trailer`, `C19_negative_kappa_refuted`, `C19_ranks_agree_refuted` (FormatProps.v) | Entries come back as rounded to float. Any floating-point rounding that commutes with the sign. Refuted: negative kappa, agreement of the ranks on failure. |
| C20 Muenster format round trip for three colours | proved | number stream per site, reader reconstruction over complex numbers | algebra over R | `C20_read_is_SU3`, `C20_two_columns_suffice`, `C20_su3_round_trip` (Su3Props.v) | Exact real arithmetic; float conversion an arbitrary map commuting with the sign. Dependent columns divide by zero (NaN). |
| C21 Parallel muenster writer equals the serial one | proved | gather by x-runs with owner ranks | list equality by induction over the loops | `C21_parallel_stream` (FormatProps.v) | Every interleaving, buffered or unbuffered sends; termination and absence of deadlock included. For 16 or 48 words per site. |
| C22 External number encoding round trips | proved | big-endian byte codecs | arithmetic, induction on sequences | `C22_int`, `C22_double`, `C22_float`, `C22_sequence`, `C22_end_of_file` (FormatProps.v) | Byte level model of RFC 4506; the library itself is not in the repository. |
| C23 Fermion boundary conditions change only the intended links | proved | link sign functions by coordinates; option dispatch tables | case analysis; mismatch refuted | `C23_sign_flip`, `C23_twice`, `C23_commute`, `C23_open` (FieldProps.v) | every rank, halo copies included; open boundary as well |
| C24 The same boundary-condition name means the same thing everywhere | partial | link sign functions by coordinates; option dispatch tables | case analysis; mismatch refuted | `C24_names_consistent`, `C24_force_consistent`, `C24_names_consistent_refuted`, `C24_missing_option_refuted` (FieldProps.v) | true for every name except fermion_full_antiperiodic, for which it is refuted on every lattice |
| C25 Translation moves the whole field periodically | partial | repeated unit shifts | induction on the displacement; negative displacement refuted | `C25_translate_partial`, `C25_negative_ignored_refuted`, `C25_negative_unwritten_refuted` (FieldProps.v) | proved for displacements that are not negative, refuted for negative ones |
| C26 Links of one colour can be updated in any order | proved | link pair list checked by the colouring, staple supports, update loops | support argument: independence implies commutation, then permutation invariance | `C26_accepted_independent`, `C26_order_irrelevant`, `C26_constructor_correct`, `C26_small_extent_never_accepted_refuted`, `C26_two_extent_out_of_bounds_refuted`, `C26_uninitialised_halo_refuted` (ColourProps.v) | one process; the constructor is proved correct for every lattice with extents at least 3; extents below 3 and the uninitialised halo of several processes are refuted |
| C27 Wilson action: local change equals global change | proved | staple/energy/deltaAction over matrices on a finite torus | trace cyclicity and re-indexing of sums | `C27_energy_is_wilson_action`, `C27_local_is_global`, `C27_tables_have_extent2` (GaugeProps.v) | Any number of colours over any algebraically closed field with conjugation, any periodic lattice with extents at least 2; the tables of MPILayout.h give such a lattice. |
| C28 Improved action: local change equals global change | proved | staple/energy/deltaAction over matrices on a finite torus | trace cyclicity and re-indexing of sums | `C28_energy_is_symanzik_action`, `C28_local_is_global`, `C28_tables_have_extent3` (GaugeProps.v) | Real non-zero u0, extents at least 3. |
| C29 Gauge invariance of action and plaquette | proved | gauge transformation | covariance of path products | `C29_gauge_invariance`, `C29_covariance`, `C29_plaquettes` (GaugeProps.v) | Unitary transformation at each site. |
| C30 Wilson and Polyakov loops are the advertised path products | partial | the shift loops of the measurements | induction on R, T; covariance | `C30_wilson_loops`, `C30_wilson_loops_empty_refuted`, `C30_polyakov_temporal`, `C30_polyakov_spatial_partial`, `C30_polyakov_spatial_refuted`, `C30_gauge_invariant` (LoopProps.v) | Wilson loops, the temporal Polyakov loop and gauge invariance are proved for every grid and number of colours. Spatial Polyakov loops are divided by the spatial volume, so they are the average only when that extent equals the temporal one; the general claim is refuted, as is a table with zero maximal extent. |
| C31 Forces stay in the Lie algebra | proved | force formulas and random momenta | linear algebra | `C31_force`, `C31_momenta` (GaugeProps.v) | Wilson and improved gauge force for any staple; momenta filled by the loops of randomMomenta. The force of the fermion and scalar terms is not covered here. |
| C32 Two-colour overrelaxation keeps the action and the group | proved | 2x2 formulas over R; general-N row normalisation | algebra (ring, nra), witness for N>2 and for zero | `C32_wilson`, `C32_improved`, `C32_twice`, `C32_sweep_back`, `C32_moves` (UpdProps.v) | Exact arithmetic; one process without threads; any order of links, Wilson action on extents of at least 2 and Symanzik action on extents of at least 3. The step is skipped when the absolute determinant of the staple is at most 1e-4; every statement covers that case. |
| C33 Two-colour heat bath returns group elements | proved | 2x2 formulas over R; general-N row normalisation | algebra (ring, nra), witness for N>2 and for zero | `C33_group`, `C33_onto`, `C33_singular` (UpdProps.v) | Exact arithmetic; the draw is any real point of the unit sphere (the samplers of the radius and direction are C65). |
| C34 Re-unitarisation returns unitary matrices | partial | 2x2 formulas over R; general-N row normalisation | algebra (ring, nra), witness for N>2 and for zero | `C34_two_colours`, `C34_two_colours_defined`, `C34_two_colours_scaled`, `C34_unitary`, `C34_fixed`, `C34_first_row_refuted`, `C34_scaled_refuted` (UpdProps.v) | Proved for two colours and for links that are already unitary. Refuted for more than two colours: ReUnit.cpp divides each row by the square of its norm, so every link whose first row is not exactly normalised gives a non-unitary result. |
| C35 Matrix exponential of the momenta is in the group | partial | matrix_exp and ExpMap for two colours over R | the solution of the flow equation is characterised (unique), then compared entry by entry | `C35_curve_exists`, `C35_curve_unique`, `C35_matrix_exp`, `C35_matrix_exp_zero`, `C35_small_refuted`, `C35_small_error`, `C35_exp_map`, `C35_exp_map_zero_refuted` (Su2Props.v) | Exact real arithmetic. matrix_exp is the exponential, in SU(2) and inverted by the opposite, for norms of at least 1e-7 and for zero; below it the series result is proved not to be in SU(2) (error at most norm^4). ExpMap::exp is proved for every matrix but zero, where it divides by zero. |
| C36 Smearing respects the group and the gauge symmetry | partial | smearing loops over any exponential; the eigenvector exponential | equivariance of staples, induction on levels | `C36_smearing`, `C36_exponential_partial`, `C36_small_exponent_refuted`, `C36_adjoint_refuted` (SmearProps.v); `C36_three_colours_cold_refuted` (Exp3Props.v) | The smearing laws hold for every exponential that maps the Lie algebra to the group and commutes with changes of basis. The exponential for more than three colours has these properties for zero and for exponents above its threshold, the one for three colours for the exponents of C73; below the threshold the truncated series is not unitary (refuted), and with three colours the cold configuration gives 0/0 (refuted). The smearing of adjoint links is not gauge covariant (refuted). |
| C37 Molecular dynamics is reversible | proved | each integrator as a word of elementary updates | palindromes of reversible updates; sums of coefficients | `C37_reversible`, `C37_stays_in_group` (MdProps.v) | All five integrators, any nesting, any force that depends on the links only and lies in the Lie algebra. |
| C38 Molecular dynamics covers the requested time | proved | each integrator as a word of elementary updates | palindromes of reversible updates; sums of coefficients | `C38_total_time`, `C38_zero_steps_refuted`, `C38_integer_step_refuted`, `C38_single_step` (MdProps.v) | Vector-of-forces variants of all five integrators. Refuted for zero steps of fourth_omelyan and for the one-force variants of omelyan and fourth_omelyan, which keep the step in an int. |
| C39 Rejected HMC proposals leave the configuration unchanged | proved | accept/reject with oracles for energy and random draw, broadcast | case analysis | `C39_decision`, `C39_decision_value`, `C39_step` (MdProps.v) | Metropolis rule, old or proposal on all processes, energy-lowering proposals accepted. |
| C40 Gamma-matrix tables satisfy the Clifford algebra | proved | tables as 4x4 matrices over Gaussian integers | finite computation, lifted | `C40_clifford`, `C40_derived_tables`, `C40_chroma_matrices`, `C40_basis_matrices` (GammaProps.v) | all tables of Gamma.h and the colour-replicating constructors |
| C41 The unrolled Wilson-Dirac operator is the Wilson-Dirac operator | proved | spinor components over any commutative ring with i and conjugation | ring identities, re-indexing of sums; mask mismatch refuted | `C41_wilson`, `C41_basic`, `C41_agree` (DiracProps.v) | both unrolled implementations equal the formula with the tabulated gamma matrices, with and without gamma5, for any initial content of the output |
| C42 The Wilson-Dirac operator is gamma5-Hermitian | proved | spinor components over any commutative ring with i and conjugation | ring identities, re-indexing of sums; mask mismatch refuted | `C42_hermitian`, `C42_gamma5dot`, `C42_square` (DiracProps.v) | any links, real kappa; scalar products as computed in AlgebraUtils.h |
| C43 The Wilson-Dirac operator is gauge covariant | proved | spinor components over any commutative ring with i and conjugation | ring identities, re-indexing of sums; mask mismatch refuted | `C43_covariant` (DiracProps.v) | both implementations, both flags, unitary transformations |
| C44 multiplyAdd equals multiply plus a multiple | partial | spinor components over any commutative ring with i and conjugation | ring identities, re-indexing of sums; mask mismatch refuted | `C44_wilson`, `C44_square`, `C44_twisted`, `C44_block_exactly_closed`, `C44_block_refuted`, `C44_square_twisted_refuted` (DiracProps.v) | the law holds for Wilson, basic, squared and twisted; it is false for the block operator (multiplyAdd does not mask neighbours; exact condition proved) and for the squared twisted operator (twist multiplies the second vector) |
| C45 Chebyshev recursion returns the advertised polynomial | partial | recursions on an abstract module with operator | induction on the order / list | `C45_chebyshev_value`, `C45_operator`, `C45_scalar`, `C45_agree`, `C45_equal_ends`, `C45_degree_refuted` (SolverProps.v) | the operator and scalar versions evaluate the Chebyshev polynomial of degree n+1 of the rescaled argument and agree on eigenvectors; the clause about the degree is false in the code: order n gives degree n+1 |
| C46 Polynomial and rational functions of operators | proved | recursions on an abstract module with operator | induction on the order / list | `C46_polynomial`, `C46_scalar`, `C46_agree`, `C46_preconditioned`, `C46_no_roots`, `C46_rational`, `C46_rational_scalar`, `C46_rational_mismatch` (SolverProps.v) | polynomials for non-empty roots (an empty list is undefined); rational functions given the solutions of the shifted systems (error of the real solver: C49_errors) |
| C47 Conjugate gradient success means a small true residual | partial | solver loops over an abstract inner-product space with partial division | loop invariant residual = b - A x | `C47_residual`, `C47_exact_guess_refuted` (SolverProps.v) | success means a small residual; the clause about an exact initial vector is false in the code: 0/0 at the first step |
| C48 Preconditioned biconjugate gradient success means a small true residual | partial | solver loops over an abstract inner-product space with partial division | loop invariant residual = b - A x | `C48_residual_partial`, `C48_preconditioner_refuted` (SolverProps.v) | proved for the identity preconditioner; false for others: the residual is advanced with A s instead of A P s |
| C49 Multishift solver success means all shifted systems are solved | partial | solver loops over an abstract inner-product space with partial division | loop invariant residual = b - A x | `C49_residuals`, `C49_errors`, `C49_zero_steps_refuted`, `C49_undefined` (SolverProps.v) | proved for a positive number of steps; with maxSteps = 0 the code reports success without solving |
| C50 Scalar action: local change equals global change | proved | scalar action sums | re-indexing | `C50_adjoint`, `C50_fundamental`, `C50_metropolis`, `C50_exit`, `C50_extent_one_refuted` (ScalarProps.v) | The local energy change equals the change of the total action whenever no extent is one, and the whole two-block update equals the textbook Metropolis algorithm for the total action; with an extent of one site the two changes differ (refuted). |
| C51 Black-white updates touch independent sites | partial | parity of coordinates | arithmetic; odd extents refuted | `C51_parity`, `C51_metropolis`, `C51_any_update`, `C51_odd_refuted`, `C51_order_refuted` (ScalarProps.v) | Proved for even extents, for the scalar update and for any update that reads only the site and its neighbours; with any odd extent greater than one two sites of equal parity are neighbours, and on a 3x2x2x2 lattice the result depends on the order. |
| C52 Gauge fixing returns a gauge copy that is at least as good | partial | gauge-fixing loop with oracles | invariant: gauge copy of the input, functional maximal so far | `C52_two_colours`, `C52_unitary_copy`, `C52_special_unitary_refuted`, `C52_defined`, `C52_best_copy`, `C52_best_copy_refuted` (FixProps.v) | proved in full for two colours; for more colours the copy is by unitary matrices and the functional does not decrease, but the relaxation leaves SU(N) (refuted for three colours on a lattice with even extents); the copy kept is the best one only when some functional is positive; parameters for which the call divides by zero are characterised |
| C53 Multigrid blocks partition the local lattice | proved | block numbering, projector loops | arithmetic, bilinearity | `C53_blocks`, `C53_positions`, `C53_zero_block_refuted` (BlockProps.v) | all layouts, ranks and positive block sizes; a zero block size is undefined behaviour |
| C54 Multigrid restriction and prolongation are adjoint | proved | block numbering, projector loops | arithmetic, bilinearity | `C54_adjoint`, `C54_projector` (MgProps.v) | adjointness for any basis and thread partition; restriction after prolongation is the identity and the loss is orthogonal for an orthonormal basis |
| C55 Adjoint representation is a representation | proved | adjoint formula | completeness relation / explicit algebra | `C55_generators`, `C55_tables`, `C55_action`, `C55_homomorphism`, `C55_orthogonal`, `C55_character`, `C55_paths`, `C55_covariance` (AdjProps.v) | every number of colours, including both hand-written tables |
| C56 Wilson flow integrator stays in the group and is consistent | proved | three-stage step with exponential oracle | invariance lemmas | `C56_flow`, `C56_total_time`, `C56_no_intervals_refuted` (SmearProps.v) | Wilson and improved flow, any number of colours, exact exponential through an eigenvalue solver; existence of solver and exponential shown. With zero intervals nothing flows. |
| C57 Random generators get distinct seeds | partial | seed table indexing | refuted by pigeonhole | `C57_ranks`, `C57_ranks_refuted`, `C57_threads`, `C57_threads_refuted` (SeedProps.v) | distinct for ranks below 534 calling in step; ranks 294 and 534 always collide; on one process the exact collision condition, draws of mt19937 being inputs |
| C58 The gauge force is the gradient of the action | proved | staple force and action as in C27 | derivative of a polynomial in the displacement, coefficient by coefficient | `C58_force_is_gradient` (GaugeProps.v) | Exact statement for a linear displacement of the link. |
| C59 Polyakov loop correlator | partial | line products, shifts, correlator loop | induction on the shifts; re-indexing; covariance | `C59_correlator`, `C59_gauge_invariant`, `C59_label_refuted` (LoopProps.v) | The l-th number is the correlation at distance l+1 normalised by the number of colours times the spatial volume; the printed label l is refuted by a two-site configuration. Stale halo of the first shift on several processes is not modelled here. |
| C60 Energy and topological charge of the flow | proved | clover leaves, energy and charge of the flow | re-indexing of traces; gauge invariance by conjugation | `C60_observables` (SmearProps.v) | Any configuration of matrices. |
| C61 The twisted Dirac operator adds i twist gamma5 | partial | twisted operator loops | component-wise ring identities | `C61_twisted`, `C61_gamma5_refuted` (DiracProps.v) | the first half holds; with gamma5 set the twist term misses its gamma5, for every twist above the threshold |
| C62 The block Dirac operator decouples the block | proved | block operator with its masks | case analysis on the mask, bilinearity | `C62_block`, `C62_decoupled` (DiracProps.v) | block operator as P D P + (1-P) + i twist gamma5 |
| C63 Conjugate gradient reaches any precision within the dimension | proved | conjugate gradient loop on exact numbers | Krylov orthogonality invariant, dimension argument | `C63_converges`, `C63_fails_iff_exact` (SolverProps.v) | exact arithmetic |
| C64 Link updates with more than two colours stay in the group | proved | subgroup updates and Metropolis proposals for N colours | embedding of SU(2), determinant and unitarity of products | `C64_heat_bath`, `C64_subgroup`, `C64_subgroups`, `C64_overrelaxation`, `C64_proposal_reversible` (UpdProps.v) | The QR decomposition is an oracle returning a unitary Q; the accept decision is any function. |
| C65 The heat bath sampler returns points of the unit sphere | proved | radius and direction sampler | real analysis on sqrt, log, cos | `C65_sphere`, `C65_defined`, `C65_onto`, `C65_zero_draw_refuted`, `C65_negative_beta` (Su2Props.v); `C65_link` (HeatProps.v) | Exact real arithmetic; log 0 is minus infinity. A second uniform number that is exactly zero together with an exactly vanishing cosine is accepted as NaN. |
| C66 The scalar action is bounded below | partial | total scalar action as in C50 | Cauchy-Schwarz site by site; constant fields as witness | `C66_heavy`, `C66_light_refuted` (ScalarProps.v) | Proved for squared masses of at least 24; refuted for squared masses below 8 without quartic couplings, where constant fields give arbitrarily negative values. |
| C67 The adjoint generators obey the same commutation relations as the fundamental ones | proved | generators and structure constants | completeness of the generators | `C67_commutators`, `C67_algebra` (AdjProps.v) | every number of colours, including both hand-written tables |
| C68 Changing the dimension of a block basis changes the dimension of the coarse vectors | proved | BlockBasis and layout dimensions | computation on the state machine; witness | `C68_constructor`, `C68_set_dimension_refuted` (BlockProps.v) | the constructor is right; setBasisDimension stores the old dimension (refutation, with the out-of-bounds read) |
| C69 Orthogonalising a block basis gives an orthonormal basis of the same spaces | proved | Gram-Schmidt loops per block | induction over vectors with span and orthonormality invariants | `C69_orthogonalize`, `C69_orthogonalize_one` (MgProps.v) | exact arithmetic; halo updates not modelled |
| C70 The coarse operator is the Galerkin projection of the Dirac operator | partial | coarse operator apply and asMatrix over processes | bilinearity; witness on two processes | `C70_galerkin`, `C70_multiply_add`, `C70_matrix`, `C70_matrix_refuted` (MgProps.v) | asMatrix is the matrix of the operator on one process only: with two processes it is refuted |
| C71 Relaxation steps never lower the Landau functional | proved | relaxation step of Landau fixing | trace inequality for the polar factor, parity independence | `C71_relaxation` (FixProps.v) | any number of colours, any periodic box with even extents; eigensolver assumed to diagonalise Hermitian matrices |
| C72 Every site read by the staples, the energy and the hopping term is in the arrays of the rank | proved | walks through `sup`/`sdn` as the staples, the energy and the hopping term nest them, every access outside the arrays being undefined behaviour | each prefix of each walk is a displacement of the stencil (C06) or the backward diagonal (C07); the thin boxes are refuted | `C72_wilson_staple_reads`, `C72_improved_staple_reads`, `C72_improved_staple_thin_boxes_refuted`, `C72_improved_energy_reads`, `C72_hopping_reads` (ReadProps.v) | The condition on the backward diagonal is exact: C72_improved_staple_thin_boxes_refuted shows the out-of-bounds read on all other grids. |
| C73 The closed formula for three colours is the matrix exponential | partial | the formula for three colours over R with acos, cos, sin, sqrt; NaN (0/0, acos outside its domain) as `None` | the angles solve the characteristic equation, the polynomial takes the exponential at the three roots; alternating bounds of sin for the series | `C73_exponential`, `C73_error`, `C73_series_refuted`, `C73_zero_refuted`, `C73_change_of_basis` (Exp3Props.v) | Exact when two eigenvalues coincide or all are a tenth apart; otherwise the truncated series is never exactly unitary (refuted), with eigenvalues off by at most 10^-17. The zero matrix gives 0/0 (refuted). |
| C74 Random momenta have the weight of the kinetic energy | proved | randomMomenta and momentaEnergy for any number of colours (GaugeModel.v: off_diagonal, clear_diagonal, add_diagonal, random_momentum, momenta_energy) | the loops are reduced to formulas for the entries; the diagonal generators are shown to be orthogonal with norm two and complete together with the identity (a telescoping sum), which gives the energy, the existence and the uniqueness of the draws | `C74_energy_of_draws`, `C74_energy_positive`, `C74_coordinates` (MomProps.v) | Exact arithmetic; the numbers drawn are arbitrary reals, their distribution is not modelled. |
| C75 The fermion force is the gradient of the pseudofermion action | partial | tensor, derivative and force of FermionForce and DiracWilsonFermionForce, and the force and energy of NFlavorFermionAction and TwoFlavorFermionAction for fundamental and adjoint links with boundary signs (FForceModel.v); the solutions of the equations are inputs; one or more levels of stout smearing are not modelled | the derivative is reduced to inner products with the hopping term by a trace identity; perturbation of a regular linear equation (PertProofs.v, VecProofs.v) gives existence and a second order bound over any numClosedFieldType; the generators are shown complete, so the force is the gradient for fundamental and adjoint links; the two flavour action is refuted on one site with antiperiodic signs | `C75_gradient`, `C75_gradient_adjoint`, `C75_energy`, `C75_regular`, `C75_two_flavor_partial`, `C75_two_flavor_adjoint_partial`, `C75_two_flavor_refuted` (FForceProps.v) | The rational action has the gradient in full. The two flavour action has it only when no link has a changed sign; with antiperiodic boundary conditions the code violates it. |
| C76 The Schwarz alternating procedure solves the equation inside the blocks | partial | ComplementBlockDiracOperator::multiply and SAPPreconditioner::multiply (SapModel.v) over the full and block operators and the index lattice of DiracModel.v; the block solves by GMRESR are functions assumed exact, the twist is zero and the adaptive precision is not modelled | an exact solver of a linear operator is shown linear through its matrix; the step is then solved block by block and iterated; the chequerboard by division with remainder; three blocks in a direction refute the colouring | `C76_step`, `C76_step_black`, `C76_sap`, `C76_residual`, `C76_fixed`, `C76_chequerboard`, `C76_chequerboard_refuted` (SapProps.v) | exact block solvers and zero twist; the colouring separates adjacent blocks only with one or an even number of blocks per direction, refuted for three |
| C77 The minimal residual solver returns what it promises | partial | GMRESR::solve on the column of all components, with the arrays c and u, their length, the dimension, the first guess and any preconditioner (GmresModel.v); a division by zero is a distinct result, an access outside the arrays another | an invariant of the loop (c = A u orthonormal, residual orthogonal to c) gives success and monotony; the span of u equals the Krylov space because an invertible change of basis is read off from the orthonormality; the rate follows from the projection; runs of fourteen steps and exact guesses refute the rest | `C77_success`, `C77_optimal`, `C77_progress`, `C77_rate`, `C77_defined`, `C77_dimension_refuted`, `C77_dimension_zero_refuted`, `C77_exact_guess_refuted`, `C77_block_source_refuted` (GmresProps.v) | exact arithmetic; refuted for dimensions above the allocated thirteen vectors and for exact first guesses |
| C78 The scalar force is the gradient of a gauge invariant scalar action | partial | energy, updateForce and force of ScalarAction with adjoint links converted from the gauge links, and the three functions of MultiScalarAction (SForceModel.v) | the sum over the generators is the fermion force of an outer product of two columns, so the expansion of the adjoint link proved for C75 gives the energy as an exact quadratic in the step; the adjoint fields as matrices give an independent formula for the action, in which lambda_8 does not appear because the adjoint generators are antisymmetric | `C78_gradient`, `C78_forces_agree`, `C78_algebra`, `C78_matrix_action`, `C78_lambda_8_refuted`, `C78_invariant`, `C78_multi`, `C78_multi_empty_refuted` (SForceProps.v) | refuted: lambda_8 has no effect, and a sum of no actions leaves the old force |
| C79 The improved operator is the clover operator | partial | multiply, multiplyAdd and updateFieldStrength of the improved operator, the settings, the square and the block version (CloverModel.v) | the array clover is compared component by component with sums over the commutators of the gamma matrices and the transporters around the four plaquettes; Hermiticity follows from the anti-Hermitian field strength, covariance from that of the transporters | `C79_multiply`, `C79_multiply_add`, `C79_square`, `C79_hermitian`, `C79_covariant`, `C79_wilson`, `C79_block`, `C79_block_add_refuted` (CloverProps.v) | Everything is proved except multiplyAdd of the block version, which is refuted for blocks with an outside: the code does not mask the neighbours there. |
| C80 The even-odd operator is the Schur complement of the clover operator and the preconditioned solver solves the clover equation | partial | EvenOddModel.v: the entries added to the clover matrix with the stride 3, the inverse kept from the last setLattice, the even-odd hopping out of place and in place (any order of the sites), multiply, the squared operator, the solver with the inner biconjugate gradient and the matrix inverse as parameters, and the life of the precision of the inner solver. Reading outside the matrix or through the null pointer is the outcome None. Halos and the branch without preconditioning are not modelled. | The matrix built entry by entry acts as the diagonal part of the clover operator for three colours; regularity makes it invertible; the in-place hopping only reads the other parity, which it does not write; linear algebra of the Schur complement gives the operator, its Hermiticity and the residual of the solver. The other colours, the flag, the stale inverse and the precision are refuted. | `C80_schur`, `C80_hermitian`, `C80_residual`, `C80_solve`, `C80_gamma5_refuted`, `C80_stride_refuted`, `C80_stale_refuted`, `C80_precision_refuted` (EvenOddProps.v) | Proved for three colours and fresh inverses; refuted for other numbers of colours, for the flag gamma5 in the solver, for kappa changed after setLattice and for the precision of the inner solver. |
| C81 The force of the improved operator is the gradient of its pseudofermion action | partial | ImprovedFermionForce (constructors, setLattice with its fifteen matrices, derivative with its eight loops), the loops of NFlavorFermionAction over pseudofermions and terms, over exact complex numbers; a null pointer is the value None (CForceModel.v). The solutions of the equations are inputs. | First order expansions of matrix functions (CForceProofs.v), first order perturbation theory for the action of any family of Hermitian operators (CForceProofs2.v), the derivative of the clover operator and the sum over planes (CForceProofs3.v), the eight terms summed over the lattice by shifting sites (CForceProofs4.v) and the representation (CForceProofs5.v). | `C81_gradient`, `C81_gradient_adjoint`, `C81_algebra`, `C81_regular`, `C81_solvable`, `C81_wilson`, `C81_copy_refuted` (CForceProps.v) | All of it except the last sentence, which is false: derivative on a copy is undefined. |
| C82 Stochastic estimators are unbiased and their errors are the stated ones | partial | The noise generators as functions of the bits drawn, point sources, smearing, mean and standard deviation with the division by zero as a distinct outcome, the four numbers of ChiralCondensate and the two families of SingletOperators (StochModel.v). The inverter is any function that solves the equations; the random numbers are equally likely bits. | Products of signs average to zero by a sign-changing involution, which gives mean and spread of the quadratic form; repetitions by the product measure; linearity of an exact solver from finite dimension; reality of the traces from gamma5-hermiticity; existence of an inverse for small kappa for all links. | `C82_trace`, `C82_slab`, `C82_diluted`, `C82_mean`, `C82_deviation`, `C82_deviation_refuted`, `C82_condensate`, `C82_written`, `C82_real`, `C82_solvable`, `C82_singlet`, `C82_hopping`, `C82_source`, `C82_smear`, `C82_smear_slice` (StochProps.v) | Everything is proved for all inputs; the claim fails only for the standard deviation of a single estimator (zero over zero). Momentum sources, the overlap branches and the smearing of links in ChiralCondensate are not modelled. |
| C83 MesonCorrelator writes the two-point functions of meson fields | partial | MesonModel.v: the loops of MesonCorrelator::execute over a solver given as an argument (any exact inverse): the point sources, the tables of gamma products, the sums per time slice, the factors, the PCAC quotient with division by zero as a separate outcome, the wrapping of the links for t_source_origin, the four noise vectors of the disconnected part and the list of numbers written. Not modelled: floating point, MPI reductions, the smearing of the configuration before the measurement. | C83_pion, C83_vector and C83_ps identify the lists written with the trace of two propagators and two gamma matrices (MesonSpec.v) for every gamma5-Hermitian operator; C83_pcac gives the quotient written; C83_origin and C83_gauge follow from the covariance of the propagator under a symmetry of the lattice or a change of basis; C83_disconnected is the average over all noise vectors. C83_scalar_refuted, C83_pcac_refuted, C83_cancel, C83_disconnected_refuted and C83_slice_refuted show what is not as claimed. | `C83_pion`, `C83_vector`, `C83_scalar_refuted`, `C83_ps`, `C83_pcac`, `C83_pcac_refuted`, `C83_cancel`, `C83_origin`, `C83_gauge`, `C83_disconnected`, `C83_disconnected_refuted`, `C83_slice_refuted` (MesonProps.v) | The correlators, the origin and the gauge invariance are proved. The code violates the rest: the axial correlator is a sum that cancels, so that the PCAC mass averages to zero, the scalar correlator is that of the vector current, the disconnected parts are four times the trace and the first time slice is not written. |
| C84 XSpaceCorrelators writes the meson correlators between two sites | partial | XSpaceModel.v: translate with its loops over signed bounds and the buffer it may leave untouched, the nineteen displacements, the inversion through the square, the stochastic connected and disconnected sums with explicit random bits, getGlobalCoordinate with its single subtraction, the exact connected sum. Not modelled: halo exchanges, text output. | C84_translate for every displacement that is not negative; C84_inverse; C84_sites; C84_exact, C84_connected and C84_disconnected give what is written for every operator, with the trace of propagators as the specification; refutations with free quarks on two sites. | `C84_translate`, `C84_translate_refuted`, `C84_inverse`, `C84_sites`, `C84_sites_refuted`, `C84_exact`, `C84_exact_refuted`, `C84_connected`, `C84_connected_refuted`, `C84_disconnected`, `C84_disconnected_diagonal`, `C84_disconnected_refuted` (XSpaceProps.v) | proved for every operator what the code writes: translations, inversion, sites, and the three sums in terms of the propagator; the claim fails in the code: transposed propagator, shared noise, column sums, negative displacements, extents of one |
| C85 The Landau gauge condition and the gluon propagator | partial | LandauModel.v with FixModel.v (deviation): the vector potential of a link, the list of momenta and its cut, the Fourier transforms at the middle of the links, the propagator, its normalisation, the three gluon vertex, the numbers written. Not modelled: the text output and the stochastic parts of the fixing (C67). | C85_gradient and C85_stationary by the expansion of the functional to first order for every rotation, with the exact remainder; C85_maximum with rotations of one site and every pair of colours; C85_transverse, C85_propagator, C85_normalisation, C85_vertex by completeness of the generators; C85_labels_refuted. | `C85_gradient`, `C85_stationary`, `C85_maximum`, `C85_transverse`, `C85_propagator`, `C85_normalisation`, `C85_vertex`, `C85_labels_refuted`, `C85_momenta`, `C85_written` (LandauProps.v) | Everything but the labels is proved; the last label of the propagator is wrong in the code (C85_labels_refuted). |
| C86 The ghost propagator inverts the second derivative of the Landau functional | partial | LandauModel.v: the matrices A, B, C of the ghost operator, its application, the plane wave source, the BiCGStab iteration with its restart on breakdown and the access beyond the last colour as undefined behaviour, the projection, the numbers written. Not modelled: ghostPropagatorCG, which nothing calls; halo exchanges. | C86_hessian by the expansion to second order; C86_symmetric, C86_constants, C86_free; C86_outcome by an invariant of the iteration (the residual is the error of the field); C86_free_refuted for every lattice and momentum. | `C86_hessian`, `C86_symmetric`, `C86_constants`, `C86_free`, `C86_outcome`, `C86_written`, `C86_free_refuted` (LandauProps.v) | The operator is characterised in full. That true means a solution is false in the code when the error becomes a zero mode: C86_outcome gives what is returned and C86_free_refuted the case of unit links. |
| C87 The overlap operator | partial | OverlapModel.v: multiply and multiplyAdd of OverlapOperator and SquareOverlapOperator on top of the Wilson operator of DiracModel.v and the polynomial evaluation of SolverModel.v, the front of an empty list of roots as undefined behaviour. The force is C90. Not modelled: rounding. | C87_operator, C87_square, C87_mass; C87_multiply_add_partial and C87_square_add_partial with gamma5 and C87_multiply_add_refuted without; C87_hermitian; C87_ginsparg_wilson by the spectral theorem; C87_gauge. | `C87_operator`, `C87_square`, `C87_square_add_partial`, `C87_multiply_add_partial`, `C87_multiply_add_refuted`, `C87_hermitian`, `C87_ginsparg_wilson`, `C87_mass`, `C87_gauge` (OverlapProps.v) | All proved but the law of multiplyAdd without gamma5, which the code violates: C87_multiply_add_refuted says exactly for which vectors it holds. |
| C88 The overlap operator with exactly treated eigenvectors | partial | OverlapModel.v: the projection on the eigenvectors, multiply, multiplyAdd, checkEigenvalues, computeEigenvalues with what the eigenvalue solver found as an input and the null solver pointer as undefined behaviour. Not modelled: DiracEigenSolver, the messages about convergence. | C88_operator, C88_sign, C88_ginsparg_wilson, C88_hermitian, C88_gauge, C88_eigenvalues for every list; C88_degenerate_refuted and C88_null_refuted. | `C88_operator`, `C88_sign`, `C88_ginsparg_wilson`, `C88_hermitian`, `C88_gauge`, `C88_eigenvalues`, `C88_null_refuted`, `C88_degenerate_refuted` (OverlapProps.v) | Proved for lists of orthonormal eigenvectors of H. That computeEigenvalues stores such vectors is false in the code for degenerate eigenvalues of the square (C88_degenerate_refuted) and it crashes without a solver (C88_null_refuted). |
| C89 Propagators, condensate and chiral rotations with the overlap operator | partial | OverlapModel.v: constructPropagator for the two overlap operators, the vectors of ChiralCondensate with the solver as any function, the two rotations of OverlapChiralRotation. Not modelled: the noise (C81), the flow and the file output of OverlapChiralRotation. | C89_propagator, C89_chirality, C89_connected, C89_rotation_mass, C89_rotation_both, C89_rotation_invariant as operator identities; C89_connected_refuted. | `C89_propagator`, `C89_chirality`, `C89_connected`, `C89_connected_refuted`, `C89_rotation_mass`, `C89_rotation_both`, `C89_rotation_invariant` (OverlapProps.v) | All proved but the normalisation of the connected part, which is off by 1-m in the code (C89_connected, C89_connected_refuted). |
| C90 The force of the overlap operator | partial | OverlapModel.v: root_vectors and overlap_derivative, on top of wilson_derivative of FForceModel.v and of the operators of C87. Not modelled: the projection on the generators (C75), the sizes of the vectors kept from the construction of the force, rounding. | C90_derivative_partial and C90_energy_partial: expansion to first order of the product of the factors of the polynomial (OverlapProofs8.v), Hermiticity of the first order term from the uniqueness of expansions, perturbation of the inverse (OverlapProofs10.v). C90_derivative_refuted for a negative scaling and an even number of roots. C90_regular. | `C90_derivative_partial`, `C90_derivative_refuted`, `C90_energy_partial`, `C90_regular` (OverlapForceProps.v) | Proved for a scaling that is not negative or an odd number of roots; refuted for a negative scaling with an even number of roots. |
| C91 The multigrid solvers | partial | MgSolveModel.v: mgb_loop, mgb_solve (the coarse solver), mg_direction, mg_step, mg_loop, mg_solve and mg_run (MultiGridSolver::solve and the calls on one object; the part shared line by line with GMRESR uses gm_step of GmresModel.v), mgs_large, mgs_small, mgs_rest, mgs_solve (the multishift solver). Not modelled: initializeBasis, updateBasis, MultiGridConjugateGradient.cpp (unused), the distribution over processes (C53, C54, C70), rounding. | C91_solve by the invariant of C77; C91_direction; C91_coarse_partial and C91_shift_partial (from the factors of the shifted square); C91_shifts_partial (all the shifts, induction over the list); C91_large (the loop is that of conjugate gradients, C63). C91_coarse_refuted, C91_lifetime_refuted (induction over the calls), C91_again_refuted, C91_spent_refuted and C91_multishift_refuted. | `C91_coarse_partial`, `C91_coarse_refuted`, `C91_direction`, `C91_solve`, `C91_lifetime_refuted`, `C91_again_refuted`, `C91_spent_refuted`, `C91_shift_partial`, `C91_shifts_partial`, `C91_large`, `C91_multishift_refuted` (MgSolveProps.v) | Residuals of the outer solver are proved for every preconditioner, and the large shifts of the multishift solver are solved. The return value, repeated calls, the coarse solver and the small shifts are refuted; partial theorems say what remains. |
| C92 The minimal residual and chronological multishift solvers | proved | MinResModel.v: mm_other, mm_loop, mm_solve, chrono_coefficients, chrono_guess, chrono_rest, chrono_solve. The loop for one shift is shift_loop of SolverModel.v (the same lines). Not modelled: the ALIGNED_OPT variant (the same steps), halos (C53), rounding. | C92_solved: the residual of every shift is f times that of the last one with 0 <= f <= 1 (invariant of the loop); C92_converges: the residual contracts; C92_last; C92_guess by orthogonality of the residual; C92_guess_exists; C92_chronological. C92_unordered_refuted, C92_negative_refuted and C92_memory_refuted. | `C92_solved`, `C92_converges`, `C92_last`, `C92_unordered_refuted`, `C92_negative_refuted`, `C92_guess`, `C92_guess_exists`, `C92_chronological`, `C92_memory_refuted` (MinResProps.v) | Proved for shifts with the smallest non-negative one last; other orders, only negative shifts and zero memory are refuted. |

## Where the code does not do what the property says

Each entry has a theorem with a witness.

* C02: `LocalLayout` wraps one period only (`C02_local_layout_further_refuted`).
* C07: with an extended stencil on boxes of one site, two steps back may leave the readable set (`C07_thin_boxes_refuted`).
* C10: MPILayout.h 219 indexes the chunk table with the sharer index; start-up reads out of bounds on a 2x2 grid (`C10_tags_in_bounds_refuted`).
* C15: the default of warm_up_sweeps names an unknown sweep (`C15_default_warm_up_refuted`).
* C16: txt documents never close their outer brace; `pop` of a group that is not open is not noticed (`C16_pop_refuted`).
* C17: success at the hundredth attempt stops the program all the same (`C17_stop_after_success_refuted`).
* C18: a failed read leaves a partly overwritten configuration (`C18_failed_read_unchanged_refuted`).
* C19: a negative kappa is written without the further values the reader then expects, so the extents are compared uninitialised; only the first rank notices a file of another size (`C19_negative_kappa_refuted`, `C19_ranks_agree_refuted`).
* C24: fermion_full_antiperiodic means different things in operator and force (`C24_names_consistent_refuted`); a missing option is antiperiodic in one place and is an unset parameter (exception) in the other (`C24_missing_option_refuted`).
* C25: negative displacements are ignored or leave a field unwritten (`C25_negative_ignored_refuted`, `C25_negative_unwritten_refuted`).
* C26: extents below 3 and uninitialised halo in the colouring (three `_refuted` theorems).
* C30: spatial Polyakov loops are divided by the wrong volume; a loop table with zero extent is undefined.
* C34: re-unitarisation beyond two colours divides by the squared norm.
* C35, C36: series below the threshold are not unitary; ExpMap::exp of zero divides by zero; smearing of adjoint links is not covariant.
* C38: integer step in the one-force integrators, zero steps of fourth_omelyan.
* C44, C61: multiplyAdd of the block and squared twisted operators, gamma5 of the twist term.
* C45: order n gives degree n+1. C47: an exact initial vector gives 0/0. C48: the preconditioned residual is advanced without the preconditioner. C49: zero steps report success.
* C50, C51: extents of one site, odd extents. C66: the scalar action is unbounded below for small masses.
* C52: relaxation leaves SU(3); the best copy is lost when no functional is positive. C53: zero block size. C57: seeds collide. C59: the printed distance is one too small.
* C72: on grids with one site per rank in two long directions the improved staple reads out of bounds. C73: the three-colour exponential of zero is 0/0, so stout smearing of the cold configuration gives NaN.
* C75: TwoFlavorFermionAction::force applies the derivative with respect to the signed fermion links to the unsigned gauge links without changing the sign back (NFlavorFermionAction.cpp 103-133 does), so with antiperiodic boundary conditions, the default, the force on the boundary links has the wrong sign.
* C76: with an odd number of blocks (three or more) in a direction the blocks on the two sides of the periodic boundary get the same colour, so the chequerboard of BlockDiracOperator.cpp 78-91 does not separate them; multiplyAdd of ComplementBlockDiracOperator and SAPPreconditioner is empty.
* C77: setConjugateSpaceDimension stores the dimension without allocating, so above thirteen the solver writes outside its arrays and at zero it divides by zero. GMRESR has no test before the first step: a first guess with zero residual gives 0/0 and a vector of NaNs. The block solves of the Schwarz preconditioner hit this: without an initial guess the source is the guess, and a source which vanishes on the block (a point source in a block of the other colour) is solved exactly by it.
* C78: the coupling lambda_8 has no effect. Its term squares phi^T T phi with phi real and T an antisymmetric generator of the adjoint representation, which is zero for every field. MultiScalarAction::updateForce with no actions leaves the old values in the force, while force returns zero.
* C79: multiplyAdd of the block improved operator takes neighbours outside the block into account (BlockImprovedDiracWilsonOperator.cpp 187-323), as in C44; the law holds exactly for closed blocks.
* C80: PreconditionedBiCGStab.cpp 42-90 ignores the flag gamma5 of the operator it is given; EvenOddImprovedDiracWilsonOperator.cpp 75 and 295-314 index the clover matrix with 3*alpha+c, so with one or two colours (or a two-dimensional representation) it is accessed outside its bounds and with four or more the result is wrong even without a clover term; setKappa and setCSW after setLattice leave the old inverse in use; the inner solver of PreconditionedBiCGStab (lines 36-40) keeps the precision and number of steps of the first solve for ever.
* C81: the copy constructor of ImprovedFermionForce does not copy the arrays that setLattice allocates, and derivative on the copy reads through null pointers (`C81_copy_refuted`). The force itself is correct.
* C82: standardDeviation divides by size - 1: with one stochastic estimator it is zero over zero, and without estimators
  the means written to the output are zero over zero.
* C83: the numbers PSOperator are minus the *sum* of the correlator <P A0> and of the correlator <A0 P>. The second is minus
  the first with the two ends exchanged, so the sum cancels: it is zero for free quarks (C83_pcac_refuted) and zero when added
  over the translations of any configuration and of its time reflection (C83_cancel). The PCAC mass written is therefore zero
  on average. The numbers scalar_exact are the correlator of the time component of the vector current, gamma3 at both
  ends, and not of the scalar density (C83_scalar_refuted). Four noise vectors without dilution are added and not averaged, so
  that eta_disconnected and scalar_disconnected are four times the trace (C83_disconnected), and the loops that write them
  start at t = 1 (C83_slice_refuted).
* C84: `XSpaceCorrelators` measures other functions than the meson correlators. The exact connected part (lines 354-385) takes the second propagator with its spin and colour indices exchanged, so that it changes sign under a gauge transformation of SU(2) (C84_exact_refuted). The stochastic connected part uses the same noise vector in both propagators and averages to the connected part plus the product of the two loops (C84_connected_refuted). The disconnected part applies the gamma matrix to the vector of diagonal products instead of inside the trace, so that the sums of its columns enter: gamma3, whose loops vanish, gives at least 88 (C84_disconnected_refuted); and the two factors share their noise, a bias of one N-th of the connected part. `translate` leaves its output untouched for displacements without a positive component (C84_translate_refuted), and on lattices with an extent of one getGlobalCoordinate leaves the lattice (C84_sites_refuted).
* C85: `LandauGluonPropagator` writes n[2] twice as label of the propagator, in the place of n[3] (lines 209-210): momenta that differ in the time direction only have the same labels (C85_labels_refuted).
* C86: on a field of unit links the first half step of `ghostPropagatorBiCGStab` solves the equation, so that t is zero, and the branch for that case (lines 318-327) copies the source over the solution, four components of it, and returns true without setting the result: zero is written for the propagator instead of the volume over the squared momentum. With two colours the vectors have three components and the access to the fourth is undefined (C86_free_refuted). The same holds wherever the error becomes a zero mode of the operator (C86_outcome).
* C87: `OverlapOperator::multiplyAdd` without gamma5 adds the first spin component of the second vector to all four spin components (lines 58-61); it is right only for vectors with four equal components (C87_multiply_add_refuted). A solver that shifts the operator through multiplyAdd then inverts another operator.
* C88: the eigenvalue solver works with the square of H and `computeEigenvalues` stores its vectors with a signed square root, without testing that they are eigenvectors of H: where H has eigenvalues of both signs with the same modulus the operator is neither gamma5-Hermitian nor Ginsparg-Wilson, even with an exact polynomial (C88_degenerate_refuted). The constructor from a lattice leaves a null solver that the first multiply dereferences (C88_null_refuted). The copy constructor copies neither the mass nor the polynomial (by reading).
* C89: `ChiralCondensate` takes D_m^-1 t - t for the connected part (lines 105-114); that is 1-m times the propagator of t (C89_connected, C89_connected_refuted), while the condensate itself has no such factor.
* C90: `OverlapFermionForce::derivative` multiplies every factor by the scaling, so the product has (Re scaling)^n, while `Polynomial::evaluate` uses |Re scaling|^n and the sign once: for a negative scaling and an even number of roots the force has the wrong sign (C90_derivative_refuted). `SquareOverlapOperator::getForce` returns the force of the operator that is not squared, `ExactOverlapOperator` inherits the force without the terms of its eigenvectors, and the force keeps the number of roots of the time it was made (by reading).
* C91: `MultiGridSolver::solve` assigns the number of the last step to maxSteps when it converges (line 128), so every solved system lowers the limit of all later calls on the object: at most as many systems as the initial limit can ever be solved (C91_lifetime_refuted), the same call again fails (C91_again_refuted), and after a system solved in one step all calls return their first guess (C91_spent_refuted). The return value is always true, also in `MultiGridMEMultishiftSolver::solve`, which solves two systems for each shift with one object: with a preconditioner that solves the first in one step it returns the same vector for all shifts (C91_multishift_refuted). The coarse solver returns the source with true when half a step finds the exact solution, as if the operator were the identity (C91_coarse_refuted). By reading: in the multishift solver the block operators get the lattice of the TwistedDiracOperator, which setDiracOperator does not set; `square_root_solution` is not advanced, so the guesses from the fourth small shift on are vectors nothing has written; when all shifts are large the three operators are not deleted; the inner solver keeps the default precision 1e-10 whatever the rational approximation asks for.
* C92: MMMRMultishiftSolver tests only the residual of the last shift. If that is not the smallest of the non-negative ones it reports success for shifts that are not solved (C92_unordered_refuted); if all shifts are negative its first loop reads past their end (C92_negative_refuted). ChronologicalMultishiftSolver forms its guesses with the elements of a local vector that nothing has written, not with the solutions passed in as the comment says; if the memory holds zeros the coefficients are 0/0, all solutions after the first are NaN and it returns false (C92_memory_refuted).
* C93: MeanScalarField reduces the sums of the adjoint fields over the processes but not those of the fundamental fields: it writes the average over the sites of the output process divided by the number of processes, so a constant field z is written as Re z / processes (C93_fundamental_refuted).
* C56: zero intervals. C65: NaN accepted for an exact zero draw. C68: setBasisDimension stores the old dimension. C70: asMatrix on two processes.

Observations that are not theorems: the first shift in PolyakovLoopCorrelator.cpp reads a halo that was not updated; MetropolisScalarUpdater restores a rejected
field by subtraction, exact here but not in floating point.

## Trusted base

* The Coq 8.16.1 kernel (`coqchk` is part of the check of every commit), with the standard library and the MathComp 1.x sources, all of
  whose proofs are checked. No axiom, `Admitted`, plugin, functor or module type of our own.
* The reading of the C++ text, as cited at each definition.
* The contracts of libraries and hardware named in the conventions: exact arithmetic, MPI matching, XDR byte format (RFC 4506), eigensolver, QR,
  exponential, random draws as arbitrary inputs.

### What `Print Assumptions` lists

"Closed under the global context" (no axiom at all): the 382 theorems

`C55_generators`, `C55_tables`, `C55_action`, `C55_homomorphism`, `C55_orthogonal`, `C55_character`, `C55_paths`, `C55_covariance`, `C67_commutators`, `C67_algebra`, `C53_blocks`, `C53_positions`, `C53_zero_block_refuted`, `C68_constructor`, `C68_set_dimension_refuted`, `C81_gradient`, `C81_gradient_adjoint`, `C81_algebra`, `C81_regular`, `C81_solvable`, `C81_wilson`, `C81_copy_refuted`, `C79_multiply`, `C79_multiply_add`, `C79_square`, `C79_hermitian`, `C79_covariant`, `C79_wilson`, `C79_block`, `C79_block_add_refuted`, `C26_accepted_independent`, `C26_order_irrelevant`, `C26_constructor_correct`, `C26_small_extent_never_accepted_refuted`, `C26_two_extent_out_of_bounds_refuted`, `C26_uninitialised_halo_refuted`, `C41_wilson`, `C41_basic`, `C41_agree`, `C42_hermitian`, `C42_gamma5dot`, `C42_square`, `C43_covariant`, `C44_wilson`, `C44_square`, `C44_twisted`, `C44_block_exactly_closed`, `C44_block_refuted`, `C44_square_twisted_refuted`, `C61_twisted`, `C61_gamma5_refuted`, `C62_block`, `C62_decoupled`, `C80_schur`, `C80_hermitian`, `C80_residual`, `C80_solve`, `C80_gamma5_refuted`, `C80_stride_refuted`, `C80_stale_refuted`, `C80_precision_refuted`, `C75_gradient`, `C75_gradient_adjoint`, `C75_energy`, `C75_regular`, `C75_two_flavor_partial`, `C75_two_flavor_adjoint_partial`, `C75_two_flavor_refuted`, `C23_sign_flip`, `C23_twice`, `C23_commute`, `C23_open`, `C24_names_consistent`, `C24_names_consistent_refuted`, `C25_translate_partial`, `C25_negative_ignored_refuted`, `C25_negative_unwritten_refuted`, `C52_two_colours`, `C52_unitary_copy`, `C52_special_unitary_refuted`, `C52_defined`, `C52_best_copy`, `C52_best_copy_refuted`, `C71_relaxation`, `C22_sequence`, `C18_native_round_trip`, `C18_failed_read_unchanged_refuted`, `C21_parallel_stream`, `C19_su2_round_trip`, `C19_trailer`, `C19_negative_kappa_refuted`, `C40_clifford`, `C40_derived_tables`, `C40_chroma_matrices`, `C40_basis_matrices`, `C27_energy_is_wilson_action`, `C27_local_is_global`, `C27_tables_have_extent2`, `C28_energy_is_symanzik_action`, `C28_local_is_global`, `C28_tables_have_extent3`, `C29_gauge_invariance`, `C29_covariance`, `C29_plaquettes`, `C31_force`, `C31_momenta`, `C58_force_is_gradient`, `C77_success`, `C77_optimal`, `C77_progress`, `C77_rate`, `C77_defined`, `C77_dimension_refuted`, `C77_dimension_zero_refuted`, `C77_exact_guess_refuted`, `C77_block_source_refuted`, `C08_halo_update`, `C08_halo_update_terminates`, `C09_updates_in_flight`, `C11_conversion`, `C12_global_sum`, `C85_gradient`, `C85_stationary`, `C85_maximum`, `C85_transverse`, `C85_propagator`, `C85_normalisation`, `C85_vertex`, `C85_labels_refuted`, `C86_hessian`, `C86_symmetric`, `C86_constants`, `C86_free`, `C86_outcome`, `C86_free_refuted`, `C86_written`, `C85_momenta`, `C85_written`, `C01_numbering_is_periodic_bijection`, `C02_local_layout_one_period`, `C02_local_layout_further_refuted`, `C03_neighbours`, `C03_rank_tables`, `C04_startup_accepts_exactly_valid_grids`, `C04_ownership_partition`, `C05_local_numbering`, `C06_stencil_readable`, `C07_two_steps_back`, `C07_thin_boxes_refuted`, `C10_tags_in_bounds_iff`, `C10_tags_in_bounds_refuted`, `C10_single_sharer_tags_distinct_partial`, `C30_wilson_loops`, `C30_wilson_loops_empty_refuted`, `C30_polyakov_temporal`, `C30_polyakov_spatial_partial`, `C30_polyakov_spatial_refuted`, `C30_gauge_invariant`, `C59_correlator`, `C59_gauge_invariant`, `C59_label_refuted`, `C37_reversible`, `C37_stays_in_group`, `C38_total_time`, `C38_zero_steps_refuted`, `C38_integer_step_refuted`, `C38_single_step`, `C39_decision`, `C39_decision_value`, `C39_step`, `C93_glueball`, `C93_gauge`, `C93_axes`, `C93_adjoint`, `C93_fundamental`, `C93_fundamental_refuted`, `C83_pion`, `C83_vector`, `C83_scalar_refuted`, `C83_ps`, `C83_pcac`, `C83_pcac_refuted`, `C83_cancel`, `C83_origin`, `C83_gauge`, `C83_disconnected`, `C83_disconnected_refuted`, `C83_slice_refuted`, `C54_adjoint`, `C54_projector`, `C69_orthogonalize`, `C69_orthogonalize_one`, `C70_galerkin`, `C70_multiply_add`, `C70_matrix`, `C70_matrix_refuted`, `C91_coarse_partial`, `C91_coarse_refuted`, `C91_direction`, `C91_solve`, `C91_lifetime_refuted`, `C91_again_refuted`, `C91_spent_refuted`, `C91_shift_partial`, `C91_multishift_refuted`, `C91_shifts_partial`, `C91_large`, `C92_solved`, `C92_converges`, `C92_last`, `C92_unordered_refuted`, `C92_negative_refuted`, `C92_guess`, `C92_guess_exists`, `C92_chronological`, `C92_memory_refuted`, `C74_energy_of_draws`, `C74_energy_positive`, `C74_coordinates`, `C16_xml_document`, `C16_txt_document`, `C16_txt_portions`, `C16_xml_portions`, `C16_stops`, `C16_pop_refuted`, `C90_derivative_partial`, `C90_derivative_refuted`, `C90_energy_partial`, `C90_regular`, `C87_operator`, `C87_square`, `C87_multiply_add_partial`, `C87_square_add_partial`, `C87_multiply_add_refuted`, `C87_hermitian`, `C87_ginsparg_wilson`, `C87_mass`, `C87_gauge`, `C88_operator`, `C88_sign`, `C88_ginsparg_wilson`, `C88_hermitian`, `C88_gauge`, `C88_eigenvalues`, `C88_null_refuted`, `C88_degenerate_refuted`, `C89_propagator`, `C89_chirality`, `C89_connected`, `C89_connected_refuted`, `C89_rotation_mass`, `C89_rotation_both`, `C89_rotation_invariant`, `C72_wilson_staple_reads`, `C72_improved_staple_reads`, `C72_improved_staple_thin_boxes_refuted`, `C72_improved_energy_reads`, `C72_hopping_reads`, `C78_gradient`, `C78_forces_agree`, `C78_algebra`, `C78_matrix_action`, `C78_lambda_8_refuted`, `C78_invariant`, `C78_multi`, `C78_multi_empty_refuted`, `C76_step`, `C76_step_black`, `C76_sap`, `C76_residual`, `C76_fixed`, `C76_chequerboard`, `C76_chequerboard_refuted`, `C50_adjoint`, `C50_fundamental`, `C50_metropolis`, `C50_exit`, `C50_extent_one_refuted`, `C51_parity`, `C51_metropolis`, `C51_any_update`, `C51_odd_refuted`, `C51_order_refuted`, `C66_heavy`, `C66_light_refuted`, `C57_ranks`, `C57_ranks_refuted`, `C57_threads`, `C57_threads_refuted`, `C36_smearing`, `C36_exponential_partial`, `C36_small_exponent_refuted`, `C36_adjoint_refuted`, `C56_flow`, `C56_total_time`, `C56_no_intervals_refuted`, `C60_observables`, `C45_chebyshev_value`, `C45_operator`, `C45_scalar`, `C45_agree`, `C45_equal_ends`, `C45_degree_refuted`, `C46_polynomial`, `C46_scalar`, `C46_agree`, `C46_preconditioned`, `C46_no_roots`, `C46_rational`, `C46_rational_scalar`, `C46_rational_mismatch`, `C47_residual`, `C47_exact_guess_refuted`, `C63_converges`, `C63_fails_iff_exact`, `C48_residual_partial`, `C48_preconditioner_refuted`, `C49_residuals`, `C49_errors`, `C49_zero_steps_refuted`, `C49_undefined`, `C82_trace`, `C82_slab`, `C82_diluted`, `C82_mean`, `C82_deviation`, `C82_deviation_refuted`, `C82_condensate`, `C82_written`, `C82_real`, `C82_solvable`, `C82_singlet`, `C82_hopping`, `C82_source`, `C82_smear`, `C82_smear_slice`, `C13_line`, `C13_file`, `C13_lines_of_file`, `C13_spaces`, `C13_inline_comment_stops`, `C13_indented_comment`, `C14_list_option`, `C15_schedule`, `C15_one_cycle`, `C15_zero_step_undefined`, `C15_default_warm_up_refuted`, `C17_read_next`, `C17_read_many`, `C17_stop_after_success_refuted`, `C32_wilson`, `C32_improved`, `C32_twice`, `C32_sweep_back`, `C32_moves`, `C33_group`, `C33_onto`, `C33_singular`, `C34_two_colours`, `C34_two_colours_defined`, `C34_two_colours_scaled`, `C34_unitary`, `C34_fixed`, `C34_first_row_refuted`, `C34_scaled_refuted`, `C64_heat_bath`, `C64_subgroup`, `C64_subgroups`, `C64_overrelaxation`, `C64_proposal_reversible`, `C84_translate`, `C84_translate_refuted`, `C84_inverse`, `C84_sites`, `C84_sites_refuted`, `C84_exact`, `C84_exact_refuted`, `C84_connected`, `C84_connected_refuted`, `C84_disconnected`, `C84_disconnected_diagonal`, `C84_disconnected_refuted`.

The others depend on axioms of the standard library only (`Reals`: ClassicalDedekindReals, Classical_Prop, FunctionalExtensionality; `ClassicalEpsilon` is used in RealField.v to make the complex numbers over `R` an instance of the MathComp algebraic structures):

* `C73_exponential`, `C73_error`, `C73_series_refuted`, `C73_zero_refuted`, `C73_change_of_basis`, `C36_three_colours_cold_refuted`, `C65_link`, `C37_case`, `C56_case`: `ClassicalDedekindReals.sig_forall_dec`, `ClassicalDedekindReals.sig_not_dec`, `ClassicalEpsilon.constructive_indefinite_description`, `Classical_Prop.classic`, `FunctionalExtensionality.functional_extensionality_dep`.
* `C35_curve_unique`, `C35_matrix_exp`, `C35_small_error`, `C35_exp_map`, `C65_sphere`, `C65_defined`, `C65_onto`, `C65_zero_draw_refuted`, `C65_negative_beta`: `ClassicalDedekindReals.sig_forall_dec`, `ClassicalDedekindReals.sig_not_dec`, `Classical_Prop.classic`, `FunctionalExtensionality.functional_extensionality_dep`.
* `C35_curve_exists`, `C35_matrix_exp_zero`, `C35_small_refuted`, `C35_exp_map_zero_refuted`, `C20_read_is_SU3`, `C20_su3_round_trip`: `ClassicalDedekindReals.sig_forall_dec`, `ClassicalDedekindReals.sig_not_dec`, `FunctionalExtensionality.functional_extensionality_dep`.

### Parts of the code that are modelled

Every definition carries its own citation; the table below collects them by source file (lines as cited in the Model files).

| source file (lines in all) | model file: lines cited |
|---|---|
| Environment.cpp (81) | FieldModel: 58-78; SForceModel: 56 |
| Environment.h (115) | FForceModel: 26-62; FieldModel: 26-62 |
| LatticeBoundaryConditions.h (65) | FieldModel: 8-14, 11 |
| LatticeSweep.cpp (301) | TextModel: whole or header |
| MPILattice/ExtendedStencil.h (136) | LayoutModel: 15-131 |
| MPILattice/Lattice.h (256) | HaloModel: 89-97, 120-126, 132-191, 137-175, 142-157, 159-174; LayoutModel: 201-207; ReadModel: 201-207 |
| MPILattice/LatticeChunk.h (19) | LayoutModel: 6-14 |
| MPILattice/LocalLayout.h (175) | LayoutModel: 149-163, 165-170; XSpaceModel: 149-170 |
| MPILattice/MPILayout.h (847) | GaugeModel: whole or header; LayoutModel: 33-41, 53-296, 54-55, 62-97, 76-79, 101-104, 105, 106-109, 110, 111, 120-136, 139-143, 141, 142, 154-175, 155-162, 164-170, 178-199, 203, 207-213, 215-229, 233-238, 241-254, 242, 245-252, 247-252, 257-268, 277-290, 299-319, 348-363, 359, 378-407, 463-477, 479-485, 487-501, 801-806; LoopModel: whole or header; ReadModel: 299-363 |
| MPILattice/MPIUtils.h (101) | SumModel: 15-95 |
| MPILattice/ReducedDownStencil.h (26) | LayoutModel: 15-21 |
| MPILattice/ReducedStencil.h (30) | LayoutModel: 15-25 |
| MPILattice/ReducedUpStencil.h (26) | LayoutModel: 15-21 |
| MPILattice/Site.h (29) | LayoutModel: 6-25 |
| MPILattice/StandardStencil.h (46) | LayoutModel: 15-41 |
| MatrixTypedef.h (213) | GaugeModel: whole or header |
| Simulation.cpp (89) | TextModel: 28-33, 42-56, 63-68, 75-93 |
| actions/ImprovedGaugeAction.cpp (66) | ColourModel: 15-23; GaugeModel: 9-27, 30-39, 41-58, 60-64; ReadModel: 14-25, 51-57 |
| actions/MultiScalarAction.cpp (60) | SForceModel: 13-21, 23-31, 33-53 |
| actions/NFlavorFermionAction.cpp (237) | CForceModel: 47-74, 76-101, 76-158; FForceModel: 76-158, 85-96, 103-133, 193-207; FieldModel: 103-133 |
| actions/ScalarAction.cpp (333) | SForceModel: 121-166, 208-259, 226, 247-248, 261-294, 271-272, 284-285; ScalarModel: 11-22, 24-35, 39-45, 47-53, 55-79, 81-87, 89-95, 97-121, 123-167 |
| actions/ScalarAction.h (57) | ScalarModel: whole or header |
| actions/TwoFlavorFermionAction.cpp (68) | FForceModel: 16-19, 21-40, 42-50 |
| actions/WilsonGaugeAction.cpp (57) | ColourModel: 15-16; GaugeModel: 9-20, 22-31, 33-49, 51-55; ReadModel: 14-19 |
| algebra_utils/AlgebraUtils.h (370) | DiracModel: 182-196; MgModel: 32-47; XSpaceModel: 268-275 |
| correlators/Glueball.cpp (84) | MeasModel: 39-53, 41-43, 55-73 |
| correlators/MesonCorrelator.cpp (291) | MesonModel: 50-66, 92-99, 104-119, 122-138, 141-160, 169-203, 224-244, 247-268 |
| dirac_functions/ChebyshevRecursion.cpp (121) | SolverModel: 13-48, 88-111 |
| dirac_functions/Polynomial.cpp (296) | SolverModel: 23-107, 147-245, 247-278 |
| dirac_functions/RationalApproximation.cpp (98) | FForceModel: whole or header; SolverModel: 18-42, 44-52 |
| dirac_operators/BasicDiracWilsonOperator.cpp (184) | DiracModel: 12-94, 31-38, 42-46, 54-61, 65-71, 74-91, 96-178, 158-175; EvenOddModel: whole or header |
| dirac_operators/BasicImprovedDiracWilsonOperator.cpp (293) | CloverModel: whole or header |
| dirac_operators/BasicSquareDiracWilsonOperator.cpp (30) | DiracModel: 13-23 |
| dirac_operators/BlockDiracOperator.cpp (97) | DiracModel: 50-59, 78-91 |
| dirac_operators/BlockDiracWilsonOperator.cpp (210) | DiracModel: 14-121, 45-50, 69-81, 83-100, 102-119, 123-205, 134-163, 165-182, 184-201 |
| dirac_operators/BlockImprovedDiracWilsonOperator.cpp (365) | CloverModel: 22-185, 187-323, 344-349 |
| dirac_operators/ComplementBlockDiracOperator.cpp (113) | SapModel: 26-63 |
| dirac_operators/DiracOperator.h (143) | CloverModel: whole or header |
| dirac_operators/DiracWilsonOperator.cpp (397) | DiracModel: 16-202, 30-45, 36-43, 48-64, 71-87, 90-106, 113-129, 132-148, 155-171, 174-190, 204-391, 219-234, 237-253; ReadModel: 30-150 |
| dirac_operators/EvenOddImprovedDiracWilsonOperator.cpp (319) | EvenOddModel: 16, 26-46, 54-58, 61-88, 75, 147-200, 203-281, 263-268, 285-320, 295-314 |
| dirac_operators/EvenOddImprovedDiracWilsonOperator.h (51) | EvenOddModel: whole or header |
| dirac_operators/ExactOverlapOperator.cpp (203) | OverlapModel: 19, 23-39, 23-42, 23-64, 46-51, 55-60, 67, 71-112, 71-87, 94-99, 103-108, 114-146, 120-126, 148-175 |
| dirac_operators/ExactOverlapOperator.h (57) | OverlapModel: 21 |
| dirac_operators/GammaOperators.cpp (17) | DiracModel: 5-15 |
| dirac_operators/HoppingOperator.cpp (18) | DiracModel: 7-16 |
| dirac_operators/ImprovedDiracWilsonOperator.cpp (529) | CForceModel: 525-527; CloverModel: 10-12, 16-18, 22-253, 200-213, 255-487, 434-447, 489-492, 502-523, 508-513 |
| dirac_operators/ImprovedDiracWilsonOperator.h (46) | CloverModel: 36-45 |
| dirac_operators/OverlapOperator.cpp (104) | OverlapModel: 12-38, 13-16, 15, 20-25, 29-34, 40-66, 41-44, 43 |
| dirac_operators/OverlapOperator.h (57) | OverlapModel: 16 |
| dirac_operators/Propagator.cpp (60) | OverlapModel: 33-57; StochModel: 8-26, 27-29 |
| dirac_operators/SAPPreconditioner.cpp (61) | SapModel: 10-29, 12-14 |
| dirac_operators/SquareDiracWilsonOperator.cpp (39) | DiracModel: 12-22; OverlapModel: whole or header |
| dirac_operators/SquareEvenOddImprovedDiracWilsonOperator.cpp (53) | EvenOddModel: 13-17, 19-27 |
| dirac_operators/SquareImprovedDiracWilsonOperator.cpp (49) | CloverModel: 12-16, 18-22 |
| dirac_operators/SquareOverlapOperator.cpp (67) | OverlapModel: 12-16, 18-22 |
| dirac_operators/SquareTwistedDiracOperator.cpp (62) | DiracModel: 11-22, 24-27 |
| dirac_operators/TwistedDiracOperator.cpp (82) | DiracModel: 11-28, 30-47 |
| fermion_measurements/ChiralCondensate.cpp (173) | OverlapModel: 88-89, 105-114; StochModel: 20-40, 88-118, 110-117, 151-164 |
| fermion_measurements/OverlapChiralRotation.cpp (184) | OverlapModel: 20-38, 24-37, 40-56, 44-55 |
| fermion_measurements/SingletOperators.cpp (224) | StochModel: 61-73, 116-120, 147-170 |
| fermion_measurements/StochasticEstimator.cpp (164) | StochModel: 43-69, 71-97, 99-112, 127-147 |
| fermion_measurements/StochasticEstimator.h (82) | StochModel: 16-32, 22, 48-55, 57-65 |
| fermion_measurements/XSpaceCorrelators.cpp (438) | XSpaceModel: 29-79, 94-98, 103-120, 149-207, 175-176, 209-241, 332-349, 335-338, 354-385, 387-413 |
| gauge_fixing/GaugeFixing.cpp (133) | FixModel: 47-88, 101-117, 119-131; GaugeModel: 90-99 |
| gauge_fixing/LandauGaugeFixing.cpp (301) | FixModel: 12-68, 19-24, 25-60, 27-28, 29-34, 29-47, 35-42, 43-47, 70-113, 115-244, 246-258, 260-281 |
| gauge_fixing/LandauGhostPropagator.cpp (534) | LandauModel: 14-27, 181-240, 181-199, 208-213, 422-450, 478-520 |
| gauge_fixing/LandauGluonPropagator.cpp (242) | LandauModel: 22-48, 104-110, 111-118, 125-137 |
| hmc_forces/DiracWilsonFermionForce.cpp (56) | FForceModel: 10-55, 15-32, 17-21 |
| hmc_forces/FermionForce.cpp (56) | CForceModel: 11-20; FForceModel: 11-20, 22-31, 33-54, 34-44, 45-53 |
| hmc_forces/Force.cpp (20) | MdModel: whole or header |
| hmc_forces/ImprovedFermionForce.cpp (271) | CForceModel: 6, 8, 12-220, 24-36, 222-271, 237-264 |
| hmc_forces/ImprovedFermionForce.h (76) | CForceModel: 57-73, 71-72 |
| hmc_forces/OverlapFermionForce.cpp (84) | OverlapModel: 26-82, 33-42, 45-54 |
| hmc_integrators/FourthOmelyanLeapFrog.cpp (187) | MdModel: 9-79, 81-185, 88-183 |
| hmc_integrators/FourthOrderLeapFrog.cpp (26) | MdModel: 18-24 |
| hmc_integrators/Integrate.cpp (82) | ExpModel: 20-53; MdModel: 20-53, 55-70, 72-80 |
| hmc_integrators/LeapFrog.cpp (93) | MdModel: 9-41, 47-91, 51-90 |
| hmc_integrators/OmelyanLeapFrog.cpp (152) | MdModel: 9-66, 68-150, 74-149 |
| hmc_integrators/SixthOrderLeapFrog.cpp (25) | MdModel: 18-24 |
| hmc_updaters/HMCUpdater.cpp (142) | GaugeModel: 33-71, 130-140; MdModel: 73-100, 74-87, 102-115 |
| hmc_updaters/PureGaugeHMCUpdater.cpp (96) | MdModel: 15-66 |
| inverters/BiConjugateGradient.cpp (692) | SolverModel: 11-128, 45-117 |
| inverters/ChronologicalMultishiftSolver.cpp (194) | MinResModel: 11-192, 82-183, 84-106, 87-97 |
| inverters/ConjugateGradient.cpp (100) | SolverModel: 10-74, 33-67 |
| inverters/GMRESR.cpp (125) | GmresModel: 6-9, 11-14, 39-115, 41-51, 64-114, 65-66, 65-97, 70-79, 117-119; MgSolveModel: whole or header |
| inverters/MEMultishiftSolver.cpp (145) | SolverModel: 10-143, 34-72, 75-131, 96-130 |
| inverters/MMMRMultishiftSolver.cpp (302) | MinResModel: 37, 42-198, 140-187, 153-162, 193-197 |
| inverters/MultiGridMEMultishiftSolver.cpp (159) | MgSolveModel: 14-159, 33, 33-86, 92, 99-112, 124-144, 130-143, 158 |
| inverters/PreconditionedBiCGStab.cpp (107) | EvenOddModel: 33-40, 42-98 |
| io/GlobalOutput.h (197) | OutModel: whole or header |
| io/OutputSweep.cpp (533) | FormatModel: 52-67, 53-63, 53-66, 78-81, 122-143, 131-140, 155-160, 164, 214-281; Su3Model: 330-340, 332-339, 354-366 |
| io/ReadGaugeConfiguration.cpp (44) | TextModel: 26-42 |
| main.cpp (374) | TextModel: 43-50, 48, 52-74, 53, 54-64, 62, 209, 210-219 |
| multigrid/BlockBasis.cpp (214) | BlockModel: 7-13, 23-31, 146-210; MgModel: 33-121, 44-50, 57-120, 59-85, 64-75, 76-78, 89-116, 123-211, 132-144, 134-140, 147-210, 149-175, 154-165, 166-168, 179-206 |
| multigrid/BlockBasis.h (39) | BlockModel: 32-34 |
| multigrid/MultiGridBiConjugateGradient.cpp (162) | MgSolveModel: 7-150, 28-143 |
| multigrid/MultiGridConjugateGradient.cpp (82) | MgSolveModel: whole or header |
| multigrid/MultiGridOperator.cpp (149) | MgModel: 8-67, 69-125, 127-147 |
| multigrid/MultiGridProjector.cpp (67) | MgModel: 8-50, 30-41, 52-64 |
| multigrid/MultiGridSolver.cpp (331) | MgSolveModel: 10-148, 42, 44-55, 67-123, 67-135, 69-88, 148 |
| multigrid/MultiGridSolver.h (73) | MgSolveModel: whole or header |
| multigrid/MultiGridVector.h (63) | BlockModel: 36-42; MgModel: 40-42 |
| multigrid/MultiGridVectorLayout.cpp (55) | BlockModel: 5-8, 13, 18-46, 23-26, 32, 38-43 |
| polyakov_loops/PolyakovLoop.cpp (86) | LoopModel: 24-56, 58-79 |
| polyakov_loops/PolyakovLoopCorrelator.cpp (122) | LoopModel: 69-107 |
| program_options/StorageParameters.cpp (116) | TextModel: 13-82 |
| pure_gauge/Checkerboard.cpp (306) | ColourModel: 27-28, 33-97, 122-123, 177-178, 271-293 |
| pure_gauge/PureGaugeOverrelaxation.cpp (178) | ColourModel: 76-92; UpdModel: 66-122, 124-153, 155-170 |
| pure_gauge/PureGaugeUpdater.cpp (233) | ColourModel: 63-80; Su2Model: 117-143, 133-136, 146-164, 177-183, 211-216; UpdModel: 158-207, 163-206, 166-170, 185-189, 196-205, 205-225, 214-219 |
| scalar_measurements/MeanScalarField.cpp (99) | MeasModel: 12-47, 17-28, 49-80, 54-65 |
| scalar_updaters/MetropolisScalarUpdater.cpp (219) | ScalarModel: 57-203, 104-193, 105-147, 113-143, 125-143, 149-192, 158-188, 170-188 |
| starters/ReadStartGaugeConfiguration.cpp (498) | FormatModel: 66-69, 96-108, 102-112, 116-124, 157-201, 164-171, 178-185, 233-241; Su3Model: 21, 332-371, 335-343, 346, 375-414 |
| utils/ConvertLattice.h (117) | AdjModel: 13-22, 24-107, 101-105; AdjTables: 26-34, 36-99 |
| utils/ExpMap.h (192) | Exp3Model: 99-138; Exp3RModel: 99-138, 103-133, 104-114, 115-116, 118-119, 121-123; ExpModel: 155-169; Su2Model: 141-154 |
| utils/FromString.h (24) | TextModel: 17-22 |
| utils/Gamma.cpp (558) | GammaModel: 2, 6, 7, 8, 9, 10, 12, 13, 20-21, 23-280, 282-537, 539-553 |
| utils/Gamma.h (76) | DiracModel: whole or header; GammaModel: 13-34, 36-46, 62-68; MesonModel: 23-30 |
| utils/LieGenerators.h (254) | AdjModel: 15-57, 71-104, 146-157, 171-209, 177-181, 190-194, 201-205, 222-236, 224-236; AdjTables: 20-22, 75-77, 124-131, 149-156; SForceModel: whole or header |
| utils/MatrixToolkit.h (836) | DiracModel: whole or header; ScalarModel: 232-238; Su2Model: 559-580 |
| utils/MultiThreadSummator.h (141) | MeasModel: 33-39, 52-73; MesonModel: whole or header; SumModel: 31-37, 87-135 |
| utils/RandomGaugeTransformation.cpp (80) | GaugeModel: 66-72 |
| utils/RandomSeed.cpp (45) | SeedModel: 6, 17-28, 21, 26; StochModel: 41-44 |
| utils/RandomSeed.h (89) | SeedModel: 8-17, 19-52 |
| utils/ReUnit.cpp (67) | UpdModel: 16-29, 17-26, 30-46 |
| utils/StoutSmearing.cpp (81) | ExpModel: 12-20, 22-50, 28-49, 31-38, 39-41, 52-60, 54-57, 63-77 |
| utils/ToString.h (106) | LayoutModel: 92-96 |
| utils/Translate.h (60) | FieldModel: 14-18; XSpaceModel: 6-55 |
| wilson_flow/WilsonFlow.cpp (287) | ExpModel: 90-128, 95-124, 130-137, 139-170, 180-185, 186-191, 192, 197-231 |
| wilson_loops/Plaquette.cpp (68) | GaugeModel: 11-47 |
| wilson_loops/WilsonLoop.cpp (157) | LoopModel: 39-147, 74-98, 100-118, 121-131 |

### Parts of the code that are not modelled

* Floating-point rounding, integer overflow, memory allocation and lifetime, wall-clock behaviour, statistical quality of random numbers.
* The MPI library beyond per-channel FIFO matching and reductions; OpenMP beyond arbitrary partitions of loops among threads.
* Text formatting of numbers; the file system beyond a map from names to contents.
* Within modelled files, only the cited lines.

Source files no definition refers to:

* `./`: LatticeDefinitions.h, LatticeSweep.h, Simulation.h
* `MPILattice/`: ExtendedStencil.cpp, LayoutMap.h, LocalLayout.cpp, MDLattice.h, MPIType.h, ReducedDownStencil.cpp, ReducedStencil.cpp, ReducedUpStencil.cpp, StandardStencil.cpp
* `actions/`: Energy.cpp, Energy.h, FermionicAction.cpp, FermionicAction.h, GaugeAction.cpp, GaugeAction.h, GaugeEnergy.cpp, GaugeEnergy.h, ImprovedGaugeAction.h, MultiScalarAction.h, NFlavorFermionAction.h, NFlavorQCDAction.cpp, NFlavorQCDAction.h, TwoFlavorFermionAction.h, TwoFlavorQCDAction.cpp, TwoFlavorQCDAction.h, WilsonGaugeAction.h
* `algebra_utils/`: AlgebraUtils.cpp, AlgebraUtils_AVX.h
* `correlators/`: Glueball.h, GluinoGlue.cpp, GluinoGlue.h, MesonCorrelator.h
* `dirac_functions/`: ChebyshevRecursion.h, Polynomial.h, RationalApproximation.h
* `dirac_operators/`: BasicDiracWilsonOperator.h, BasicImprovedDiracWilsonOperator.h, BasicSquareDiracWilsonOperator.h, BlockDiracOperator.h, BlockDiracWilsonOperator.h, BlockImprovedDiracWilsonOperator.h, ComplementBlockDiracOperator.h, DiracOperator.cpp, DiracWilsonOperator.h, GammaOperators.h, HoppingOperator.h, Propagator.h, SAPPreconditioner.h, SquareBlockDiracWilsonOperator.cpp, SquareBlockDiracWilsonOperator.h, SquareComplementBlockDiracOperator.cpp, SquareComplementBlockDiracOperator.h, SquareComplementBlockDiracWilsonOperator.cpp, SquareComplementBlockDiracWilsonOperator.h, SquareDiracWilsonOperator.h, SquareEvenOddImprovedDiracWilsonOperator.h, SquareImprovedDiracWilsonOperator.h, SquareOverlapOperator.h, SquareTwistedDiracOperator.h, TwistedDiracOperator.h
* `fermion_measurements/`: ChiralCondensate.h, DiracEigenSolver.cpp, DiracEigenSolver.h, Eigenvalues.cpp, Eigenvalues.h, NPRVertex.cpp, NPRVertex.h, OverlapChiralRotation.h, SingletOperators.h, XSpaceCorrelators.h
* `gauge_fixing/`: GaugeFixing.h, LandauGaugeFixing.h, LandauGhostPropagator.h, LandauGluonPropagator.h, MaximalAbelianGaugeFixing.cpp, MaximalAbelianGaugeFixing.h, MaximalAbelianProjection.cpp, MaximalAbelianProjection.h
* `hmc_forces/`: BlockDiracWilsonFermionForce.cpp, BlockDiracWilsonFermionForce.h, DiracWilsonFermionForce.h, FermionForce.h, Force.h, GaugeForce.cpp, GaugeForce.h, OverlapFermionForce.h, SmearingForce.cpp, SmearingForce.h, TestForce.cpp, TestForce.h
* `hmc_integrators/`: FourthOmelyanLeapFrog.h, FourthOrderLeapFrog.h, Integrate.h, LeapFrog.h, OmelyanLeapFrog.h, SixthOrderLeapFrog.h
* `hmc_updaters/`: FermionHMCUpdater.cpp, FermionHMCUpdater.h, HMCUpdater.h, HiggsGaugeHMCUpdater.cpp, HiggsGaugeHMCUpdater.h, MultiStepNFlavorUpdater.cpp, MultiStepNFlavorUpdater.h, PureGaugeHMCUpdater.h, ScalarFermionHMCUpdater.cpp, ScalarFermionHMCUpdater.h, TwoFlavorHMCUpdater.cpp, TwoFlavorHMCUpdater.h
* `inverters/`: AugConjugateGradientSolver.cpp, AugConjugateGradientSolver.h, BiConjugateGradient.h, ChronologicalMultishiftSolver.h, ConjugateGradient.h, DeflationInverter.cpp, DeflationInverter.h, DiracSolver.h, EigConjugateGradient.cpp, EigConjugateGradient.h, GMRESR.h, MEMultishiftSolver.h, MMMRMultishiftSolver.h, MultiGridMEMultishiftSolver.h, MultishiftSolver.cpp, MultishiftSolver.h, PreconditionedBiCGStab.h, Solver.h
* `io/`: GlobalOutput.cpp, OutputSweep.h, ReadGaugeConfiguration.h
* `multigrid/`: MultiGridBiConjugateGradient.h, MultiGridConjugateGradient.h, MultiGridOperator.h, MultiGridProjector.h, MultiGridStochasticEstimator.cpp, MultiGridStochasticEstimator.h, MultiGridVectorLayout.h
* `polyakov_loops/`: AdjointPolyakovLoop.cpp, AdjointPolyakovLoop.h, PolyakovLoop.h, PolyakovLoopCorrelator.h, PolyakovLoopEigenvalues.cpp, PolyakovLoopEigenvalues.h
* `program_options/`: Option.h, StorageParameters.h
* `pure_gauge/`: Checkerboard.h, PureGaugeOverrelaxation.h, PureGaugeUpdater.h, PureGaugeWilsonLoops.cpp, PureGaugeWilsonLoops.h
* `scalar_measurements/`: MeanScalarField.h
* `scalar_updaters/`: MetropolisScalarUpdater.h, RandomScalarUpdater.cpp, RandomScalarUpdater.h
* `starters/`: ColdStartGaugeConfiguration.cpp, ColdStartGaugeConfiguration.h, HotStartGaugeConfiguration.cpp, HotStartGaugeConfiguration.h, ReadStartGaugeConfiguration.h, StartGaugeConfiguration.cpp, StartGaugeConfiguration.h
* `tests/`: TestCommunication.cpp, TestCommunication.h, TestLinearAlgebra.cpp, TestLinearAlgebra.h, TestSpeedDiracOperators.cpp, TestSpeedDiracOperators.h
* `utils/`: ConvertLattice.cpp, EigenTraits.h, LinkLattice.h, MatrixBaseExtension.h, RandomGaugeTransformation.h, ReUnit.h, StoutSmearing.h
* `wilson_flow/`: WilsonFlow.h
* `wilson_loops/`: Plaquette.h, WilsonLoop.h

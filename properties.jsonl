{"id": "C01", "title": "Global site numbering is a periodic bijection", "statement": "On the parallel layout, converting a coordinate (x,y,z,t) to a global site number is a bijection between the coordinates of the box and 0..V-1, and a coordinate any number of periods outside the box (in either direction) gives the number of its periodic image.", "quantifier": "every lattice size with positive extents and every integer coordinate", "why_tests_cant": "a test fixes one lattice size and a few coordinates; off-by-one and wrap errors appear for particular extents or for coordinates several periods away", "anchors": ["source/MPILattice/MPILayout.h: MpiLayout::getGlobalCoordinate, modulus, getGlobalCoordinateX/Y/Z/T"]}
{"id": "C02", "title": "Single-process layout wraps exactly one period", "statement": "On the single-process layout, a coordinate at most one period outside the box gives its periodic image; a coordinate further away gives a number that is not the image's, possibly outside the table.", "quantifier": "every lattice size and every integer coordinate", "why_tests_cant": "existing runs only shift by one or two sites, so the one-period limit is never exercised", "anchors": ["source/MPILattice/LocalLayout.h: LocalLayout::modulus, getGlobalCoordinate, index"]}
{"id": "C03", "title": "Forward and backward neighbours are inverse and commute", "statement": "For each direction, moving forward and then backward (or the converse) returns to the starting site, moves in different directions commute, and moving forward L times in a direction of extent L is the identity.", "quantifier": "every lattice size, every site, every pair of directions", "why_tests_cant": "lattice sizes with extent 1 or 2 and corner sites are exactly the cases a small test lattice may miss", "anchors": ["source/MPILattice/MPILayout.h: initialize (sup/down tables)", "source/MPILattice/LocalLayout.h: initialize"]}
{"id": "C04", "title": "Ownership is an even partition of the lattice", "statement": "When start-up accepts a process grid, each global site is owned by exactly one rank, each rank owns exactly the local volume, and the owner of a site is the rank whose box contains it; start-up refuses every grid that does not divide the lattice or does not match the number of processes.", "quantifier": "every lattice size and every process grid", "why_tests_cant": "the number of (lattice, grid) pairs is unbounded and each needs a different MPI launch", "anchors": ["source/MPILattice/MPILayout.h: initialize, getProcessor, rankTable"]}
{"id": "C05", "title": "Local numbering is a bijection with the documented ranges", "statement": "On each rank the sites it owns or mirrors are numbered 0..completesize-1 without gaps or repeats; owned sites that other ranks mirror come first (0..sharedsize-1), the other owned sites next (up to localsize-1), mirrored sites last.", "quantifier": "every lattice size, process grid, stencil and rank", "why_tests_cant": "depends on the chunk structure of each grid and stencil; start-up checks it on rank 0 only", "anchors": ["source/MPILattice/MPILayout.h: initialize (chunks, localIndex, sharedsize, localsize, completesize)"]}
{"id": "C06", "title": "Every stencil neighbour of an owned site is readable", "statement": "For every owned site and every displacement in the stencil, the displaced site has a valid local number on that rank.", "quantifier": "every lattice size, process grid, stencil, rank, owned site and stencil displacement", "why_tests_cant": "a missing halo site is only read for certain sites on certain ranks, and silently reads memory before the array", "anchors": ["source/MPILattice/MPILayout.h: initialize (exchangeTable)", "source/MPILattice/ExtendedStencil.h", "source/MPILattice/StandardStencil.h", "source/MPILattice/ReducedStencil.h"]}
{"id": "C07", "title": "Two-step backward reads on the extended layout", "statement": "Reading the site one step back in mu and one step back in nu through the neighbour tables of the extended layout gives the diagonal site whenever the local extent is at least 2 in mu or nu; when both local extents are 1 on a split lattice it can be an invalid index.", "quantifier": "every lattice size, process grid, rank, owned site and direction pair", "why_tests_cant": "needs a process grid with one-site-thick domains in two directions", "anchors": ["source/MPILattice/ExtendedStencil.h", "source/actions/ImprovedGaugeAction.cpp: staple", "source/pure_gauge/Checkerboard.cpp"]}
{"id": "C08", "title": "Halo update copies the owner's values", "statement": "After all ranks complete a halo update, each mirrored site holds the value its owner held when the update started, and no owned site has changed, whatever the order in which messages are delivered and ranks advance.", "quantifier": "every chunk structure produced by the layout, every field content, every interleaving of the ranks and of message delivery", "why_tests_cant": "the schedules of a parallel run cannot be enumerated by tests", "anchors": ["source/MPILattice/Lattice.h: communicateHalo, waitHalo, updateHalo", "source/MPILattice/MPILayout.h: latticeChunks, tags"]}
{"id": "C09", "title": "Several halo updates in flight do not mix", "statement": "When the halo updates of several fields are started before any is waited for, with the same tags, each field still receives its own values.", "quantifier": "every number of fields, every content, every delivery order that respects the per-channel ordering of MPI", "why_tests_cant": "cross-talk would depend on timing of the network", "anchors": ["source/MPILattice/MDLattice.h: updateHalo", "source/MPILattice/Lattice.h: communicateHalo"]}
{"id": "C10", "title": "Start-up computes message tags within table bounds", "statement": "Computing the message tags at start-up reads only existing entries of the chunk table and gives the chunks sent from one rank to one other rank pairwise different tags.", "quantifier": "every chunk table", "why_tests_cant": "an out-of-range read of a vector usually goes unnoticed at run time", "anchors": ["source/MPILattice/MPILayout.h: initialize (tag computation)"]}
{"id": "C11", "title": "Converting a field between layouts preserves it", "statement": "Assigning a field stored with one layout to a field stored with another layout (same lattice, same process grid) leaves at every global site the value it had, on owned and mirrored sites alike.", "quantifier": "every lattice size, process grid, pair of stencils and content", "why_tests_cant": "each pair of stencils gives a different index map on each rank", "anchors": ["source/MPILattice/Lattice.h: operator=, copy constructor", "source/MPILattice/MPILayout.h: getMapIndex"]}
{"id": "C12", "title": "Global sums count each site once", "statement": "A sum accumulated over local sites on every thread and rank and then reduced equals the sum over all global sites, however sites are assigned to threads and in whatever order partial sums are combined.", "quantifier": "every field, partition into threads and ranks, and combination order (exact arithmetic)", "why_tests_cant": "thread partitions and reduction trees differ from run to run", "anchors": ["source/utils/MultiThreadSummator.h", "source/MPILattice/MPIUtils.h: reduceAllSum"]}
{"id": "C13", "title": "Configuration lines: comments, spaces and pairs", "statement": "Reading a configuration file, a line whose first character is '#' and a blank line set nothing, spaces never matter, a line 'name = value' sets that name to that value with the last assignment winning, and a line with more fields stops the program; a '#' later in a line does not start a comment.", "quantifier": "every line and every sequence of lines", "why_tests_cant": "the set of lines is unbounded; trailing comments are a natural user input nobody tests", "anchors": ["source/main.cpp: clean_line, parse_parameter, main (configfile loop)"]}
{"id": "C14", "title": "List-valued options parse to the listed elements", "statement": "A list option written '{e1,...,en}' whose elements have balanced brackets parses to exactly the elements e1..en in order, including nested lists; a list whose bracket is never opened is refused; the last element of a list whose bracket is never closed is silently lost.", "quantifier": "every list of elements with any nesting depth", "why_tests_cant": "nesting depth and length are unbounded", "anchors": ["source/program_options/StorageParameters.cpp: get<std::vector<std::string>>"]}
{"id": "C15", "title": "Sweep schedule executes each sweep the requested number of times", "statement": "A sweep specified as '{name,steps,calls}' runs calls times at each sweep number divisible by steps and not otherwise, so over n sweeps it runs calls*ceil(n/steps) times; steps equal to 0 is undefined.", "quantifier": "every specification and every number of sweeps", "why_tests_cant": "unbounded run lengths; division by zero only appears with a steps of 0", "anchors": ["source/LatticeSweep.cpp: LatticeSweep::read, call, setSweepToJump, setNumberTimes", "source/Simulation.cpp: warmUp, measurement"]}
{"id": "C16", "title": "Output files nest properly", "statement": "Any sequence of open/write/close calls that is balanced yields for each output name a document in which every group is closed exactly once and values keep the order of writing; closing a group that is not open stops the program; printing in several portions gives the same file as printing once.", "quantifier": "every sequence of output operations, every split into portions", "why_tests_cant": "the operation sequences produced by sweeps are unbounded", "anchors": ["source/io/GlobalOutput.h: push, pop, write, print"]}
{"id": "C17", "title": "Reading configurations skips missing files and reports failure honestly", "statement": "Reading the next configuration returns the first readable file number in the sequence start, start+step, ...; the program stops only after the allowed number of consecutive failures, never after a successful read.", "quantifier": "every pattern of readable and missing files", "why_tests_cant": "the failure pattern is an arbitrary infinite sequence", "anchors": ["source/io/ReadGaugeConfiguration.cpp: execute"]}
{"id": "C18", "title": "Native format: write then read restores the field on any grid", "statement": "A gauge field written in the native format by one process grid and read by any other process grid of the same lattice is restored exactly at every site.", "quantifier": "every lattice size, pair of process grids and field content", "why_tests_cant": "pairs of grids and sizes are unbounded and each needs a different MPI launch", "anchors": ["source/io/OutputSweep.cpp: leonard_format branch", "source/starters/ReadStartGaugeConfiguration.cpp: leonard_format branch"]}
{"id": "C19", "title": "Muenster format round trip for two colours", "statement": "Writing an SU(2) field in the muenster format and reading it back restores it (up to the float rounding of the stored numbers), and what is read is always of SU(2) shape.", "quantifier": "every SU(2) field and lattice size", "why_tests_cant": "conjugation and index-order slips cancel for special matrices such as the identity", "anchors": ["source/io/OutputSweep.cpp: muenster_format branch", "source/starters/ReadStartGaugeConfiguration.cpp: muenster_format branch"]}
{"id": "C20", "title": "Muenster format round trip for three colours", "statement": "Writing an SU(3) field in the muenster format and reading it back restores it (up to rounding), and whatever linearly independent columns are read, the result is in SU(3).", "quantifier": "every SU(3) matrix; every pair of independent columns", "why_tests_cant": "the reconstruction is a Gram-Schmidt plus cross product whose conjugations matter only for generic matrices", "anchors": ["source/io/OutputSweep.cpp: muenster_format branch", "source/starters/ReadStartGaugeConfiguration.cpp: muenster_format branch"]}
{"id": "C21", "title": "Parallel muenster writer equals the serial one", "statement": "The stream of numbers written by the parallel muenster writer for any process grid is the stream the single-process writer produces.", "quantifier": "every lattice size, process grid and field", "why_tests_cant": "needs every process grid", "anchors": ["source/io/OutputSweep.cpp: muenster_format branch (ENABLE_MPI)"]}
{"id": "C22", "title": "External number encoding round trips", "statement": "Integers and doubles written through the external data representation are read back bit for bit, and a sequence of items is read back as the same sequence.", "quantifier": "every 32-bit integer, every 64-bit pattern, every sequence", "why_tests_cant": "2^64 patterns", "anchors": ["source/io/OutputSweep.cpp: xdr_int, xdr_double", "source/starters/ReadStartGaugeConfiguration.cpp: xdr_int, xdr_double", "source/MPILattice/MPILayout.h: save, load"]}
{"id": "C23", "title": "Fermion boundary conditions change only the intended links", "statement": "Switching a fermion boundary condition changes the sign of exactly the links in the chosen direction at the last slice, applying it twice restores the field, and different directions commute.", "quantifier": "every field, lattice size and process grid", "why_tests_cant": "the affected links form a slice whose position depends on the grid", "anchors": ["source/LatticeBoundaryConditions.h: switchAntiperiodicBc and others", "source/Environment.cpp"]}
{"id": "C24", "title": "The same boundary-condition name means the same thing everywhere", "statement": "Each accepted fermion boundary-condition name selects the same change of links when the configuration is set and when it is re-synchronised after an update.", "quantifier": "every option value", "why_tests_cant": "tests use one boundary condition", "anchors": ["source/Environment.h: setFermionBc", "source/Environment.cpp: synchronize", "source/actions/NFlavorFermionAction.cpp"]}
{"id": "C25", "title": "Translation moves the whole field periodically", "statement": "Translating a field by a displacement gives at each site the value at the displaced site, for displacements of either sign.", "quantifier": "every field, lattice and integer displacement", "why_tests_cant": "tests use positive displacements", "anchors": ["source/utils/Translate.h: translate"]}
{"id": "C26", "title": "Links of one colour can be updated in any order", "statement": "When the link colouring is accepted, no two links of one colour enter each other's staple, so updating all links of one colour in any order, or concurrently, gives the same configuration.", "quantifier": "every accepted colouring, lattice, update rule depending on the staple, and order", "why_tests_cant": "all interleavings of threads", "anchors": ["source/pure_gauge/Checkerboard.cpp: Checkerboard, checkCorrectness, acquireNeighbours", "source/pure_gauge/PureGaugeUpdater.cpp: updateLink loop"]}
{"id": "C27", "title": "Wilson action: local change equals global change", "statement": "For any link and any replacement matrix, the reported local action change equals the change of the total Wilson action.", "quantifier": "every number of colours, lattice with extents at least 2, configuration, link and replacement", "why_tests_cant": "the identity must hold for every configuration; a slip in one of 6 staple terms can hide behind symmetric configurations", "anchors": ["source/actions/WilsonGaugeAction.cpp: staple, energy, deltaAction"]}
{"id": "C28", "title": "Improved action: local change equals global change", "statement": "For any link and any replacement matrix, the reported local action change equals the change of the total tree-level improved action.", "quantifier": "every number of colours, lattice with extents at least 3, configuration, link, replacement and u0", "why_tests_cant": "18 rectangle terms must each be matched", "anchors": ["source/actions/ImprovedGaugeAction.cpp: staple, energy, deltaAction"]}
{"id": "C29", "title": "Gauge invariance of action and plaquette", "statement": "Transforming the links by a unitary matrix at each site leaves the Wilson and improved energies and the plaquette unchanged, and transforms the staple covariantly.", "quantifier": "every configuration, transformation, lattice and number of colours", "why_tests_cant": "an identity over continuous variables", "anchors": ["source/actions/WilsonGaugeAction.cpp", "source/actions/ImprovedGaugeAction.cpp", "source/wilson_loops/Plaquette.cpp", "source/utils/RandomGaugeTransformation.cpp"]}
{"id": "C30", "title": "Wilson and Polyakov loops are the advertised path products", "statement": "The measured Wilson loop R x T is the trace of the ordered product around the rectangle, the Polyakov loop is the trace of the ordered product around the lattice, both averaged over all positions, and both are gauge invariant.", "quantifier": "every R, T, lattice, configuration, gauge transformation", "why_tests_cant": "loop sizes and configurations are unbounded", "anchors": ["source/wilson_loops/WilsonLoop.cpp: execute", "source/polyakov_loops/PolyakovLoop.cpp: execute"]}
{"id": "C31", "title": "Forces stay in the Lie algebra", "statement": "The gauge force of every action and the random momenta are anti-Hermitian and traceless.", "quantifier": "every configuration, link, number of colours, random draw", "why_tests_cant": "identity over continuous variables", "anchors": ["source/actions/WilsonGaugeAction.cpp: force", "source/actions/ImprovedGaugeAction.cpp: force", "source/hmc_updaters/HMCUpdater.cpp: randomMomenta"]}
{"id": "C32", "title": "Two-colour overrelaxation keeps the action and the group", "statement": "The SU(2) overrelaxation step gives again an SU(2) link, leaves the Wilson action exactly unchanged, and applied twice restores the link.", "quantifier": "every SU(2) link and every staple with positive determinant", "why_tests_cant": "identity over continuous variables", "anchors": ["source/pure_gauge/PureGaugeOverrelaxation.cpp: updateLink"]}
{"id": "C33", "title": "Two-colour heat bath returns group elements", "statement": "The SU(2) heat-bath proposal is an SU(2) matrix for every outcome of the random numbers.", "quantifier": "every staple with non-zero determinant, every random draw accepted by the radius sampler", "why_tests_cant": "random draws sample only a few outcomes", "anchors": ["source/pure_gauge/PureGaugeUpdater.cpp: updateLink, generate_radius, generate_vector"]}
{"id": "C34", "title": "Re-unitarisation returns unitary matrices", "statement": "Re-unitarising a configuration gives matrices of the special unitary group and leaves special unitary matrices unchanged.", "quantifier": "every non-singular link and number of colours", "why_tests_cant": "matrices that are already nearly unitary, the only ones met in runs, hide the missing square root", "anchors": ["source/utils/ReUnit.cpp: execute, testUnitarity"]}
{"id": "C35", "title": "Matrix exponential of the momenta is in the group", "statement": "For two colours the exponential of an anti-Hermitian traceless matrix is an SU(2) matrix, is the inverse of the exponential of the opposite matrix, and is defined for every such matrix including zero.", "quantifier": "every anti-Hermitian traceless 2x2 matrix", "why_tests_cant": "the zero matrix is a single point never produced by random tests", "anchors": ["source/utils/ExpMap.h: ExponentialMap::exp"]}
{"id": "C36", "title": "Smearing respects the group and the gauge symmetry", "statement": "Stout smearing with any weight and number of levels maps special unitary links to special unitary links, is gauge covariant; spatial smearing leaves time-like links untouched and zero levels is the identity.", "quantifier": "every configuration, rho, number of levels", "why_tests_cant": "identity over continuous variables and unbounded levels", "anchors": ["source/utils/StoutSmearing.cpp: smearing, spatialSmearing, smearLink"]}
{"id": "C37", "title": "Molecular dynamics is reversible", "statement": "For each integrator and any nesting of forces, integrating forward, negating the momenta and integrating again returns exactly to the initial links with negated momenta.", "quantifier": "every force field, nesting depth, step numbers, length, initial state (exact arithmetic)", "why_tests_cant": "nesting depth and step numbers are unbounded; floating point hides small asymmetries", "anchors": ["source/hmc_integrators/LeapFrog.cpp", "source/hmc_integrators/OmelyanLeapFrog.cpp", "source/hmc_integrators/FourthOmelyanLeapFrog.cpp", "source/hmc_integrators/FourthOrderLeapFrog.cpp", "source/hmc_integrators/SixthOrderLeapFrog.cpp"]}
{"id": "C38", "title": "Molecular dynamics covers the requested time", "statement": "Each integrator advances the links by total time t_length and applies each force for total time t_length.", "quantifier": "every t_length, step numbers and nesting", "why_tests_cant": "an integer truncation of the step length is invisible when the step is an integer", "anchors": ["source/hmc_integrators/OmelyanLeapFrog.cpp: integrate", "source/hmc_integrators/FourthOmelyanLeapFrog.cpp: integrate", "source/hmc_integrators/LeapFrog.cpp: integrate"]}
{"id": "C39", "title": "Rejected HMC proposals leave the configuration unchanged", "statement": "After an HMC step the configuration is either exactly the old one (rejected) or exactly the proposal (accepted), a proposal that lowers the energy is always accepted, and all processes take the same decision.", "quantifier": "every energy difference, random draw, number of processes", "why_tests_cant": "the decision depends on random numbers and energies of each run", "anchors": ["source/hmc_updaters/HMCUpdater.cpp: metropolis", "source/hmc_updaters/PureGaugeHMCUpdater.cpp: execute"]}
{"id": "C40", "title": "Gamma-matrix tables satisfy the Clifford algebra", "statement": "The tabulated gamma matrices anticommute pairwise, square to one, are Hermitian, gamma5 anticommutes with each, and the derived tables (gamma5 times projectors, sigma) equal the products they stand for.", "quantifier": "all index pairs (finite, complete enumeration)", "why_tests_cant": "tables used only in combination can hide a compensating sign", "anchors": ["source/utils/Gamma.cpp", "source/utils/Gamma.h"]}
{"id": "C41", "title": "The unrolled Wilson-Dirac operator is the Wilson-Dirac operator", "statement": "Both implementations of the Wilson-Dirac operator equal the textbook hopping formula with the tabulated gamma matrices, hence each other, with and without gamma5.", "quantifier": "every gauge field, spinor field, hopping parameter, number of colours, lattice", "why_tests_cant": "identity over continuous variables; single-component slips can hide for special spinors", "anchors": ["source/dirac_operators/DiracWilsonOperator.cpp: multiply, multiplyAdd", "source/dirac_operators/BasicDiracWilsonOperator.cpp: multiply, multiplyAdd"]}
{"id": "C42", "title": "The Wilson-Dirac operator is gamma5-Hermitian", "statement": "With gamma5 included the operator is Hermitian for the scalar product of spinor fields, so its square has real non-negative expectation values.", "quantifier": "every unitary gauge field (any links), spinor fields, real hopping parameter, lattice", "why_tests_cant": "identity over continuous variables", "anchors": ["source/dirac_operators/DiracWilsonOperator.cpp", "source/dirac_operators/SquareDiracWilsonOperator.cpp", "source/algebra_utils/AlgebraUtils.h: dot"]}
{"id": "C43", "title": "The Wilson-Dirac operator is gauge covariant", "statement": "Applying the operator after a gauge transformation equals transforming the result.", "quantifier": "every gauge and spinor field, gauge transformation, lattice", "why_tests_cant": "identity over continuous variables", "anchors": ["source/dirac_operators/DiracWilsonOperator.cpp: multiply", "source/dirac_operators/BasicDiracWilsonOperator.cpp: multiply"]}
{"id": "C44", "title": "multiplyAdd equals multiply plus a multiple", "statement": "For each Dirac operator, multiplyAdd(out,v,w,alpha) gives multiply(v)+alpha*w.", "quantifier": "every field and alpha, for the Wilson, basic Wilson, squared and block operators", "why_tests_cant": "blocks coincide with the lattice for small test lattices, hiding a missing mask", "anchors": ["source/dirac_operators/DiracWilsonOperator.cpp", "source/dirac_operators/BasicDiracWilsonOperator.cpp", "source/dirac_operators/SquareDiracWilsonOperator.cpp", "source/dirac_operators/BlockDiracWilsonOperator.cpp"]}
{"id": "C45", "title": "Chebyshev recursion returns the advertised polynomial", "statement": "The Chebyshev recursion of order n on [a,b] evaluates the Chebyshev polynomial of the rescaled argument, and the operator and scalar versions agree on eigenvectors; the degree is that advertised.", "quantifier": "every order, interval, operator and vector", "why_tests_cant": "orders are unbounded", "anchors": ["source/dirac_functions/ChebyshevRecursion.cpp: evaluate"]}
{"id": "C46", "title": "Polynomial and rational functions of operators", "statement": "Evaluating a polynomial given by roots and scaling, or a partial-fraction rational function, on an operator acts on eigenvectors as the scalar evaluation does.", "quantifier": "every list of roots (coefficients, shifts), operator and vector", "why_tests_cant": "list lengths are unbounded; even/odd lengths use different buffers", "anchors": ["source/dirac_functions/Polynomial.cpp: evaluate", "source/dirac_functions/RationalApproximation.cpp: evaluate"]}
{"id": "C47", "title": "Conjugate gradient success means a small true residual", "statement": "When the conjugate-gradient solver reports success, the returned vector satisfies |b - A x|^2 < precision; when the initial vector already solves the system it reports success.", "quantifier": "every linear operator, source, initial guess, precision and iteration limit (exact arithmetic)", "why_tests_cant": "number of iterations and operators are unbounded; the exact-guess case is a single point", "anchors": ["source/inverters/ConjugateGradient.cpp: solve"]}
{"id": "C48", "title": "Preconditioned biconjugate gradient success means a small true residual", "statement": "When the preconditioned BiCGStab solver reports success, the returned vector satisfies |b - A x|^2 < precision for every preconditioner.", "quantifier": "every operator, preconditioner, source and iteration limit (exact arithmetic)", "why_tests_cant": "with the identity preconditioner used in tests the two update formulas coincide", "anchors": ["source/inverters/BiConjugateGradient.cpp: solve (preconditioned)"]}
{"id": "C49", "title": "Multishift solver success means all shifted systems are solved", "statement": "When the multishift solver reports success, each returned vector solves its shifted system within the precision.", "quantifier": "every operator, list of shifts, source, precision and iteration limit", "why_tests_cant": "unbounded lists; corner iteration limits", "anchors": ["source/inverters/MEMultishiftSolver.cpp: solve"]}
{"id": "C50", "title": "Scalar action: local change equals global change", "statement": "When one scalar field value at one site changes, the change of the local energy used by the Metropolis update equals the change of the total scalar action.", "quantifier": "every lattice, gauge field, scalar fields, couplings, site and new value", "why_tests_cant": "identity over continuous variables with many couplings", "anchors": ["source/actions/ScalarAction.cpp: energy, getKineticCoupling", "source/scalar_updaters/MetropolisScalarUpdater.cpp: execute"]}
{"id": "C51", "title": "Black-white updates touch independent sites", "statement": "During a half sweep over sites of one parity, no two updated sites are neighbours, so the result does not depend on the order of the sites.", "quantifier": "every lattice size and order", "why_tests_cant": "odd extents are never tested", "anchors": ["source/scalar_updaters/MetropolisScalarUpdater.cpp: execute", "source/gauge_fixing/LandauGaugeFixing.cpp: generateOverrelaxationTransformation"]}
{"id": "C52", "title": "Gauge fixing returns a gauge copy that is at least as good", "statement": "Landau gauge fixing returns a configuration gauge-equivalent to its input whose gauge functional is not smaller than the input's, for every outcome of the random numbers.", "quantifier": "every configuration, parameters, random draws", "why_tests_cant": "random sequences of unbounded length", "anchors": ["source/gauge_fixing/LandauGaugeFixing.cpp: gaugeFixing, execute, functional", "source/gauge_fixing/GaugeFixing.cpp: transform"]}
{"id": "C53", "title": "Multigrid blocks partition the local lattice", "statement": "Each local site belongs to exactly one block, block numbers are in range, and every block number is used, also when blocks do not divide the local lattice.", "quantifier": "every local lattice, block size", "why_tests_cant": "uneven block sizes are warned about but not tested", "anchors": ["source/multigrid/MultiGridVectorLayout.cpp: initialize"]}
{"id": "C54", "title": "Multigrid restriction and prolongation are adjoint", "statement": "Restriction is the adjoint of prolongation, and for a block-orthonormal basis restricting a prolonged coarse vector gives it back.", "quantifier": "every basis, coarse and fine vector, block structure, thread partition", "why_tests_cant": "identity over continuous variables", "anchors": ["source/multigrid/MultiGridProjector.cpp: apply"]}
{"id": "C55", "title": "Adjoint representation is a representation", "statement": "Converting links to the adjoint representation maps products to products, unitary links to real orthogonal matrices, and for two colours the explicit table equals the trace formula.", "quantifier": "every pair of links (two colours: explicit; any N: trace formula)", "why_tests_cant": "identity over continuous variables", "anchors": ["source/utils/ConvertLattice.h: toAdjoint", "source/utils/LieGenerators.h"]}
{"id": "C56", "title": "Wilson flow integrator stays in the group and is consistent", "statement": "Each flow step keeps links special unitary, commutes with gauge transformations, and the weights of each stage add up to the step length.", "quantifier": "every configuration, step and number of intervals", "why_tests_cant": "identity over continuous variables", "anchors": ["source/wilson_flow/WilsonFlow.cpp: integrate, exponential"]}
{"id": "C57", "title": "Random generators get distinct seeds", "statement": "Distinct random generators created on distinct threads or ranks get distinct seeds.", "quantifier": "every number of generators and ranks", "why_tests_cant": "collisions need more generators than tests create", "anchors": ["source/utils/RandomSeed.cpp: randomSeed", "source/utils/RandomSeed.h"]}
{"id": "C58", "title": "The gauge force is the gradient of the action", "statement": "Moving a link along a Lie algebra direction changes the action by minus twice the step times the real trace of direction times force, which is exactly opposite to the first order change of the kinetic energy under the momentum update.", "quantifier": "every lattice, configuration, link, direction, step, number of colours, Wilson and improved action", "why_tests_cant": "a wrong factor or sign only shows as a drift of the acceptance rate", "anchors": ["source/actions/WilsonGaugeAction.cpp: force", "source/actions/ImprovedGaugeAction.cpp: force", "source/hmc_updaters/HMCUpdater.cpp: momentaEnergy", "source/hmc_integrators/Integrate.cpp: updateMomenta"]}
{"id": "C59", "title": "Polyakov loop correlator", "statement": "The l-th number of the Polyakov loop correlator is the average over spatial positions of the conjugate trace of the loop times the trace of the loop at distance l along the first direction, and it is gauge invariant.", "quantifier": "every configuration, lattice, distance", "why_tests_cant": "correlations of continuous variables are only eyeballed", "anchors": ["source/polyakov_loops/PolyakovLoopCorrelator.cpp: execute"]}
{"id": "C60", "title": "Energy and topological charge of the flow", "statement": "The energy and the topological charge measured by the Wilson flow are gauge invariant, the energy is never negative, the field strength is antisymmetric and anti-Hermitian, and the charge density is the full contraction of two field strengths with the Levi-Civita symbol.", "quantifier": "every configuration of matrices, lattice, number of colours, gauge transformation", "why_tests_cant": "identities over continuous variables; a missing sign in one plane only changes the noise", "anchors": ["source/wilson_flow/WilsonFlow.cpp: measure"]}
{"id": "C61", "title": "The twisted Dirac operator adds i twist gamma5", "statement": "The twisted operator is the Wilson-Dirac operator plus i times the twist times gamma5, and with the gamma5 flag it is gamma5 times the operator without the flag.", "quantifier": "every gauge and spinor field, twist, hopping parameter, lattice", "why_tests_cant": "a misplaced gamma5 only changes numbers that no test pins", "anchors": ["source/dirac_operators/TwistedDiracOperator.cpp: multiply, multiplyAdd"]}
{"id": "C62", "title": "The block Dirac operator decouples the block", "statement": "The block operator is the Wilson-Dirac operator restricted to the block plus the identity outside, with the twist and gamma5 applied consistently; its values inside the block do not depend on the field outside.", "quantifier": "every block structure, gauge and spinor field, twist, hopping parameter", "why_tests_cant": "leaks through the block boundary are small and unnoticed", "anchors": ["source/dirac_operators/BlockDiracWilsonOperator.cpp: multiply", "source/dirac_operators/BlockDiracOperator.cpp: initialize_index_lattice"]}
{"id": "C63", "title": "Conjugate gradient reaches any precision within the dimension", "statement": "On a Hermitian positive definite operator, with a step limit of at least the number of components of the vectors, the conjugate-gradient solver reports success for every positive precision and every initial vector that is not already the exact solution.", "quantifier": "every dimension, Hermitian positive definite operator, source, initial guess and positive precision (exact arithmetic)", "why_tests_cant": "finite termination depends on the conjugacy of all search directions, an invariant of the whole history, and rounding hides it in runs", "anchors": ["source/inverters/ConjugateGradient.cpp:10-74"]}
{"id": "C64", "title": "Link updates with more than two colours stay in the group", "statement": "The Cabibbo-Marinari heat bath gives a link of the special unitary group for every outcome of the random numbers, uses every two-colour subgroup exactly once and keeps the plaquette it carries equal to link times staple; the overrelaxation proposal is in the group and is its own inverse.", "quantifier": "every number of colours, link, staple, random draw and accept decision", "why_tests_cant": "The group property must hold for every staple and draw; a run samples a few and rounding hides small violations.", "anchors": ["source/pure_gauge/PureGaugeUpdater.cpp", "source/pure_gauge/PureGaugeOverrelaxation.cpp"]}
{"id": "C65", "title": "The heat bath sampler returns points of the unit sphere", "statement": "For a positive coupling every accepted outcome of the sampler of the heat bath gives four real numbers whose squares sum to one, with the first between -1 and 1, every value of the first but 1 can occur, and the link built from them is in the group.", "quantifier": "every coupling, every list of uniform random numbers, every staple with non-zero determinant", "why_tests_cant": "The acceptance loop depends on unboundedly many random numbers; a run sees a vanishing part of them.", "anchors": ["source/pure_gauge/PureGaugeUpdater.cpp"]}
{"id": "C66", "title": "The scalar action is bounded below", "statement": "For unitary links, a positive squared mass and non-negative quartic couplings the scalar action is never negative.", "quantifier": "every lattice, gauge field, scalar fields and couplings", "why_tests_cant": "An unbounded direction of the action only shows when a run happens to enter it.", "anchors": ["source/actions/ScalarAction.cpp: energy, potentialEnergy"]}
{"id": "C67", "title": "The adjoint generators obey the same commutation relations as the fundamental ones", "statement": "The matrices LieGenerator<AdjointGroup>::get(i) (tables for two and three colours, loops otherwise) are the matrices of the commutator with the fundamental generator i in the basis of the fundamental generators, and commute among themselves with the same structure constants.", "quantifier": "every number of colours, every pair of generators", "why_tests_cant": "tests can look at a few entries for one compiled number of colours; the tables for three colours have 512 entries and the loops hold for any number of colours", "anchors": ["source/utils/LieGenerators.h:71-104", "source/utils/LieGenerators.h:146-157", "source/utils/LieGenerators.h:222-236"]}
{"id": "C68", "title": "Changing the dimension of a block basis changes the dimension of the coarse vectors", "statement": "After a block basis is created or its dimension is set, the coarse vectors and the orthogonalisation use that dimension.", "quantifier": "every sequence of constructor and setBasisDimension", "why_tests_cant": "The mismatch only shows as a read beyond an array or as basis vectors silently left out.", "anchors": ["source/multigrid/BlockBasis.cpp: BlockBasis, setBasisDimension, orthogonalize", "source/multigrid/MultiGridVectorLayout.cpp"]}
{"id": "C69", "title": "Orthogonalising a block basis gives an orthonormal basis of the same spaces", "statement": "For a basis that is linearly independent on every block, orthogonalize() divides by no zero and leaves on every block orthonormal vectors that span the same space; orthogonalize(index) does the same when the other vectors are already orthonormal.", "quantifier": "every number of processes, sites, blocks, threads, basis vectors and colours, every independent basis", "why_tests_cant": "Loss of orthogonality on one block of one process does not change any global number that is printed.", "anchors": ["source/multigrid/BlockBasis.cpp: orthogonalize"]}
{"id": "C70", "title": "The coarse operator is the Galerkin projection of the Dirac operator", "statement": "The coarse operator is the restriction of the Dirac operator applied to the prolongation; it is Hermitian or positive when the Dirac operator is, and on one process asMatrix gives its matrix.", "quantifier": "every basis, Dirac operator and coarse vector, every number of processes", "why_tests_cant": "Tests look at the convergence of the solver, which a wrong coarse operator only slows down; the matrix is only compared on one process.", "anchors": ["source/multigrid/MultiGridOperator.cpp: multiply, multiplyAdd, asMatrix"]}
{"id": "C71", "title": "Relaxation steps never lower the Landau functional", "statement": "On a lattice whose extents are all even, the transformation computed by one relaxation step of Landau gauge fixing is unitary at every site and never lowers the gauge functional, for any number of colours.", "quantifier": "every configuration, number of colours, even extents, step parity", "why_tests_cant": "an inequality over all configurations", "anchors": ["source/gauge_fixing/LandauGaugeFixing.cpp: generateOverrelaxationTransformation, functional"]}
{"id": "C72", "title": "Every site read by the staples, the energy and the hopping term is in the arrays of the rank", "statement": "From every site a rank owns, each nested use of the neighbour tables in the Wilson staple, the improved staple, the improved energy and the Dirac hopping term ends inside the arrays of that rank, at the site with the displaced periodic coordinates; the backward diagonal of the improved staple needs one of its two directions to have local extent at least two or global extent at most three.", "quantifier": "every lattice, process grid, rank, owned site and pair of directions", "why_tests_cant": "reading a wrong or missing halo element only changes numbers on decompositions that a test has to choose, and the extended stencil has 92 entries", "anchors": ["source/actions/WilsonGaugeAction.cpp:9-21", "source/actions/ImprovedGaugeAction.cpp:9-64", "source/MPILattice/ExtendedStencil.h:15-131", "source/MPILattice/StandardStencil.h:15-41"]}
{"id": "C73", "title": "The closed formula for three colours is the matrix exponential", "statement": "For three colours ExponentialMap::exp of a non-zero anti-Hermitian traceless matrix is its exponential and lies in SU(3), and it commutes with changes of basis; where the series for sin(w)/w is used every eigenvalue is off by at most 10^-17.", "quantifier": "every anti-Hermitian traceless matrix, every unitary change of basis, real arithmetic without rounding", "why_tests_cant": "the formula branches on the sign of the determinant and on the distance of two eigenvalues; degenerate and zero exponents have measure zero for random tests", "anchors": ["source/utils/ExpMap.h:99-138"]}
{"id": "C74", "title": "Random momenta have the weight of the kinetic energy", "statement": "The momentum matrices filled by randomMomenta of the HMC updaters from normally distributed numbers have a kinetic energy, as computed by momentaEnergy, equal to one half of the sum of the squares of all numbers drawn, for any number of colours and any previous content of the matrices. The kinetic energy of anti-Hermitian momenta is non-negative and vanishes only if all momenta vanish. Every traceless anti-Hermitian matrix is drawn from exactly one set of real numbers.", "quantifier": "all numbers of colours, all lattices, all real draws, all traceless anti-Hermitian matrices", "why_tests_cant": "A wrong factor on one diagonal generator leaves matrices in the algebra and changes only the distribution, which a test can see only statistically and for the colours it is run with.", "anchors": ["source/hmc_updaters/HMCUpdater.cpp:33-71", "source/hmc_updaters/HMCUpdater.cpp:130-140"]}
{"id": "C75", "title": "The fermion force is the gradient of the pseudofermion action", "statement": "The force computed by the pseudofermion actions of the hybrid Monte Carlo from the solutions of the Dirac equations is the gradient of the energy the same action reports: when all links move by e times a momentum times the link, the equations stay solvable for small e and the energy changes, whichever solutions are used, by minus e times twice the real trace of momentum and force, up to terms of second order. This holds for fundamental and adjoint fermions, every rational function and every boundary condition.", "quantifier": "every number of colours, lattice, real kappa, unitary links, traceless anti-Hermitian momenta, pseudofermions, real weights, shifts with unique solutions, boundary signs", "why_tests_cant": "A force that is not the gradient keeps the algorithm correct on average through the accept step and only lowers the acceptance; a finite difference test sees single links, single configurations and the boundary conditions it is run with.", "anchors": ["source/hmc_forces/FermionForce.cpp:11-54", "source/hmc_forces/DiracWilsonFermionForce.cpp:10-55", "source/actions/NFlavorFermionAction.cpp:43-158", "source/actions/TwoFlavorFermionAction.cpp:16-50"]}
{"id": "C76", "title": "The Schwarz alternating procedure solves the equation inside the blocks", "statement": "With exact block solvers, one application of the complement block operator, and any positive number of iterations of the Schwarz preconditioner, returns a field that solves the Dirac equation for the given source on every site of the black blocks and on every site of the red blocks without black neighbours, so the residual lives on the red side of the block boundaries; every iteration multiplies the residual by one minus the Dirac operator times the complement operator, and a solution is left unchanged. The black and red index lattices are complementary, constant on blocks and different on adjacent blocks.", "quantifier": "every lattice, number of colours, links, kappa, gamma5 flag, source, number of iterations, block sizes", "why_tests_cant": "A preconditioner that is wrong only slows the outer solver down, or makes it stall on some configurations; where the residual lives is not visible from outside.", "anchors": ["source/dirac_operators/ComplementBlockDiracOperator.cpp:25-65", "source/dirac_operators/SAPPreconditioner.cpp:10-29", "source/dirac_operators/BlockDiracOperator.cpp:50-91"]}
{"id": "C77", "title": "The minimal residual solver returns what it promises", "statement": "GMRESR returns true only if the squared residual of the returned vector is below the precision, for any preconditioner, and never returns a vector with a larger residual than the first guess. Without a preconditioner the residual within one cycle is the smallest any polynomial in the operator can give, and for an operator with positive Hermitian part the solver never breaks down and the residual falls geometrically. The solver stays inside its arrays for every dimension of the conjugate space, and a first guess that solves the equation is returned as the solution.", "quantifier": "every operator, source, guess, preconditioner, dimension and number of steps", "why_tests_cant": "Optimality and breakdown are statements about all operators; a dimension above the default and an exact guess are corners that no run with a generic source reaches.", "anchors": ["source/inverters/GMRESR.cpp:6-115", "source/inverters/GMRESR.cpp:117-119"]}
{"id": "C78", "title": "The scalar force is the gradient of a gauge invariant scalar action", "statement": "The energy of the scalar fields is a gauge invariant function of the links and fields in which each of the six couplings has an effect. The force on the links is its gradient for every configuration, is in the algebra, and is the same whether it is computed for the whole lattice or for a single link. A sum of scalar actions has the sum of the energies and of the forces.", "quantifier": "all numbers of colours and fields, periodic lattices, unitary links, fields, momenta and couplings", "why_tests_cant": "A gradient is a statement about all directions and configurations; the force test in the code compares one link numerically, and a term that vanishes for every field is invisible to a test that only checks the force against the energy.", "anchors": ["source/actions/ScalarAction.cpp:53-77", "source/actions/ScalarAction.cpp:121-166", "source/actions/ScalarAction.cpp:208-294", "source/actions/MultiScalarAction.cpp:13-53"]}
{"id": "C79", "title": "The improved operator is the clover operator", "statement": "After any sequence of setLattice, setCSW, setKappa and setGamma5, multiply of the improved Wilson operator is the textbook clover operator for the last values set, multiplied by gamma5 when the flag is set, whether the links are complex or real. With gamma5 it is Hermitian, it is covariant under gauge transformations, it is the Wilson operator for csw zero, and multiplyAdd adds alpha times the second vector; the squared operator applies it twice. The block version adds the clover term to the block operator on every site.", "quantifier": "every lattice, number of colours, links, kappa, csw, flag, sequence of settings, vectors and previous content of the output", "why_tests_cant": "A wrong sign or a stale field strength leaves an operator with plausible spectra; only the comparison with the continuum coefficients or with a second implementation would show it.", "anchors": ["source/dirac_operators/ImprovedDiracWilsonOperator.cpp:10-525", "source/dirac_operators/SquareImprovedDiracWilsonOperator.cpp:12-45", "source/dirac_operators/BlockImprovedDiracWilsonOperator.cpp:22-349"]}
{"id": "C80", "title": "The even-odd operator is the Schur complement of the clover operator and the preconditioned solver solves the clover equation", "statement": "After setLattice the even-odd clover operator applied to a vector gives, at the odd sites, the clover operator applied to the vector whose even components make the result vanish at the even sites (with gamma5 by the flag), and the vector itself at the even sites. With gamma5 it is Hermitian at the odd sites. The preconditioned solver returns a vector that satisfies the equations of the operator it was given at the even sites exactly, and whose residual at the odd sites is that of the inner solver seen through the reduced operator; with an exact inner solver it is the solution. This holds for every number of colours, every flag, every order of the threads and every sequence of settings, and the inner solver uses the precision set last.", "quantifier": "for all lattices with even extents, links, kappa, csw, vectors, sources, orders of the sites, sequences of settings and inner solvers", "why_tests_cant": "The elimination can be checked numerically for a configuration and a vector, but the agreement with the full operator for all links, the independence of the thread order of the in-place hopping, and the effect of the hard-coded stride for other numbers of colours are statements over all inputs.", "anchors": ["source/dirac_operators/EvenOddImprovedDiracWilsonOperator.cpp:16-320", "source/dirac_operators/SquareEvenOddImprovedDiracWilsonOperator.cpp:13-27", "source/inverters/PreconditionedBiCGStab.cpp:33-98"]}
{"id": "C81", "title": "The force of the improved operator is the gradient of its pseudofermion action", "statement": "For the rational pseudofermion action with the improved Wilson operator, updateForce computes from the solutions of the shifted equations the gradient of the reported energy with respect to the links, including the clover term, in the fundamental and in the adjoint representation and with any boundary signs. The force is in the algebra, is that of the Wilson operator when csw is zero, and does not depend on the lattice the operator or the force object had before. Force objects can be copied.", "quantifier": "every lattice, number of colours, unitary links, momenta, real kappa and csw, boundary signs, weights, shifts, pseudofermions and solutions, and previous states of the operator and the force", "why_tests_cant": "The clover force has eight terms per plane whose signs and sites must all agree with the field strength; a test on one configuration checks one number, and an error in a term that is suppressed by the configuration only lowers the acceptance of the Monte Carlo.", "anchors": ["source/hmc_forces/ImprovedFermionForce.cpp:6-271", "source/hmc_forces/FermionForce.cpp:11-54", "source/actions/NFlavorFermionAction.cpp:43-158", "source/dirac_operators/ImprovedDiracWilsonOperator.cpp:525-527"]}
{"id": "C82", "title": "Stochastic estimators are unbiased and their errors are the stated ones", "statement": "generateRandomNoise fills a vector with random signs so that the scalar product of the noise with A times the noise is on average the trace of A for every linear operator A (over the chosen time slices, and without contributions between different spinor indices, for the versions with a time slice or a range), with a mean square distance given by the off-diagonal elements; mean and standardDeviation of N values are unbiased estimates. ChiralCondensate therefore measures the traces of D^-1, gamma5 D^-1, D^-1+ D^-1 and D^-2 per site, real for the Wilson operator in the first two cases, and SingletOperators those of the sixteen gamma products times powers of the hopping operator, whose alternating sum reproduces the full inverse for each noise vector. generateSource resolves a column of the propagator; smearSource is linear, gauge covariant, Hermitian and does not leave the time slice.", "quantifier": "for all lattices, numbers of colours, gauge fields, linear operators with any exact inverter, numbers of estimators, time slices, hopping orders, gamma matrices, smearing levels and parameters", "why_tests_cant": "Unbiasedness is a statement about the average over 2^(12 V) noise vectors, which no run can enumerate; a wrong sign or a missing conjugation gives results of the same size as the statistical error.", "anchors": ["source/fermion_measurements/StochasticEstimator.h:16-65", "source/fermion_measurements/StochasticEstimator.cpp:43-147", "source/fermion_measurements/ChiralCondensate.cpp:85-164", "source/fermion_measurements/SingletOperators.cpp:51-170", "source/dirac_operators/GammaOperators.cpp:5-15", "source/dirac_operators/HoppingOperator.cpp:7-16"]}
{"id": "C83", "title": "MesonCorrelator writes the two-point functions of meson fields", "statement": "On one configuration MesonCorrelator::execute writes, for every time slice, the trace of the two quark propagators between the origin and the slice with gamma matrices at the two ends: the pseudoscalar correlator (never negative), the scalar one and the one of the axial current with the pseudoscalar field; the PCAC mass is the symmetric time difference of the latter over twice the pseudoscalar correlator. t_source_origin moves the source along the time direction, nothing depends on the gauge, and the disconnected contributions of every time slice are on average the traces of D^-1 and gamma5 D^-1 on that slice.", "quantifier": "for all lattices, numbers of colours, gauge fields, gauge transformations, hopping parameters, origins, gamma5-Hermitian linear operators with any exact inverter, and all ensembles symmetric under translations and time reflection", "why_tests_cant": "A correlator with a wrong relative sign is still a smooth, gauge invariant function of time: only the identity with the trace of propagators, for every gauge field, shows which fields it correlates; that a signal cancels on average cannot be seen on one configuration.", "anchors": ["source/correlators/MesonCorrelator.cpp:30-268", "source/fermion_measurements/StochasticEstimator.cpp:43-147"]}
{"id": "C84", "title": "XSpaceCorrelators writes the meson correlators between two sites", "statement": "translate copies a field so that each site holds the value of the site a given displacement away on the periodic lattice. With it, the connected numbers that XSpaceCorrelators::execute writes for every gamma matrix and each of the nineteen displacements are, up to 4 kappa^2, the traces of two quark propagators between sites a displacement apart with the gamma matrix (and its Dirac adjoint) at the ends, on average over the noise for the stochastic estimator and exactly, from the origin, otherwise; they do not depend on the gauge. The disconnected numbers are on average the products of the two closed quark loops at the two sites.", "quantifier": "for all lattices, numbers of colours, gauge fields, hopping parameters, gamma matrices, displacements, numbers of noise vectors, gamma5-Hermitian linear operators and exact inverters", "why_tests_cant": "One noise vector in both propagators, a transposed propagator or a matrix applied to a vector of products all give smooth finite numbers; only the average over every noise vector and the identity with the trace of propagators, for every gauge field, tells which correlator they are.", "anchors": ["source/fermion_measurements/XSpaceCorrelators.cpp:1-438", "source/utils/Translate.h:6-55", "source/MPILattice/LocalLayout.h:149-170"]}
{"id": "C85", "title": "The Landau gauge condition and the gluon propagator", "statement": "The number that the Landau gauge fixing compares with its precision is the mean square of the gradient of the Landau functional under infinitesimal gauge rotations: it is never negative, it is zero exactly where the functional is stationary and therefore at every maximum over the SU(N) gauge rotations. Where it is zero the Fourier transform of the vector potential is transverse to the lattice momentum. LandauGluonPropagator writes for every momentum the two-point function of the Fourier transformed vector potential, summed over directions and colours, unchanged by global rotations and divided by three, by four at zero momentum, and the three gluon vertex it writes is the colour trace of a commutator of the Fourier transforms. Each number is labelled with its momentum.", "quantifier": "for all lattices, numbers of colours, gauge fields, momenta and infinitesimal rotations", "why_tests_cant": "The residual falls to zero on every run, and a wrong relative sign or a missing trace would make it fall to zero at another gauge; only the statement for every field and every rotation shows that it is the gradient of the functional. A propagator with a wrong phase is still a smooth positive function of the momentum.", "anchors": ["source/gauge_fixing/LandauGluonPropagator.cpp:1-242", "source/gauge_fixing/LandauGaugeFixing.cpp:1-301", "source/gauge_fixing/GaugeFixing.cpp:1-133"]}
{"id": "C86", "title": "The ghost propagator inverts the second derivative of the Landau functional", "statement": "The operator that LandauGhostPropagator inverts is the second derivative of the Landau functional along the rotations of the frames: it is symmetric, it maps real fields to real fields, it annihilates constant fields in the Landau gauge and with unit links it is minus the lattice Laplacian. ghostPropagatorBiCGStab returns true only with the projection on the plane wave of a field that solves the equation to the precision asked for, and with unit links that is the volume over the squared lattice momentum.", "quantifier": "for all lattices, numbers of colours, gauge fields, momenta, colour indices, precisions and numbers of steps", "why_tests_cant": "A ghost operator with one wrong sign is still elliptic and its propagator falls off with the momentum as expected; the identity with the second derivative for every field excludes it. The breakdown of the iteration occurs on special fields only, and what is written then looks like a measured number.", "anchors": ["source/gauge_fixing/LandauGhostPropagator.cpp:1-534"]}
{"id": "C87", "title": "The overlap operator", "statement": "OverlapOperator::multiply gives (1+m)/2 plus (1-m)/2 times gamma5 times H q(H^2), H the Hermitian Wilson operator and q the polynomial held by squareRootApproximation, with gamma5 in front when the flag is set, whatever the scratch vectors held; multiplyAdd adds alpha times the second vector; SquareOverlapOperator applies it twice. For real kappa and mass and roots in conjugate pairs gamma5 D is Hermitian, D is gauge covariant, and the massless operator obeys the Ginsparg-Wilson relation up to half the error of the approximated sign function on the spectrum of H.", "quantifier": "for all lattices, numbers of colours, gauge fields, Dirac vectors, kappa, masses, polynomials and errors", "why_tests_cant": "On a test lattice the approximation error hides a wrong coefficient of the mass term or a missing gamma5, and a solver still converges; the relation must hold for every gauge field, and its bound is about all eigenvalues at once.", "anchors": ["source/dirac_operators/OverlapOperator.cpp:1-95", "source/dirac_operators/SquareOverlapOperator.cpp:1-45", "source/dirac_functions/Polynomial.cpp:1-80"]}
{"id": "C88", "title": "The overlap operator with exactly treated eigenvectors", "statement": "ExactOverlapOperator uses the sign of the eigenvalue on each stored eigenvector and the polynomial on the rest of the vector. For orthonormal eigenvectors of H the sign function is exact on them and is the approximation on vectors orthogonal to them, gamma5 D is Hermitian and the Ginsparg-Wilson relation needs the approximation to be good on the other eigenvectors only. computeEigenvalues stores eigenvectors of H with their eigenvalues, and keeps stored ones only while their residual is below the tolerance.", "quantifier": "for all lattices, numbers of colours, gauge fields, Dirac vectors, lists of eigenvectors, kappa, masses, polynomials and tolerances", "why_tests_cant": "The degenerate case, where the squared operator has eigenvectors that the operator has not, needs a special gauge field; elsewhere a wrong sign or a projection left out looks like a slightly worse approximation.", "anchors": ["source/dirac_operators/ExactOverlapOperator.cpp:1-190"]}
{"id": "C89", "title": "Propagators, condensate and chiral rotations with the overlap operator", "statement": "With an exact solver of D_m, constructPropagator gives (1 - D_0) D_m^-1, that is (D_m^-1 - 1)/(1-m), and it anticommutes with gamma5 at zero mass where the sign function squares to one. The connected part of the chiral susceptibility is the propagator applied twice. The chiral rotations of OverlapChiralRotation with the massive operator are those with the massless one by (1-m) theta, around 1 - D they add up to twice the angle, and around the massless D they cancel up to the second order of the step.", "quantifier": "for both overlap operators, for all lattices, numbers of colours, gauge fields, lists of eigenvectors, masses, angles, numbers of steps and vectors", "why_tests_cant": "The massive and massless operators differ by a few percent in a measurement; a factor of 1-m is not visible without the exact relation. Chiral symmetry of the propagator is an operator identity.", "anchors": ["source/dirac_operators/Propagator.cpp:1-60", "source/fermion_measurements/ChiralCondensate.cpp:60-140", "source/fermion_measurements/OverlapChiralRotation.cpp:1-150"]}
{"id": "C90", "title": "The force of the overlap operator", "statement": "OverlapFermionForce::derivative subtracts from the force, to first order in the links, the derivative of weight times 2 Re X^+ D Y, where D is what OverlapOperator::multiply computes with gamma5 from the same polynomial, kappa and mass. With the solution X of (D^2 + b) X = phi and Y = D X it gives the derivative of the term phi^+ (D^2 + b)^-1 phi of the pseudofermion action.", "quantifier": "for all lattices, numbers of colours, unitary links, directions in the algebra, second order terms, vectors, polynomials, real kappa, masses and shifts, and whatever the force and the scratch vectors held before", "why_tests_cant": "A force with a wrong factor or a wrong index in the products of the polynomial still points roughly downhill and the Metropolis test hides it as a lower acceptance; a numerical derivative on one field with one polynomial does not tell that the sign depends on the number of roots.", "anchors": ["source/hmc_forces/OverlapFermionForce.cpp:1-83", "source/hmc_forces/DiracWilsonFermionForce.cpp:10-55", "source/dirac_operators/OverlapOperator.cpp:16-38", "source/dirac_functions/Polynomial.cpp:1-80"]}
{"id": "C91", "title": "The multigrid solvers", "statement": "MultiGridSolver::solve returns a vector whose residual is not larger than that of the first guess, lastError is the squared norm of the residual of that vector, and a return value of true means that it is below the precision; solving again with the same object works as the first time. The coarse solver reports success only for a small true residual. MultiGridMEMultishiftSolver returns for every shift a solution of the shifted squared equation, within a bound given by the precision.", "quantifier": "for all matrices, sources, first guesses, step limits, precisions, basis and Schwarz preconditioners (linear or not), contents of the work arrays, sequences of calls on one object and lists of shifts", "why_tests_cant": "A test solves one system with a fresh object and checks the residual; the limit of steps that every success lowers for the later calls, and the return value that is always true, show only in long runs, as solutions of decreasing quality.", "anchors": ["source/multigrid/MultiGridSolver.cpp:10-150", "source/multigrid/MultiGridBiConjugateGradient.cpp:7-150", "source/inverters/MultiGridMEMultishiftSolver.cpp:14-159"]}
{"id": "C92", "title": "The minimal residual and chronological multishift solvers", "statement": "When MMMRMultishiftSolver::solve or ChronologicalMultishiftSolver::solve returns true, every solution solves its shifted equation within the precision, and for a positive operator the minimal residual solver does return true after enough steps. The guess of the chronological solver is the best combination of the vectors it is made of.", "quantifier": "for all linear operators (non-negative for the minimal residual), sources, precisions, step limits, lists of shifts and contents of the memory of the solutions", "why_tests_cant": "A test runs the shifts of one rational approximation, which come in one order; what success means for shifts in another order, for negative ones only, or with memory that happens to be zero, is not seen, and only the residual of the last shift is ever computed.", "anchors": ["source/inverters/MMMRMultishiftSolver.cpp:37-300", "source/inverters/ChronologicalMultishiftSolver.cpp:11-192"]}
{"id": "C93", "title": "The glueball operators and mean scalar fields that are written", "statement": "On any number of processes and threads Glueball writes, for every time, the average over the spatial slice of the sum of the spatial plaquettes and of the difference of the planes 01 and 02; both are gauge invariant, the first does not change under symmetries of the spatial lattice and the second has no scalar part. MeanScalarField writes the averages of the fields, their squares and absolute values over all flavours, sites and components.", "quantifier": "for all configurations, numbers of colours, flavours, lattices, distributions of the sites over processes and threads, gauge transformations and lattice symmetries", "why_tests_cant": "A test runs on one process, where a missing sum over the processes changes nothing, and on configurations for which nobody knows the value of the operator.", "anchors": ["source/correlators/Glueball.cpp:14-77", "source/utils/MultiThreadSummator.h:33-73", "source/scalar_measurements/MeanScalarField.cpp:11-82"]}

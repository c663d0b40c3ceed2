{"id": "C01", "title": "MPI task division is a partition", "statement": "When a set of nTasks work items (k-points, perturbation states, ...) is divided over the processes of a communicator, every item belongs to exactly one process, each process owns a contiguous range, the ranges are in rank order, any two processes' loads differ by at most one item, and asking who owns an item returns the rank whose range contains it.", "quantifier": "for every number of tasks >= 0 and every number of processes >= 1, and every item index", "why_tests_cant": "the number of (tasks, processes) pairs is unbounded; a lost or doubly counted k-point silently changes the physics rather than crashing", "anchors": ["jdftx/core/MPIUtil.cpp: TaskDivision::init, TaskDivision::whose", "jdftx/core/MPIUtil.h: TaskDivision", "jdftx/core/MPIUtil.cpp: MPIUtil::ProcDivision constructor"]}
{"id": "C02", "title": "Thread launch executes every job exactly once", "statement": "Launching a threaded loop over nJobs independent iterations executes every iteration in [0,nJobs) exactly once, whatever the thread count and whatever order the threads run in, so that the final memory equals that of the serial loop; a loop over zero iterations executes nothing.", "quantifier": "for every thread count >= 1, every job count >= 0, every loop body writing only its own iteration's cell, and every interleaving of the threads", "why_tests_cant": "interleavings and (jobs, threads) combinations cannot be enumerated; the empty-loop case only arises for degenerate inputs", "anchors": ["jdftx/core/Thread.h: threadLaunch, threadedLoop", "jdftx/core/Util.cpp: core division in initSystem"]}
{"id": "C03", "title": "Threaded reductions equal the serial reduction", "statement": "Dot products, norms, and accumulations performed by per-thread partial sums that are combined under a lock give the value of the serial sum (exact arithmetic), independent of the thread count and of the order in which threads take the lock.", "quantifier": "for every vector length, every summand, every thread count >= 1 and every lock acquisition order", "why_tests_cant": "a test observes only the schedules that happen to occur", "anchors": ["jdftx/core/BlasExtra.cpp: eblas_zdotc, eblas_ddot, eblas_dznrm2, eblas_dnrm2", "jdftx/core/Thread.h: threadedAccumulate"]}
{"id": "C04", "title": "Reciprocal and real space loops visit each grid point once with the right coordinates", "statement": "Looping over real space, full reciprocal space, or half reciprocal space visits every stored grid index exactly once (for any division of the index range among threads), and the integer coordinates supplied to the loop body are the unique ones, wrapped to -S/2 < iG <= S/2, whose flattened array index is the index being visited; flattening and unflattening are mutually inverse.", "quantifier": "for every grid S with positive sample counts and every non-empty sub-range of the index range", "why_tests_cant": "all grid sizes and all thread splits cannot be sampled; errors show only at range boundaries and for odd / even sizes", "anchors": ["jdftx/core/LoopMacros.h: THREAD_rLoop, THREAD_fullGspaceLoop, THREAD_halfGspaceLoop, IS_NYQUIST", "jdftx/core/GridInfo.h: fullRindex, fullGindex, halfGindex, wrapGcoords"]}
{"id": "C05", "title": "Automatically chosen FFT box is adequate and FFT-friendly", "statement": "When the user specifies only a cutoff, the selected sample counts are at least the minimum required by the cutoff in each direction, have no prime factors other than 2, 3, 5 and 7, are even where the code demands it, and keep the ratios between directions that symmetry related lattice vectors demand; the search always terminates for positive minimum counts.", "quantifier": "for every positive minimum sample count triple and every set of symmetry matrices", "why_tests_cant": "unbounded search over grid sizes; a too-small box aliases the density without any visible failure", "anchors": ["jdftx/core/GridInfo.cpp: GridInfo::initialize", "jdftx/core/Util.h: fftSuitable"]}
{"id": "C06", "title": "Blockwise file transfer moves every element exactly once", "statement": "Reading or writing a binary block through the parallel I/O layer transfers the requested number of elements, in order, each exactly once and contiguously in file and memory, no matter how large the block is, with every individual transfer small enough for the int counts of the MPI library.", "quantifier": "for every element size 1..INT_MAX/2 and every element count", "why_tests_cant": "failures occur only beyond 2 GB per transfer, out of reach of unit tests", "anchors": ["jdftx/core/MPIUtil.cpp: MPIUtil::fread, MPIUtil::fwrite"]}
{"id": "C07", "title": "Endian conversion is an involution on the file bytes", "statement": "Binary files are little endian independent of the host: writing data on any host and reading it back on any host (same or opposite endianness) returns the same values, and a write leaves the caller's buffer unchanged.", "quantifier": "for every element size, every element count and every content, and each combination of host endianness", "why_tests_cant": "hosts of both endianness are not available to a test", "anchors": ["jdftx/core/Util.cpp: convertToLE, convertFromLE, freadLE, fwriteLE"]}
{"id": "C08", "title": "Convergence checks fire exactly when the documented criterion holds", "statement": "The energy-change test reports convergence exactly when the last n successive energy differences have magnitude below the threshold (n consecutive, no earlier), and the norm test exactly when the last n norms are below threshold, independent of anything that happened before the last violation.", "quantifier": "for every sequence of energies / norms, every threshold and every n >= 1", "why_tests_cant": "statement about every history of iterates", "anchors": ["jdftx/core/Minimize.h: EdiffCheck", "jdftx/core/Pulay.h: NormCheck"]}
{"id": "C09", "title": "Line minimizers report the total progress along the direction", "statement": "Every line minimizer leaves the state at (start + alpha * direction) for the alpha it reports, both on success and on failure, so that undoing the step by -alpha restores the starting point exactly, as the Minimizable interface requires.", "quantifier": "for every energy landscape (including NaN/infinite energies at any trial point), every starting step size and parameter set", "why_tests_cant": "quantifies over all energy functions and all sequences of rejected trial points", "anchors": ["jdftx/core/Minimize_linmin.h: linminRelax, linminQuad, linminCubicWolfe", "jdftx/core/Minimize.h: Minimizable::minimize"]}
{"id": "C10", "title": "Minimizer iteration bounds and consistency of the returned energy", "statement": "A minimization performs at most nIterations line minimizations, terminates, and the energy it returns is the energy of the state it leaves behind.", "quantifier": "for every energy function, every step rule and every parameter set", "why_tests_cant": "quantifies over all energy functions and histories of resets", "anchors": ["jdftx/core/Minimize.h: Minimizable::minimize"]}
{"id": "C11", "title": "L-BFGS history bookkeeping", "statement": "The quasi-Newton minimizer never keeps more than the configured number of history vectors, always discards the oldest first, and its direction is the two-loop recursion applied to exactly the retained pairs, hence satisfies the secant equation for the newest pair.", "quantifier": "for every sequence of steps and gradients and every history size >= 1", "why_tests_cant": "statement about every history of iterates", "anchors": ["jdftx/core/Minimize_lBFGS.h: Minimizable::lBFGS"]}
{"id": "C12", "title": "Linear conjugate gradient keeps the true residual", "statement": "At each iteration of the linear solver, the recursively updated residual equals rhs - A x for the current state x, the returned iteration count never exceeds the limit, and the solver reports convergence only if the preconditioned residual norm of the state it leaves behind is below the threshold.", "quantifier": "for every linear operator, right hand side, preconditioner, initial state and iteration limit", "why_tests_cant": "quantifies over all operators and states", "anchors": ["jdftx/core/Minimize.h: LinearSolvable::solve", "jdftx/perturb/LinearSolver.h: LinearSolvableIndefinite::CG"]}
{"id": "C13", "title": "A failed linear response solve leaves the best iterate", "statement": "When the indefinite conjugate gradient solver stops without converging, it announces and leaves the state of the iteration with the lowest recorded residual.", "quantifier": "for every operator and every sequence of residual norms", "why_tests_cant": "requires residual histories in which the optimum lies at any particular iteration, including the first", "anchors": ["jdftx/perturb/LinearSolver.h: LinearSolvableIndefinite::CG"]}
{"id": "C14", "title": "Pulay mixing coefficients are an affine combination and history is bounded", "statement": "At each cycle of Pulay mixing (SCF, or any other user) the number of remembered cycles never exceeds the history limit, the stored overlap entries are exactly the inner products of the remembered residuals (oldest dropped first), the mixing coefficients add up to one, and a fixed point (zero residual) is left unchanged.", "quantifier": "for every sequence of variables and residuals, every metric / overlap operator, every history limit >= 1 and every number of calls on the same object", "why_tests_cant": "statement about every history, including re-entrant use by the exact-exchange outer loop", "anchors": ["jdftx/core/Pulay.h: Pulay::minimize, Pulay::clearState", "jdftx/electronic/SCF.cpp: SCF::minimize"]}
{"id": "C15", "title": "Pulay restart files reproduce the history", "statement": "Saving the mixing history to a file and loading it in a new process with the same parameters restores the remembered variables, residuals and overlaps, in order; a file with more entries than the current history limit keeps the most recent ones.", "quantifier": "for every history content, history limit and file length", "why_tests_cant": "unbounded history contents", "anchors": ["jdftx/core/Pulay.h: Pulay::loadState, Pulay::saveState"]}
{"id": "C16", "title": "Cached memory allocator never hands out live memory", "statement": "With the memory cache enabled, memory returned by an allocation never overlaps any block still in use, freeing makes exactly that block available again, and the bytes held from the system are always the bytes in use plus the bytes in the cache and return to zero after release of everything.", "quantifier": "for every sequence of allocations and frees (any sizes, any order)", "why_tests_cant": "aliasing depends on the whole allocation history", "anchors": ["jdftx/core/ManagedMemory.cpp: MemCache, ManagedMemoryBase::memInit, memFree, memMove"]}
{"id": "C17", "title": "Memory usage report peaks are correct", "statement": "The reported peak usage for a category is the maximum over time of the bytes simultaneously in use by that category, and the reported total peak is the maximum over time of the total in use.", "quantifier": "for every sequence of allocation / free events in any categories", "why_tests_cant": "depends on every event history", "anchors": ["jdftx/core/ManagedMemory.cpp: MemUsageReport::manager, MemUsageReport::Entry"]}
{"id": "C18", "title": "Input commands are processed after everything they require", "statement": "Whatever order commands appear in the input file, each command is processed only after all commands it requires (directly or transitively) have been processed or filled in by default, every command present is processed exactly once per occurrence, and the processing order does not depend on the order of lines in the input file except among repetitions of the same command.", "quantifier": "for every command table and every input file", "why_tests_cant": "input files and command tables form an unbounded space", "anchors": ["jdftx/commands/parser.cpp: ProcessedCommandMap, getDependencies, parse, processDefaults"]}
{"id": "C19", "title": "Mutually exclusive commands are rejected", "statement": "If an input contains two commands of which one is declared to forbid the other, parsing reports an error and does not proceed, regardless of order in the file; commands that may not be repeated are rejected when repeated.", "quantifier": "for every command table and every input file", "why_tests_cant": "depends on all pairs and orders", "anchors": ["jdftx/commands/parser.cpp: safeProcess, getDependencies, parse", "jdftx/commands/command.cpp: Command::forbid"]}
{"id": "C20", "title": "Input line reading: comments, continuation and white space", "statement": "The commands seen by the parser depend only on the text with comments stripped, continuation lines joined and white space trimmed; trimming is idempotent and removes only leading and trailing white space.", "quantifier": "for every input text", "why_tests_cant": "all texts", "anchors": ["jdftx/commands/parser.cpp: readLine, readInputFile", "jdftx/core/string.h: trim"]}
{"id": "C21", "title": "Include files: cycles are detected and reading terminates", "statement": "Reading an input file with nested includes terminates for every file system content, reporting an error exactly when an include chain returns to a file already being read.", "quantifier": "for every finite include graph", "why_tests_cant": "unbounded graphs", "anchors": ["jdftx/commands/parser.cpp: readInputFile"]}
{"id": "C22", "title": "All MPI processes see the same commands", "statement": "The list of (command, parameters) pairs that the head process reads is received unchanged by every other process.", "quantifier": "for every list of commands and parameter strings (including multi-line values coming from environment variables)", "why_tests_cant": "all strings", "anchors": ["jdftx/commands/parser.cpp: readInputFile broadcast section", "jdftx/core/MPIUtil.cpp: string send/recv/bcast"]}
{"id": "C23", "title": "Environment variable substitution terminates and substitutes everything", "statement": "Substituting environment variables in an input line terminates and leaves no ${NAME} reference behind.", "quantifier": "for every line and every environment", "why_tests_cant": "all environments, including self-referential ones", "anchors": ["jdftx/commands/parser.cpp: environmentSubstitute"]}
{"id": "C24", "title": "Enumerated option names round trip", "statement": "Each option keyword maps to exactly one value and printing the value reproduces the keyword, so that the input echoed to the output file is a valid input with the same meaning.", "quantifier": "for every keyword table with distinct keywords and values, every value and every keyword, case-insensitively", "why_tests_cant": "all tables", "anchors": ["jdftx/core/Util.h: EnumStringMap"]}
{"id": "C25", "title": "Lattice vector reduction preserves the lattice", "statement": "Reducing lattice vectors returns an integer unimodular transformation: the reduced vectors generate the same lattice, the reported transmission and inverse transmission are inverse integer matrices, no reduced vector can be shortened by adding integer combinations in {-1,0,1} of the other two beyond the tolerance, and the process terminates.", "quantifier": "for every non-singular set of lattice vectors", "why_tests_cant": "all lattices", "anchors": ["jdftx/core/LatticeUtils.cpp: reduceLatticeVectors, reduceMatrix"]}
{"id": "C26", "title": "Periodic lookup finds exactly the equivalent points", "statement": "Looking up a point among a set of points with periodic boundary conditions returns a point only if it is equivalent within tolerance to the query modulo lattice translations, and returns one whenever such a point exists.", "quantifier": "for every point set, query and metric", "why_tests_cant": "boundary effects at the cell faces, all point sets", "anchors": ["jdftx/core/LatticeUtils.h: PeriodicLookup"]}
{"id": "C27", "title": "k-point folding generates the complete mesh with correct weights", "statement": "Folding k-points n1 x n2 x n3 produces exactly n1*n2*n3 k-points per original point, with total weight unchanged, all coordinates in the first interval, whose images under multiplication by the folding are congruent to the original points modulo integers, and no two of them congruent.", "quantifier": "for every list of k-points and every folding with positive counts", "why_tests_cant": "all meshes", "anchors": ["jdftx/electronic/ElecInfo.cpp: ElecInfo::kpointsFold, fmodPositive"]}
{"id": "C28", "title": "Spin expansion of the reduced k-points keeps weights normalised", "statement": "After symmetry reduction the k-points are expanded over spins: each k-point appears exactly once per spin channel with the same weight in each, and the total weight equals the number of spin channels times the spin weight (2 in total without spin or with z-spins, 1 for spinors) times the total weight of the k-points.", "quantifier": "for every list of k-points and each of the spin types", "why_tests_cant": "all lists", "anchors": ["jdftx/electronic/ElecInfo.cpp: ElecInfo::kpointsReduce, spinWeight in ElecInfo::setup"]}
{"id": "C29", "title": "Symmetry reduction of the k-mesh preserves Brillouin zone averages", "statement": "Reducing a k-mesh with the symmetry group keeps one representative per orbit, with weight equal to the sum of weights of the orbit, so that the sum of weights is unchanged and the average of any symmetric function is unchanged; the result does not depend on the number of processes.", "quantifier": "for every mesh, every finite symmetry group acting on it (with or without inversion) and every process count", "why_tests_cant": "all groups and meshes", "anchors": ["jdftx/electronic/Symmetries.cpp: Symmetries::reduceKmesh"]}
{"id": "C30", "title": "Smearing functions are consistent", "statement": "For each smearing type, occupations lie in [0,1] (or the documented range), decrease with energy, are symmetric about the chemical potential, the reported derivative is the derivative of the occupation, and the reported entropy is consistent with it: d(entropy)/d(energy) equals the energy-difference times d(occupation)/d(energy) up to the documented factor, so that the free energy is variational.", "quantifier": "for every eigenvalue, chemical potential and positive smearing width", "why_tests_cant": "identities over all reals", "anchors": ["jdftx/electronic/ElecInfo.cpp: smear, smearPrime, smearEntropy"]}
{"id": "C31", "title": "Chemical potential search conserves the electron number", "statement": "The bisection for the chemical potential always terminates with a bracket of the solution: the electron number at the returned value agrees with the target to within the variation over an interval of the stated tolerance.", "quantifier": "for every set of eigenvalues, weights, smearing and electron number strictly between 0 and the band capacity", "why_tests_cant": "all spectra", "anchors": ["jdftx/electronic/ElecInfo.cpp: findMu, nElectronsCalc"]}
{"id": "C32", "title": "Initial fillings hold exactly the requested number of electrons", "statement": "The initial occupations assigned at start-up are each between 0 and the maximum occupation and their weighted sum is exactly the number of electrons; when fillings read from a file have a different number of bands, the total electron count is preserved.", "quantifier": "for every number of electrons, bands, spin configuration and k-point weights", "why_tests_cant": "all combinations", "anchors": ["jdftx/electronic/ElecInfo.cpp: ElecInfo::setup"]}
{"id": "C33", "title": "State-resolved files are independent of the number of processes", "statement": "Quantities stored per k-point (fillings, eigenvalues, ...) written by a run with any number of processes and read by a run with any other number are restored at the same k-point.", "quantifier": "for every number of states, bands and every pair of process counts", "why_tests_cant": "all pairs of process counts", "anchors": ["jdftx/electronic/ElecInfo.cpp: ElecInfo::read, ElecInfo::write"]}
{"id": "C34", "title": "Space group operation algebra", "statement": "Composition of space group operations acts as the composition of the maps, inversion is a two-sided inverse, and composition is associative with the identity as unit.", "quantifier": "for every pair of integer rotation matrices with determinant +-1 and every translation", "why_tests_cant": "all operations", "anchors": ["jdftx/core/matrix3.h: SpaceGroupOp", "jdftx/core/matrix3.h: adjugate, det, inv"]}
{"id": "C35", "title": "Symmetrization is a projection", "statement": "Symmetrizing densities, forces, or stress tensors returns a quantity invariant under every operation of the group, leaves already symmetric quantities unchanged, and preserves the total charge / total force / trace-type invariants.", "quantifier": "for every finite group of operations and every input field", "why_tests_cant": "all groups and fields", "anchors": ["jdftx/electronic/Symmetries.cpp: Symmetries::symmetrize", "jdftx/core/BlasExtra_internal.h: eblas_symmetrize_calc, eblas_symmetrize_phase_calc"]}
{"id": "C36", "title": "Symmetry operations map the FFT mesh to itself when accepted", "statement": "If the FFT box check accepts the symmetries, every operation maps every sampled grid point to a sampled grid point, and the induced map on grid indices is a permutation.", "quantifier": "for every sample count and every accepted operation", "why_tests_cant": "all meshes and operations", "anchors": ["jdftx/electronic/Symmetries.cpp: Symmetries::checkFFTbox, initSymmIndex"]}
{"id": "C37", "title": "Plane wave basis contains exactly the plane waves below the cutoff", "statement": "The basis at a k-point contains every reciprocal lattice vector G with kinetic energy |k+G|^2/2 <= Ecut exactly once, and nothing else; rebuilding the integer coordinates from the stored FFT indices gives the same list, and the low-G head list is exactly the vectors with components in {-1,0,1}.", "quantifier": "for every lattice, k-point and cutoff", "why_tests_cant": "all lattices (skewed ones make the bounding box argument delicate)", "anchors": ["jdftx/electronic/Basis.cpp: Basis::setup"]}
{"id": "C38", "title": "Half / full reciprocal space conversions", "statement": "Expanding a real field's half-space coefficients to full space gives coefficients with Hermitian symmetry; converting back returns the original; the real and imaginary parts of a complex field recombine to that field; transferring a field between grids of different size keeps all coefficients representable on both and converting up then down is the identity.", "quantifier": "for every grid size (odd and even) and every field", "why_tests_cant": "all grids, fields", "anchors": ["jdftx/core/Operators_internal.h: RealG_calc, ImagG_calc, ComplexG_calc, changeGrid_calc", "jdftx/core/Operators.cpp: Real, Imag, Complex, changeGrid"]}
{"id": "C39", "title": "Quintic spline derivative and smoothness", "statement": "The derivative routine returns the exact derivative of the value routine inside each interval, and value, first, second, third and fourth derivatives are continuous across the sample points.", "quantifier": "for every coefficient array and every interior coordinate", "why_tests_cant": "identities over all reals", "anchors": ["jdftx/core/Spline.h: QuinticSpline::value, deriv, getBernsteinCoeffs"]}
{"id": "C40", "title": "Quintic spline passes through its samples", "statement": "A spline constructed from samples evaluates to those samples at the sample points, for both even and odd extension conventions (odd: with zero first sample).", "quantifier": "for every list of at least 5 samples", "why_tests_cant": "all sample lists", "anchors": ["jdftx/core/Spline.cpp: QuinticSpline::getCoeff", "jdftx/core/Spline.h: QuinticSpline::value"]}
{"id": "C41", "title": "Spline gradient propagation is the adjoint of evaluation", "statement": "Propagating a derivative with respect to the value at a point back to the spline coefficients gives exactly the partial derivatives of the value with respect to each coefficient.", "quantifier": "for every coordinate and coefficient array", "why_tests_cant": "identity over all reals", "anchors": ["jdftx/core/Spline.h: QuinticSpline::valueGrad"]}
{"id": "C42", "title": "Tetrahedron density of states integrates to the band weight", "statement": "Integrating the density of states contributed by one tetrahedron over all energies gives its volume times the mean of the weights at its corners, including degenerate corner energies; the cell tessellation into tetrahedra partitions the cell volume equally.", "quantifier": "for every four corner energies and weights", "why_tests_cant": "degenerate corner energies form a measure-zero set that sampling does not hit", "anchors": ["jdftx/electronic/TetrahedralDOS.cpp: accumTetrahedron, constructor"]}
{"id": "C43", "title": "DOS post-processing preserves the integral", "statement": "Merging energy intervals, converting piecewise cubic to piecewise linear tables and merging tables of several bands preserve the total integral of every weight function.", "quantifier": "for every collection of intervals and tables", "why_tests_cant": "all collections of intervals", "anchors": ["jdftx/electronic/TetrahedralDOS.cpp: coalesceIntervals, convertLspline, mergeLsplines, getDOS"]}
{"id": "C44", "title": "Welding nearly degenerate eigenvalues", "statement": "Welding replaces eigenvalues closer than the tolerance by a common value without changing the sum of all eigenvalues, keeps their order, and changes nothing if all gaps exceed the tolerance.", "quantifier": "for every list of eigenvalues and tolerance", "why_tests_cant": "all lists", "anchors": ["jdftx/electronic/TetrahedralDOS.cpp: weldEigenvalues"]}
{"id": "C45", "title": "Spin density and magnetization representations are inverse", "statement": "Converting spin densities to (total, magnetization) and back is the identity for unpolarized, collinear and noncollinear calculations, so mixing in either representation refers to the same density.", "quantifier": "for every spin density", "why_tests_cant": "all densities", "anchors": ["jdftx/electronic/SCF.cpp: fromSpinDensity, toSpinDensity", "jdftx/electronic/ExCorr_internal.h: loadSpinVector, accumSpinVectorGrad, spinDiagonalize_calc, spinDiagonalizeGrad_calc"]}
{"id": "C46", "title": "Solvation cavity shape functions are bounded, monotone and have exact gradients", "statement": "The cavity shape functions lie in [0,1], decrease with electron density, and the propagated gradients are the exact derivative of the shape function with respect to density.", "quantifier": "for every positive density and every positive parameter", "why_tests_cant": "identity over all reals", "anchors": ["jdftx/fluid/PCM_internal.h: ShapeFunction, ShapeFunctionSCCS, ShapeFunctionCANDLE, ShapeFunctionSoftSphere"]}
{"id": "C47", "title": "Nonlinear solvent response functions are consistent", "statement": "The free energy derivatives used for nonlinear dielectric and ionic response are the exact derivatives of the free energies, and the lookup inversions (bisections) return a bracketed solution.", "quantifier": "for every field strength / potential in range", "why_tests_cant": "identity over all reals", "anchors": ["jdftx/fluid/PCM_internal.h: NonlinearPCMeval::Screening, NonlinearPCMeval::Dielectric"]}
{"id": "C48", "title": "Hard sphere mixture functional derivatives are exact", "statement": "The accumulated gradients of the fundamental measure theory free energy density and of the bonding correction equal the partial derivatives of the returned energy density with respect to each weighted density, and the tensor contractions are the adjoints of their forward maps.", "quantifier": "for every set of weighted densities with packing fraction in (0,1)", "why_tests_cant": "identity over all reals", "anchors": ["jdftx/fluid/MixedFMT_internal.h: phiFMT_calc, phiBond_calc, mul_vTmv, trace_cubed, tensorKernel"]}
{"id": "C49", "title": "LDA exchange-correlation potentials are derivatives of the energy", "statement": "For every local density functional, the returned potential of each spin channel is the exact partial derivative of the returned energy density with respect to that spin density, the energy is symmetric under exchange of spins, and for equal spins the spin-polarized result equals the unpolarized one.", "quantifier": "for every pair of spin densities above the cutoff with partial polarization", "why_tests_cant": "identity over all reals", "anchors": ["jdftx/electronic/ExCorr_internal_LDA.h: LDA_calc, LDA_eval", "jdftx/electronic/ExCorr_internal.h: spinInterpolate, spinInterpolation"]}
{"id": "C50", "title": "Fluid equation of state derivatives are exact", "statement": "The excess free energy derivative returned by each scalar equation of state is the exact derivative of the returned free energy with respect to density.", "quantifier": "for every density in the physical range and every temperature", "why_tests_cant": "identity over all reals", "anchors": ["jdftx/fluid/Fex_ScalarEOS_internal.h: getAhs, JeffereyAustinEOS_eval, TaoMasonEOS_eval"]}
{"id": "C51", "title": "Coulomb kernel lattice derivatives are exact", "statement": "The lattice gradient (stress) of each analytic Coulomb or exchange kernel is the exact derivative of the kernel with respect to the reciprocal metric.", "quantifier": "for every reciprocal lattice vector and metric", "why_tests_cant": "identity over all reals", "anchors": ["jdftx/core/Coulomb_internal.h: CoulombPeriodic_calc, CoulombSlab_calc, CoulombSpherical_calc, CoulombIonKernel_calc, ExchangePeriodicScreened_calc, ExchangeSpherical_calc"]}
{"id": "C52", "title": "Euler angles round trip", "statement": "Converting Euler angles to a rotation matrix gives a proper orthogonal matrix, and converting a rotation matrix to Euler angles and back reproduces the matrix.", "quantifier": "for every rotation, including gimbal-locked ones", "why_tests_cant": "singular orientations have measure zero", "anchors": ["jdftx/fluid/Euler.h: matrixFromEuler, eulerFromMatrix, polarUnitVector"]}
{"id": "C53", "title": "Real space translation operators conserve particle number", "statement": "Translating a field by an arbitrary vector with constant or linear spline interpolation preserves the sum over grid points (times scale), translation by a grid vector is exact, and the adjoint operator used for gradients is the true adjoint.", "quantifier": "for every grid, field and translation", "why_tests_cant": "all translations", "anchors": ["jdftx/fluid/TranslationOperator_internal.h: wrappedIndex, constantSplineTaxpy, linearSplineTaxpy", "jdftx/fluid/TranslationOperator.cpp"]}
{"id": "C54", "title": "Matrix slicing reads and writes exactly the requested block", "statement": "Reading a strided sub-block after writing it returns what was written, entries outside the block are unchanged, out-of-range requests are rejected, and transposition / adjoint views agree with explicitly computed transposes.", "quantifier": "for every matrix size, range and stride", "why_tests_cant": "all ranges", "anchors": ["jdftx/core/matrixOperators.cpp: matrix::operator(), matrix::set, matrix::accum, dagger, transpose", "jdftx/core/matrix.h: matrixScaledTransOp, matrix::index"]}
{"id": "C55", "title": "Tiled block matrix products agree with dense products", "statement": "Multiplying by a block diagonal matrix of repeated tiles gives the same result as multiplying by the corresponding dense matrix, from the left and from the right.", "quantifier": "for every tile size (square or not), every number of tiles and every matrix", "why_tests_cant": "all shapes", "anchors": ["jdftx/core/matrixOperators.cpp: operator*(tiledBlockMatrix, matrix), operator*(matrix, tiledBlockMatrix)"]}
{"id": "C56", "title": "Threaded matrix multiplication equals the serial product", "statement": "Splitting a matrix product over threads along its larger dimension computes every output element exactly once, with the same value as the serial product, for all transposition options and leading dimensions.", "quantifier": "for every matrix shape, every transposition option and every thread count", "why_tests_cant": "all shapes, schedules", "anchors": ["jdftx/core/BlasExtra.cpp: eblas_zgemm, eblas_zgemm_sub"]}
{"id": "C57", "title": "Printed energy components add up to the total", "statement": "The value of an energy container is the sum of its components, components merged when printing preserve that sum, and accumulating into a component or into the container as a whole changes the total by exactly the amount accumulated.", "quantifier": "for every set of component names and values", "why_tests_cant": "all names", "anchors": ["jdftx/core/EnergyComponents.h: EnergyComponents"]}
{"id": "C58", "title": "Checksum used to identify hosts and files is standard CRC-32", "statement": "The table driven checksum equals the bitwise CRC-32 definition for every byte sequence.", "quantifier": "for every byte string", "why_tests_cant": "all byte strings", "anchors": ["jdftx/core/Util.cpp: crc32"]}
{"id": "C59", "title": "Integer helper functions agree with their mathematical definitions", "statement": "The positive remainder, wrapped index, ceiling division, multiple rounding and greatest common divisor helpers return the mathematically defined value for all integers in range, including negative ones.", "quantifier": "for every integer argument in range", "why_tests_cant": "all integers", "anchors": ["jdftx/core/Util.h: positiveRemainder", "jdftx/core/scalar.h: ceildiv, floorMultiple", "jdftx/core/vector3.h: gcd, gcdReduce", "jdftx/fluid/TranslationOperator_internal.h: wrappedIndex"]}
{"id": "C60", "title": "Errors raised on any process are seen by all", "statement": "If any process of a communicator records an error message, all processes stop, each printing every failing process' message, in order of rank; if none does, none stops.", "quantifier": "for every number of processes and every assignment of messages", "why_tests_cant": "all assignments", "anchors": ["jdftx/core/MPIUtil.cpp: MPIUtil::checkErrors"]}
{"id": "C61", "title": "Ionic constraints are projections", "statement": "Constraining atomic displacements removes every forbidden component (planar, linear, and hyperplane constraints and zero net force), leaves already allowed displacements unchanged, and is idempotent.", "quantifier": "for every displacement and every set of constraints", "why_tests_cant": "all constraint sets, including non-orthogonal hyperplanes", "anchors": ["jdftx/electronic/IonicMinimizer.cpp: IonicMinimizer::constrain", "jdftx/electronic/SpeciesInfo.cpp: SpeciesInfo::Constraint::operator()"]}
{"id": "C62", "title": "Molecular dynamics integrator is time reversible and averages correctly", "statement": "Without thermostat, running n steps, reversing velocities and running n more steps returns to the initial positions and reversed velocities; total momentum is conserved by forces that sum to zero; the accumulated density is the arithmetic mean of the densities at the visited steps.", "quantifier": "for every force field, initial state, time step and number of steps", "why_tests_cant": "all force fields and trajectory lengths", "anchors": ["jdftx/electronic/IonicDynamics.cpp: IonicDynamics::run"]}
{"id": "C63", "title": "Trial steps compose additively", "statement": "Moving along a direction by alpha and then by beta leaves the state at the same place as moving by alpha+beta, and moving by -alpha undoes a move by alpha, as all line minimizers assume, for ionic and for lattice degrees of freedom.", "quantifier": "for every state, direction and pair of step sizes", "why_tests_cant": "all states and directions", "anchors": ["jdftx/electronic/IonicMinimizer.cpp: IonicMinimizer::step", "jdftx/electronic/LatticeMinimizer.cpp: LatticeMinimizer::step"]}
{"id": "C64", "title": "Reduction to the Wigner-Seitz cell", "statement": "Reducing a point to the Wigner-Seitz cell terminates, returns a point that differs from the input by a lattice vector, lies within the cell up to tolerance, and is never farther from the origin than the input.", "quantifier": "for every lattice and point", "why_tests_cant": "termination and all points", "anchors": ["jdftx/core/WignerSeitz.h: WignerSeitz::reduce"]}
{"id": "C65", "title": "Gradient and divergence operators are adjoint", "statement": "In reciprocal space, divergence is minus the adjoint of gradient, tensor divergence is the adjoint of tensor gradient under the full tensor contraction, and packing a matrix to a symmetric traceless tensor and unpacking is the orthogonal projection.", "quantifier": "for every wave vector and field", "why_tests_cant": "identity over all reals", "anchors": ["jdftx/core/Operators_internal.h: gradient_calc, divergence_calc, tensorGradient_calc, tensorDivergence_calc", "jdftx/core/tensor3.h: tensor3"]}
{"id": "C66", "title": "Inner products and sums of half-space fields", "statement": "The dot product of two real fields and the sum of a real field, evaluated from the stored half of their Fourier coefficients, equal the sums over all grid points of reciprocal space.", "quantifier": "for every grid size and every pair of real fields", "why_tests_cant": "all grid sizes including odd ones, all fields", "anchors": ["jdftx/core/Operators.cpp: dot(const ScalarFieldTilde&, const ScalarFieldTilde&), sum(const ScalarFieldTilde&)"]}
{"id": "C67", "title": "Gradient-corrected exchange-correlation potentials are the same on all processes", "statement": "The exchange-correlation potential obtained by propagating derivatives with respect to the gradient contractions back to the density is the exact derivative, and is the same on every process however the three directions are divided over processes.", "quantifier": "for every density, functional derivative and number of processes, unpolarized, collinear and noncollinear", "why_tests_cant": "all process counts, all densities", "anchors": ["jdftx/electronic/ExCorr.cpp: ExCorr::operator()"]}
{"id": "C68", "title": "Spinor rotations represent the crystal rotations", "statement": "The spinor transformation built from the Euler angles of a symmetry operation is unitary with determinant one, rotates spin vectors by the proper part of the operation, ignores inversion, and maps products of operations to products of spinor matrices up to sign.", "quantifier": "for every orthogonal matrix further than the gimbal lock tolerance from the lock, or exactly locked", "why_tests_cant": "all rotations, real trigonometry", "anchors": ["jdftx/electronic/Symmetries.cpp: Symmetries::getSpinorRotation", "jdftx/fluid/Euler.h: eulerFromMatrix", "jdftx/core/matrix3.h: rotation"]}
{"id": "C69", "title": "Vibration modes span the allowed displacements", "statement": "The displacement modes generated for an atom from its constraint form an orthonormal basis of exactly the displacements which the constraint allows.", "quantifier": "for every constraint that the vibrations module accepts", "why_tests_cant": "all real constraint directions, including ones along coordinate axes", "anchors": ["jdftx/electronic/Vibrations.cpp: Vibrations::calculate", "jdftx/electronic/ion.cpp: SpeciesInfo::Constraint::getDimension"]}
{"id": "C70", "title": "Fixed lattice vectors and symmetries survive lattice minimization", "statement": "Along any sequence of lattice steps in constrained directions, lattice vectors designated as fixed do not change, and every symmetry operation stays the same cartesian rotation.", "quantifier": "for every lattice, symmetry group commensurate with the fixed directions, sequence of step sizes and unconstrained directions, with or without the isotropic constraint", "why_tests_cant": "all lattices, groups and paths", "anchors": ["jdftx/electronic/LatticeMinimizer.cpp: LatticeMinimizer::constrain, LatticeMinimizer::step, LatticeMinimizer::LatticeMinimizer"]}
{"id": "C71", "title": "Safe lattice step stays within the allowed strain", "statement": "The safe step size is found in finitely many halvings, is positive, and a step of that size leaves the strain within the maximum allowed.", "quantifier": "for every strain below the maximum and every non-zero direction", "why_tests_cant": "termination and a real inequality over all matrices", "anchors": ["jdftx/electronic/LatticeMinimizer.cpp: LatticeMinimizer::safeStepSize, LatticeMinimizer::step, LatticeMinimizer::compute"]}
{"id": "C72", "title": "Supercell cell map is a partition of unity", "statement": "The map of unit cells in the Wigner-Seitz supercell contains each cell once with weights between 0 and 1, its weights over any set of equivalent cells add up to one for every pair of sites, so that sums of supercell-periodic functions are reproduced exactly, and exchanging the two sets of sites reverses cells and transposes weights.", "quantifier": "for every lattice, integer supercell, sets of sites, smoothing width and truncated directions", "why_tests_cant": "all lattices and supercells, real geometry, a run-time assertion that must never fail", "anchors": ["jdftx/core/LatticeUtils.cpp: getCellMap", "jdftx/core/vector3.h: round"]}
{"id": "C73", "title": "Embedding spreads every mesh point evenly over its images", "statement": "Embedding a periodic mesh in the doubled mesh of truncated Coulomb interactions divides the value of every mesh point equally among its images in the closed Wigner-Seitz cell and sets all other points to zero; shrinking averages over the images; the two maps are adjoint and the integral is conserved, whatever the order in which threads collect the boundary points.", "quantifier": "for every lattice, truncation geometry, sample counts and field", "why_tests_cant": "all lattices and mesh sizes, thread schedules", "anchors": ["jdftx/core/Coulomb.cpp: Coulomb::Coulomb, setEmbedIndex_sub, setEmbedBoundarySymm_sub, Coulomb::embedExpand, Coulomb::embedShrink, boundarySymmetrize", "jdftx/core/WignerSeitz.h: WignerSeitz::onBoundary", "jdftx/core/BlasExtra.cpp: eblas_symmetrize"]}
{"id": "C74", "title": "Nonlinear conjugate gradients are exact on quadratic energies", "statement": "On a quadratic energy with symmetric positive definite Hessian and preconditioner, the minimizer with the quadratic line search and any of the conjugate gradient schemes follows the linear conjugate gradient solver state by state, and so converges within as many line minimizations as there are dimensions.", "quantifier": "for every vector space, Hessian, preconditioner, starting point and step size settings with reduce factor times increase factor at most one", "why_tests_cant": "all dimensions and operators; equivalence of two loops with different bookkeeping", "anchors": ["jdftx/core/Minimize.h: Minimizable::minimize, LinearSolvable::solve", "jdftx/core/Minimize_linmin.h: MinimizePrivate::linminQuad"]}
{"id": "C75", "title": "Dispersion energies are sums over all neighbours", "statement": "The pairwise dispersion energy (DFT-D2, its Lennard-Jones variant, and DFT-D3 with either damping) and the coordination numbers of DFT-D3, computed with half of the neighbouring cells, weights and a division of cells over processes, equal half the sum over all ordered pairs of an atom and an image of an atom in the sampled box, within the cutoff and without self-interaction, of the published pair potential.", "quantifier": "for every lattice, set of atoms, parameters and number of processes", "why_tests_cant": "all geometries and process counts, real transcendental functions", "anchors": ["jdftx/electronic/VanDerWaalsD2.cpp: vdwPairEnergyAndGrad, VanDerWaalsD2::energyAndGrad", "jdftx/electronic/VanDerWaalsD3.cpp: VanDerWaalsD3::energyAndGrad, VanDerWaalsD3::computeCN, VanDerWaalsD3::setNeighborSampling"]}
{"id": "C76", "title": "Dispersion forces and stresses are derivatives of the energy", "statement": "The forces and lattice derivative returned by the dispersion corrections are the derivatives of the returned energy with respect to atom positions and strain, including in DFT-D3 the dependence of the coefficients on coordination numbers; the forces add up to zero and the lattice derivative is symmetric.", "quantifier": "for every lattice, set of atoms, parameters, division over processes, displacement and strain", "why_tests_cant": "derivatives at all geometries, chain rule through coordination numbers", "anchors": ["jdftx/electronic/VanDerWaalsD2.cpp: vdwPairEnergyAndGrad, VanDerWaalsD2::energyAndGrad", "jdftx/electronic/VanDerWaalsD3.cpp: VanDerWaalsD3::energyAndGrad, VanDerWaalsD3::propagateCNgradient, vdWpotential, vdWpotentialBJ, D3::AtomParams::getL"]}
{"id": "C77", "title": "Dispersion parameters and neighbour sampling", "statement": "The matrix of reference coefficients of a pair of species holds for each pair of reference states the coefficient tabulated for them, the interpolation weights form a partition of unity, all images within the cutoff lie in the sampled box, and the radial functions for fluid sites belong to the parameters of the species they are requested for.", "quantifier": "for every pair of species, coordination number, lattice and cutoff, and sequence of requests", "why_tests_cant": "all tables, lattices and call histories", "anchors": ["jdftx/electronic/VanDerWaalsD3.cpp: D3::getAtomParams, D3::getPairParams, D3::AtomParams::getL, VanDerWaalsD3::setNeighborSampling", "jdftx/electronic/VanDerWaalsD2.cpp: VanDerWaalsD2::getParams, VanDerWaalsD2::getRadialFunction"]}
{"id": "C78", "title": "Extended-system dynamics conserve their energies", "statement": "Along any solution of the equations of motion that the Verlet steps integrate with the accelerations of the thermostat and barostat functions, the energy of the ions plus that of the Nose-Hoover chain is conserved; with a barostat so is that plus the work done against the target stress, the kinetic energy of the cell and the energy of the barostat chain, with one strain for a hydrostatic barostat and n(n+1)/2 strains for n free directions otherwise.", "quantifier": "for every set of atoms, masses, constraints, symmetries, chain lengths, damping times, targets and trajectory", "why_tests_cant": "continuous trajectories of arbitrary systems; conserved only in the limit of small time steps in a run", "anchors": ["jdftx/electronic/IonicDynamics.cpp: IonicDynamics::thermostat, IonicDynamics::computePressure, IonicDynamics::computeKE, IonicDynamics::IonicDynamics"]}
{"id": "C79", "title": "Thermostats, barostats and degrees of freedom", "statement": "The Berendsen thermostat relaxes the kinetic energy towards half the number of degrees of freedom times the target temperature with the damping time, the Berendsen barostat relaxes the pressure towards its target with the damping time, initial velocities have the target temperature and obey all constraints, stored velocities are recovered, the corrector averages the velocity-dependent accelerations, and the number of degrees of freedom is the dimension of the space of allowed velocities.", "quantifier": "for every set of atoms, masses, constraints, symmetries, random numbers and targets", "why_tests_cant": "all systems and real-valued trajectories; dimension counting for all constraint combinations", "anchors": ["jdftx/electronic/IonicDynamics.cpp: IonicDynamics::IonicDynamics, IonicDynamics::initializeVelocities, IonicDynamics::getVelocities, IonicDynamics::setVelocities, IonicDynamics::thermostat, IonicDynamics::run", "jdftx/electronic/Everything.cpp: Everything::setup", "jdftx/electronic/IonicMinimizer.cpp: IonicMinimizer::constrain"]}
{"id": "C80", "title": "Forces and stresses of the periodic Ewald sum", "statement": "The forces and lattice derivative returned by the Ewald sum of a periodic system are the derivatives of the returned energy with respect to the positions of the atoms and the strain of the lattice.", "quantifier": "for every lattice, set of atoms and charges, width, sampling boxes, displacement and strain", "why_tests_cant": "derivatives at all geometries of sums of transcendental functions", "anchors": ["jdftx/core/CoulombPeriodic.cpp: EwaldPeriodic::energyAndGrad"]}
{"id": "C81", "title": "The periodic Ewald sum is that of the textbook", "statement": "The energy of a periodic system returned by the Ewald sum is the textbook formula (screened sum over images without self-interaction, sum over nonzero reciprocal lattice vectors, self energy and neutralising background) for the atoms translated into the home cell; energy, forces and lattice derivative do not change when atoms are translated by lattice vectors; the forces add up to zero and the lattice derivative is symmetric.", "quantifier": "for every lattice, set of atoms and charges, width, sampling boxes and translations", "why_tests_cant": "all geometries and real-valued sums", "anchors": ["jdftx/core/CoulombPeriodic.cpp: EwaldPeriodic::energyAndGrad"]}
{"id": "C82", "title": "Ewald sums reach far enough", "statement": "Every image of an atom that the Ewald sums leave out is further away than nSigmasPerWidth Gaussian widths plus the spacing of some family of lattice planes, every reciprocal lattice vector left out is longer than nSigmasPerWidth inverse widths plus the spacing along some lattice vector, and the factors erfc and exp of the terms left out are below 2^-59; for slabs the same holds for the in-plane images and reciprocal vectors, and only those are sampled.", "quantifier": "for every lattice, set of atoms, width and term left out", "why_tests_cant": "infinitely many terms, all skewed lattices", "anchors": ["jdftx/core/CoulombPeriodic.cpp: EwaldPeriodic::EwaldPeriodic", "jdftx/core/CoulombSlab.cpp: EwaldSlab::EwaldSlab", "jdftx/core/CoulombKernel.cpp: CoulombKernel::nSigmasPerWidth"]}
{"id": "C83", "title": "The Ewald sum of slabs", "statement": "For a slab the forces and lattice derivative returned by the Ewald sum are the derivatives of the returned energy; the energy is that of the two-dimensional Ewald formula up to the terms dropped where the product of the reciprocal vector and the height difference exceeds 100, which are bounded; it does not change when atoms are translated by lattice vectors, the forces add up to zero, the lattice derivative is symmetric, and it stops only if two atoms are less than the margin from half a cell apart.", "quantifier": "for every lattice, truncated direction, set of atoms and charges, width, margin, sampling boxes, displacement and strain", "why_tests_cant": "derivatives at all geometries of sums of transcendental functions; overflow guards", "anchors": ["jdftx/core/CoulombSlab.cpp: EwaldSlab::energyAndGrad"]}
{"id": "C84", "title": "Isolated ions, electric fields and embedding of ions", "statement": "The energy of isolated ions is Coulomb's law for the atoms next to the first one, ions that pass the margin check are that far from the boundary, the electric field adds the energy of a potential that is linear in truncated and periodic in periodic directions, the double-cell embedding computes the same energies and forces for the ions in the embedded cell and moves atoms by lattice vectors only, and in all of these the forces and lattice derivative are the derivatives of the energy.", "quantifier": "for every lattice, set of atoms and charges, field, truncated directions, displacement and strain", "why_tests_cant": "derivatives at all geometries; composition of coordinate changes", "anchors": ["jdftx/core/CoulombIsolated.cpp: EwaldIsolated::energyAndGrad", "jdftx/core/Coulomb.cpp: Coulomb::energyAndGrad, CoulombParams::splitEfield, Coulomb::getEfieldPotential"]}
{"id": "C85", "title": "Lattice derivative of the exchange energy", "statement": "The lattice gradient of the exchange kernel applied to a pair density, including the derivative of its G=0 value and of the probe-charge correction of the k-point supercell, is the derivative of the exchange energy of that pair density with respect to the strain of the lattice.", "quantifier": "for every lattice, supercell, grid, pair density, k-point difference, screening and strain", "why_tests_cant": "derivatives at all geometries of sums of transcendental functions", "anchors": ["jdftx/core/Coulomb_ExchangeEval.cpp: ExchangeEval::operator(), ExchangeEval::latticeGradient, ExchangeEval::ExchangeEval", "jdftx/core/Coulomb_internal.cpp: exchangeAnalytic_thread, exchangeAnalyticStress_thread"]}
{"id": "C86", "title": "Singularity corrections of the exchange kernels", "statement": "The probe-charge energy is the interaction of a unit charge with its images up to terms below 2^-59, with its exact lattice derivative; the wave vector of the auxiliary function is periodic in reciprocal space, non-negative, zero exactly on reciprocal lattice vectors and quadratic around them, and the auxiliary function has the same singularity and limits as the kernel; with the computed correction the sum over the k-mesh is the integral times the number of points; and the finite difference over the six strains recovers a symmetric derivative.", "quantifier": "for every lattice, wave vector, screening parameter, k-mesh and sampling box", "why_tests_cant": "limits, infinitely many neglected terms, all lattices", "anchors": ["jdftx/core/Coulomb_ExchangeEval.cpp: effGsq, fSingular3D, fSingular2D, getAuxiliaryFunctionVzero, ExchangeEval::ExchangeEval", "jdftx/core/Coulomb_internal.h: erf_by_x, erf_by_xPrime_by_x"]}
{"id": "C87", "title": "Exchange kernel of the k-point supercell", "statement": "The exchange kernel computed on the reciprocal mesh of the k-point supercell is taken apart into one kernel per k-point difference without losing or mixing samples, a pair of k-points uses the kernel of the reduced difference that is equivalent to it, and the shift by the reciprocal lattice vector left over reads the kernel at the physical wave vector of each plane wave.", "quantifier": "for every supercell matrix, sample counts, k-point differences and grid", "why_tests_cant": "integer lattices of every shape and index arithmetic at grid edges", "anchors": ["jdftx/core/Coulomb_ExchangeEval.cpp: extractExchangeKernel_thread, multTransformedKernel, ExchangeEval::ExchangeEval", "jdftx/core/Coulomb_internal.h: multTransformedKernel_calc"]}
{"id": "C88", "title": "Division of exchange work among processes", "statement": "Every band of every reduced k-point is assigned to exactly one process as part of a range of consecutive bands, every range is inside the bands of an existing state, and the estimated cost of a process exceeds the average by less than the cost of the most expensive band.", "quantifier": "for every number of processes, bands and states and every positive cost", "why_tests_cant": "all combinations of counts and costs", "anchors": ["jdftx/electronic/ExactExchange.cpp: ExactExchangeEval::ExactExchangeEval"]}
{"id": "C89", "title": "Symmetry reduction of k-point pairs in exchange", "statement": "The transforms kept for a pair of reduced k-points are exactly the distinct net transforms of the pairs of mesh points that reduce to it, with multiplicities that add up to the number of such pairs; the weights of a state add up to its share of the mesh and all weights to the spin weight; the wave vector transferred in a transformed pair is equivalent to the one of the original pair of mesh points rotated back, and exchanging the two points inverts the transform.", "quantifier": "for every mesh, choice of symmetry operations and threshold", "why_tests_cant": "all meshes and symmetry groups", "anchors": ["jdftx/electronic/ExactExchange.cpp: Kmesh::score, ExactExchangeEval::ExactExchangeEval"]}
{"id": "C90", "title": "Messages that redistribute wavefunctions for exchange", "statement": "The messages that a process sends to another are those that the other posts receives for, in the same order, and every message posted is waited for before the data is used or overwritten.", "quantifier": "for every number of processes, division of bands and ownership of states", "why_tests_cant": "depends on the progress of the message passing library", "anchors": ["jdftx/electronic/ExactExchange.cpp: ExactExchangeEval::compute"]}
{"id": "C91", "title": "Gradient with respect to the auxiliary Hamiltonian under constraints on charge and magnetization", "statement": "The gradient with respect to the eigenvalues of the auxiliary Hamiltonian is the derivative of the free energy along every change of the eigenvalues that keeps the constraints on the number of electrons, the magnetization, the chemical potential or the magnetic field, and the reported entropy and field energy are those of the occupations.", "quantifier": "for every number of states and bands, spin, weights, smearing function and width, and every differentiable path", "why_tests_cant": "derivatives along arbitrary constrained paths of transcendental functions", "anchors": ["jdftx/electronic/ElecVars.cpp: ElecVars::elecEnergyAndGrad", "jdftx/electronic/ElecInfo.cpp: ElecInfo::updateFillingsEnergies, ElecInfo::smearGrad"]}
{"id": "C92", "title": "Functions of Hermitian and unitary matrices and their gradients", "statement": "Powers, inverse square roots, complex exponentials and logarithms of matrices depend only on the matrix and not on the eigenvectors used, obey the laws of the scalar functions, report a singular matrix exactly when there is one, and the gradient routines propagate the gradient with respect to the function to the gradient with respect to the matrix; the orthonormalization matrix makes the wavefunctions orthonormal.", "quantifier": "for every matrix size, matrix, exponent and choice of eigenvectors, and every differentiable path of matrices", "why_tests_cant": "matrices of every size with degenerate eigenvalues, and derivatives", "anchors": ["jdftx/core/matrixLinalg.cpp: pow, invsqrt, cis, cisInv, sqrt_grad, cis_grad, orthoMatrix", "jdftx/core/matrixOperators.cpp: dagger_symmetrize"]}
{"id": "C93", "title": "Gradients of the electronic energy", "statement": "The projected wavefunction gradient, the gradient with respect to the auxiliary Hamiltonian and the subspace gradient for constant fillings are the derivatives of the energy or free energy along every constrained search direction, through orthonormalization, diagonalization and rotation.", "quantifier": "for every basis, number of bands, overlap operator, Hamiltonian, fillings, smearing function, weight and direction", "why_tests_cant": "derivatives through matrix factorizations in every direction", "anchors": ["jdftx/electronic/ElecVars.cpp: ElecVars::elecEnergyAndGrad, ElecVars::orthonormalize", "jdftx/electronic/ElecMinimizer.cpp: ElecMinimizer::compute, ElecMinimizer::step, ElecMinimizer::constrain"]}
{"id": "C94", "title": "Steps of the electronic minimizer", "statement": "However a line search is divided into steps, the wavefunctions stay orthonormal, the accumulated rotations and their inverses match, the space of the occupied states and the auxiliary Hamiltonian depend only on the total length, and the gradients given to the line search at every point of the line are the derivatives along it.", "quantifier": "for every sequence of steps, basis, overlap operator and direction", "why_tests_cant": "sequences of steps of any length with arbitrary matrices", "anchors": ["jdftx/electronic/ElecMinimizer.cpp: ElecMinimizer::ElecMinimizer, ElecMinimizer::step, ElecMinimizer::compute, ElecMinimizer::report"]}
{"id": "C95", "title": "Exchange energy and Hamiltonian of pairs of states", "statement": "The exchange energy summed over pairs of bands is half the expectation value of the Hamiltonian returned with it, that Hamiltonian is one Hermitian semi-definite operator applied to every band whether occupied or not, nothing depends on the division of the bands into blocks, and in RPA mode a pair carries the smaller of its fillings.", "quantifier": "for every basis, grid, number of bands, spinor components and k-point pairs, block size, fillings, weights and Coulomb kernel", "why_tests_cant": "sums over pairs of bands of every size with arbitrary wavefunctions and kernels", "anchors": ["jdftx/electronic/ExactExchange.cpp: ExactExchangeEval::computePair, ExactExchangeEval::compute"]}
{"id": "C96", "title": "Compressed exchange operator", "statement": "The compressed exchange operator built from any orbitals, dependent or not, equals the exchange operator on their span and depends only on that span, never exceeds the exchange operator elsewhere, gives the energy and Hamiltonian of the full computation for every prefactor, reports a singularity exactly when there is one, and is used exactly when prepared for the same range separation.", "quantifier": "for every basis, number of orbitals, orbitals, semi-definite exchange operator, fillings and choice of eigenvectors", "why_tests_cant": "matrices of every size, including singular ones", "anchors": ["jdftx/electronic/ExactExchange.cpp: ExactExchange::prepareHamiltonian, ExactExchange::applyHamiltonian, ExactExchange::operator()"]}
{"id": "C97", "title": "Symmetrized force matrices of phonons", "statement": "dgradSymmetrize returns the force matrix nearest to the computed one among those symmetric under exchange of the two displacements and without net force, and leaves such matrices alone; numbering of cells round-trips; remapping with the weights of the cell map keeps both conditions, every cell is paired with its opposite, and omegaSq is Hermitian at every wavevector with the rigid translations as zero modes at the zone centre.", "quantifier": "for every supercell, number of atoms, force matrix, masses, wavevector and cell map meeting C72", "why_tests_cant": "discrete Fourier transforms and projections of every size with arbitrary real forces", "anchors": ["jdftx/phonon/Phonon.cpp: Phonon::dgradSymmetrize, Phonon::getCell, Phonon::getUnit, Phonon::forceMatrixHermCheck, Phonon::dump"]}
{"id": "C98", "title": "Correction of the first moment of the force matrix", "statement": "After forceMatrixGammaPrimeFix the first derivative at the zone centre of the force between uniform displacements vanishes along every direction, the matrix is still symmetric and without net force, a matrix that meets this already is unchanged, and the correction exists whenever the supercell is periodic.", "quantifier": "for every lattice, atoms, supercell, cell map with weights as in C72, truncation and force matrix without net force", "why_tests_cant": "sums over cells and atoms with arbitrary weights; singular cases need exact arithmetic", "anchors": ["jdftx/phonon/Phonon.cpp: Phonon::forceMatrixGammaPrimeFix"]}
{"id": "C99", "title": "Brillouin zone quadrature and vibrational free energies", "statement": "The quadrature has positive weights of total one on points within the Brillouin zone, none at the zone centre, symmetric under inversion, with zero coordinates along truncated directions; A is -T log of the partition function summed over modes, E - A is T times the entropy -dA/dT, A <= ZPE <= E; the strongest imaginary frequency is reported with its wavevector, and nothing is reported when there is none.", "quantifier": "for every set of truncated directions, temperature, list of wavevectors with weights and eigenvalues", "why_tests_cant": "infinite sums, derivatives and arbitrary spectra", "anchors": ["jdftx/phonon/Phonon.cpp: Phonon::getQuadratureBZ, addQuadratureBZ_scale, addQuadratureBZ_box, Phonon::dump"]}
{"id": "C100", "title": "Real spherical harmonics are orthonormal solid harmonics", "statement": "For every degree l up to 6 and order m, Ylm(l,m,.) is a homogeneous polynomial of degree l with zero Laplacian. Different harmonics integrate to exactly zero over the unit sphere, each squared harmonic integrates to one within the rounding of its decimal constants, and the sum of products over the orders of one degree is (2l+1)/(4 pi) times the Legendre polynomial of the angle.", "quantifier": "All 49 harmonics and all pairs of them, all vectors (homogeneity, Laplacian), all pairs of unit vectors (addition theorem), the integral over the whole sphere", "why_tests_cant": "The formulas are generated and hand-tweaked with 16-digit constants; a wrong coefficient or sign in a high order shows up only for special geometries, and tests sample points instead of integrating.", "anchors": ["jdftx/core/SphericalHarmonics.h: YlmInternal::Ylm, Ylm"]}
{"id": "C101", "title": "Products of spherical harmonics expand in spherical harmonics", "statement": "expandYlmProd lists degrees, orders and coefficients with Ylm(l1,m1) Ylm(l2,m2) = sum of coefficient times harmonic on the unit sphere; every listed term obeys the triangle rule and is nonzero, and the list does not depend on the order of the factors.", "quantifier": "All pairs of harmonics with degree up to 3 (256 pairs) and all unit vectors; symmetry for all indices", "why_tests_cant": "The table has 136 generated cases; a wrong term biases augmentation charges by a small amount that no energy test isolates.", "anchors": ["jdftx/core/SphericalHarmonics.h: expandYlmProd"]}
{"id": "C102", "title": "The derivative of a spherical harmonic is the gradient of its polynomial", "statement": "YlmPrime(l,m,q) is the gradient of Ylm(l,m,.) with respect to the Cartesian components of its argument.", "quantifier": "All 49 harmonics, all unit vectors", "why_tests_cant": "The derivative is assembled from harmonics of lower degree with special cases for m = 0 and |m| = 1; tests of forces and stresses need projectors of every l and m in generic directions to see each branch.", "anchors": ["jdftx/core/SphericalHarmonics.h: YlmPrime"]}
{"id": "C103", "title": "Spherical Bessel functions match their definition", "statement": "bessel_jl(l,x) is the spherical Bessel function j_l(x): the closed forms for large arguments are exact, and the truncated series for small ones stays within 4e-15 of the leading term; the function has parity (-1)^l and the right value at zero.", "quantifier": "All real x and all degrees l up to 6", "why_tests_cant": "The formulas switch at a degree-dependent crossover; a wrong coefficient in a high degree or a series cut too early is a small smooth error that radial-transform tests do not separate from quadrature error.", "anchors": ["jdftx/core/SphericalHarmonics.h: bessel_jl"]}
{"id": "C104", "title": "MINRES tracks the true residual and minimises it", "statement": "In LinearSolvableIndefinite::MINRES the running number rho is the norm of the scaled residual Ksqrt(-b - A Ksqrt y) of the current state y, it never increases, y minimises this norm over the Krylov space built so far, and convergence is reported only if the returned solution has a relative residual below the tolerance. A solvable system is solved within as many iterations as the space has dimensions.", "quantifier": "All real inner product spaces, all symmetric A and Ksqrt (also indefinite A), all right hand sides, starting states, parameters and interruptions; all iterations", "why_tests_cant": "The recurrences never recompute the residual: an error in one of the Givens rotation coefficients still produces decreasing numbers, so the log looks right while the solution is wrong.", "anchors": ["jdftx/perturb/LinearSolver.h: LinearSolvableIndefinite::MINRES"]}
{"id": "C105", "title": "Radial quadrature weights integrate natural splines exactly", "statement": "RadialFunctionR::initWeights gives weights dr such that the sum of f_j r_j^2 dr_j is the integral of r^2 times the natural cubic spline through the samples, from the origin to the last location, the spline being continued by its tangent before the first location. Hence linear functions are integrated exactly. The tridiagonal elimination never divides by zero.", "quantifier": "for every number of samples, every increasing set of locations and every set of sample values", "why_tests_cant": "The weights come from a tridiagonal solution for each location followed by a closed formula for each interval. A test compares a few smooth functions with tolerances that hide a wrong coefficient.", "anchors": ["jdftx/core/RadialFunction.cpp: RadialFunctionR_initWeights_sub", "jdftx/core/RadialFunction.cpp: RadialFunctionR::initWeights"]}
{"id": "C106", "title": "Radial Bessel transforms are Simpson integrals", "statement": "RadialFunctionR::transform computes 4 pi times the integral of r^2 f(r) j_l(G r). On a logarithmic grid it is the composite Simpson rule in ln r: any cubics in ln r through the integrand at successive triples of samples are integrated exactly.", "quantifier": "for every grid, every set of sample values, every degree and every wavevector", "why_tests_cant": "The alternating factors depend on the parity of the index and of the number of samples, and on the origin of the weights. Tests use one grid of each kind.", "anchors": ["jdftx/core/RadialFunction.cpp: RadialFunctionR::transform", "jdftx/core/RadialFunction.cpp: RadialFunctionR::RadialFunctionR", "jdftx/fluid/Molecule.cpp: Molecule::Site::setup"]}
{"id": "C107", "title": "Potentials of gradient-corrected exchange and kinetic functionals", "statement": "For PBE, PBEsol and PW91 exchange and for the von Weizsacker and PW91 kinetic functionals, GGA_calc adds to E_n and E_sigma the derivatives of what it adds to E, with one or two spin channels. Without a gradient the local functionals are recovered, the von Weizsacker energy density is |grad n|^2/(8n), PBE exchange lies between 1 and 1.804 times local exchange, and one and two spin channels agree for an unpolarized density.", "quantifier": "for every functional, scale factor, pair of spin densities, gradient contractions and direction of change", "why_tests_cant": "The chain rule through rs, s2 and the enhancement factors is written by hand. Finite-difference tests sample a few densities and their tolerances hide terms that are small there.", "anchors": ["jdftx/electronic/ExCorr_internal_GGA.h: GGA_calc", "jdftx/electronic/ExCorr_internal_GGA.h: GGA_PBE_exchange", "jdftx/electronic/ExCorr_internal_GGA.h: GGA_PW91_Enhancement"]}
{"id": "C108", "title": "Potentials of gradient-corrected correlation functionals", "statement": "For PBE, PBEsol and PW91 correlation, GGA_calc adds to E_n and E_sigma the derivatives of what it adds to E. PBE correlation lies between local correlation and zero, and reduces to it without a gradient. The uniform energy by which the gradient correction divides is negative at every density and polarization.", "quantifier": "for every functional, scale factor, pair of spin densities short of full polarization, gradient contractions and direction of change", "why_tests_cant": "Seven nested derivatives with respect to rs, zeta, g and t2 are propagated by hand, and a division by zero would need a density nobody samples.", "anchors": ["jdftx/electronic/ExCorr_internal_GGA.h: PW91_H0", "jdftx/electronic/ExCorr_internal_GGA.h: GGA_PBE_correlation", "jdftx/electronic/ExCorr_internal_GGA.h: GGA_calc"]}
{"id": "C109", "title": "Closed forms of Gaussian integrals with erfc", "statement": "For every A > 0 and B >= 0, the values returned by integralErfcGaussian<1>, <3> and <5> are the integrals over the half line of y^n exp(-A y^2) erfc(B y), and that of <2> vanishes for large B and has the B-derivative of that integral; the derivatives returned with respect to A and B are those of the returned values.", "quantifier": "all A > 0 and B >= 0 (B > 0 for n = 2), all differentiable curves of A and B", "why_tests_cant": "a finite-difference test samples a few points and compares the closed forms only with themselves, never with the integral", "anchors": ["jdftx/electronic/ExCorr_internal_GGA.h:301-352"]}
{"id": "C110", "title": "Derivatives of short-ranged omega-PBE exchange", "statement": "For every rs > 0 and s2 >= 0 the short-ranged omega-PBE exchange energy per particle is a continuous function whose derivatives are the returned e_rs and e_sIn2.", "quantifier": "all rs > 0 and all s2", "why_tests_cant": "the chain of derivatives passes through some forty intermediate quantities; finite differences have cancellation errors and never sample s2 = 0 or the thresholds of the scaling", "anchors": ["jdftx/electronic/ExCorr_internal_GGA.h:356-445"]}
{"id": "C111", "title": "Exchange potentials without an energy", "statement": "The LB94 correction is the published formula, negative, zero without gradient, the same for one and two spin channels, and falls off as -1/r for exponentially decaying densities; GLLB-sc contributes the PBEsol exchange energy and twice its energy per particle as potential.", "quantifier": "all densities, gradients, scale factors and both numbers of spin channels", "why_tests_cant": "these potentials have no energy, so the finite-difference tests of the code do not apply to them", "anchors": ["jdftx/electronic/ExCorr_internal_GGA.h:448-492"]}
{"id": "C112", "title": "Reduced quadrature over molecular orientations", "statement": "SO3quad::setup finds the largest order up to 12 of the molecule's symmetry axis, samples the circle at the smallest sufficient multiple of it, and yields weights that add up to one; for every quantity with that symmetry, the sum over the reduced orientations equals the average over the whole circle at each node.", "quantifier": "all molecules, node lists, weights, requested sample counts and functions of the orientation with the symmetry of the molecule", "why_tests_cant": "a test uses a few molecules and quadratures, and the check built into the code covers only Wigner matrices on the full circle", "anchors": ["jdftx/fluid/SO3quad.cpp:65-130"]}
{"id": "C113", "title": "Neutrality of the unit cell of a fluid mixture", "statement": "The scale factors applied to the species of a fluid mixture make the unit cell neutral to the requested tolerance whenever that is possible, are unique, and their derivatives with respect to the uncorrected counts and the fixed charge are the returned ones.", "quantifier": "all lists of species with any counts, charges and fixed numbers, all external charges and all differentiable changes of these", "why_tests_cant": "tests use one electrolyte near neutrality, where the Newton iteration converges at once; the implicit derivatives are only checked by finite differences there", "anchors": ["jdftx/fluid/FluidMixtureCompute.cpp:29-43", "jdftx/fluid/FluidMixtureCompute.cpp:68-131"]}

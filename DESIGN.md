# Formal model of JDFTx in Rocq (Coq 8.16.1)

## How the development is organised

`rocq/theories/` holds, per topic `T`:

* `T_Model.v`  - transcription of the C++ code as total Gallina functions. Every definition cites file and lines of /repo. No proofs of properties.
* `T_Spec.v`   - the specification vocabulary, written without using the model's helpers (omitted when the standard library vocabulary is enough).
* `T_Proofs.v` - lemmas.
* `T_Props.v`  - property theorems only, each closed by `exact`, with `Print Assumptions` and an `Example` showing the hypotheses are satisfiable.

Theorem names start with the property id (`C01_...`). Suffix `_partial`: the theorem covers part of the property, the comment says what is missing.
Suffix `_refuted`: the property (or one clause of it) is false of the code; the theorem exhibits a witness.

## Trusted base

* The Coq kernel (8.16.1), and `coqc`/`coqchk`.
* The axioms listed by `Print Assumptions` under each theorem. Integer/list developments are closed under the global context (no axioms).
  Developments over the reals use the axioms of the standard library's classical real numbers:
  `ClassicalDedekindReals.sig_forall_dec`, `ClassicalDedekindReals.sig_not_dec`, `FunctionalExtensionality.functional_extensionality_dep`
  (some Coquelicot based ones also `Classical_Prop.classic` and choice principles of the standard library, e.g. `ClassicalEpsilon.constructive_indefinite_description`, when listed).
* No axiom, parameter or unproved obligation is added here.
* Fidelity of the transcription: the C++ was read, not executed. Each definition names the lines it transcribes and states simplifications.

## Modelling conventions

* `int`/`size_t` arithmetic is modelled in `Z`/`nat`/`N` without overflow unless the property is about overflow; C++ `/` and `%` on possibly negative operands are `Z.quot` / `Z.rem`.
* `double` is idealised as real numbers `R` (no rounding). Where the code tests for NaN / infinity the model carries a distinct non-finite outcome.
* Threads and MPI processes: the model quantifies over all orders (permutations) of the atomic pieces; the memory model is sequentially consistent.
* BLAS/LAPACK/FFTW/MPI/GSL and the GPU code paths are not modelled; where the code calls them, the model states the mathematical contract.
* Loops that are not structurally bounded carry fuel; running out is a distinct value, and a theorem shows enough fuel exists (or refutes it).

## Plan per property

* **C01 MPI task division is a partition** - Z model of TaskDivision::init/whose (upper_bound as list search) and ProcDivision. Prove partition, order, balance, whose by division lemmas.
  Theorems in `WorkDiv_Props.v`.
* **C02 Thread launch executes every job exactly once** - Z model of the job-range arithmetic of threadLaunch; schedules as permutations of (thread,iteration) events writing to an address map. Prove permutation of [0,nJobs) and final-memory equality. The nJobs=0 clause is false of the code and is refuted.
  Theorems in `WorkDiv_Props.v`.
  Outcome: Holds for every non-empty loop; the two _refuted theorems show that nJobs=0 still runs the body (threadedLoop has no guard).
* **C03 Threaded reductions equal the serial reduction** - Thread partial sums over the C02 ranges, lock order as a permutation of threads; sum over any commutative monoid/ring. Real idealisation of double addition.
  Theorems in `WorkDiv_Props.v`.
  Outcome: Holds for N>0 and any schedule of the lock; _refuted: eblas_ddot with N=0 reads element 0.
* **C04 Reciprocal and real space loops visit each grid point once with the right coordinates** - Functional model of the loop macros (div/mod set-up, incremental carry) as a state machine over Z; prove the state at each index equals the closed form, bijectivity with the index functions.
  Theorems in `Grid_Props.v`.
  Outcome: All loops and index functions; _refuted: THREAD_fullGspaceLoop never terminates when a thread has an empty range (more threads than grid points).
* **C05 Automatically chosen FFT box is adequate and FFT-friendly** - Z model of fftSuitable and the scale loop of GridInfo::initialize with explicit fuel; prove adequacy, factors, ratios, and existence of sufficient fuel.
  Theorems in `FFTBox_Props.v`.
  Outcome: Full property, including that the chosen box always passes checkFFTbox; _refuted: with no cutoff (Smin=0) the search does not terminate because fftSuitable(0) loops.
* **C06 Blockwise file transfer moves every element exactly once** - Model of the block loop over nat/Z; prove chunks concatenate to [0,n), each <= INT_MAX bytes.
  Theorems in `IO_Props.v`.
  Outcome: Byte counts up to 2^63 and element sizes up to INT_MAX/2 with size_t arithmetic wrapping modulo 2^64.
* **C07 Endian conversion is an involution on the file bytes** - Byte-list model of the swap loops; prove involution and round trip for the four host combinations, buffer restored.
  Theorems in `IO_Props.v`.
* **C08 Convergence checks fire exactly when the documented criterion holds** - List-of-values state machine for EdiffCheck / NormCheck over R (and NaN as absent value); prove equivalence with the 'last n' characterisation.
  Theorems in `Converge_Props.v`.
  Outcome: Energy check characterised exactly; _refuted against the documented meaning: constant energies never converge because only strictly negative changes are counted, and a NaN energy change never resets. Extended reals (finite, infinite, NaN) with exact finite arithmetic.
* **C09 Line minimizers report the total progress along the direction** - Abstract one-dimensional state machine: position along dir (R), arbitrary energy oracle returning finite or non-finite; transcribe the three line minimizers with fuel. Prove position = alpha for relax and cubic Wolfe; refute for quad.
  Theorems in `Minimize_Props.v`.
  Outcome: False as stated for the quadratic line minimizer: on failure it may leave the state at a trial step and return the wrong sign of progress (_refuted). Proved: relax and cubic Wolfe minimizers, exact restoration on failure, and the quadratic minimizer under its acceptance condition.
* **C10 Minimizer iteration bounds and consistency of the returned energy** - Minimizable::minimize loop with oracle energy and line minimizer relation; fuel = nIterations.
  Theorems in `Minimize_Props.v`.
  Outcome: Iteration bound for CG and L-BFGS; the energy on return is that of the state left behind; reasons for stopping (all or any of the criteria) and the mixing factors of the conjugate gradient schemes for minimize. _refuted (in C09): the final energy may exceed the initial one.
* **C11 L-BFGS history bookkeeping** - List model of history with R-vector two-loop recursion over an abstract inner product space (Section variables).
  Theorems in `Minimize_Props.v`.
  Outcome: History length, order, content and two-loop direction (equal to the BFGS recursion) and initial scaling proved (the scaling is not reset when report() changes the state and the history is cleared). False as stated for preconditioned problems: _refuted, the newest pair violates the secant equation because rho is 1/(s.y) but the loops use the preconditioned gradient difference; proved without preconditioner.
* **C12 Linear conjugate gradient keeps the true residual** - CG loops over an abstract real vector space in a Section; invariant r = rhs - A x.
  Theorems in `LinSolve_Props.v`.
  Outcome: LinearSolvable::solve and LinearSolvableIndefinite::CG for every linear operator and preconditioner, exact real arithmetic; for symmetric operators orthogonality of all residuals, and for definite ones termination in as many iterations as dimensions (solve). MINRES not modelled.
* **C13 A failed linear response solve leaves the best iterate** - Residual bookkeeping of LinearSolvableIndefinite::CG; refuted with a concrete residual history.
  Theorems in `LinSolve_Props.v`.
  Outcome: False as stated: _refuted for the initial state and for the last state being the best. Proved: whenever the lowest residual is lower than the first two and the last one, the state having it is left behind.
* **C14 Pulay mixing coefficients are an affine combination and history is bounded** - Pulay loop over abstract vectors with inner product; overlap matrix as function nat->nat->R; single-call invariant proved; re-entrant use refuted.
  Theorems in `Pulay_Props.v`.
  Outcome: False as stated for repeated calls: _refuted, a call that stops on convergence leaves the overlaps of its last residual unset and the next call (exact-exchange loop) uses them. Proved for each call starting from correct overlaps (empty, cleared or loaded history). Matrix inversion is external: coefficient statements assume it returned an inverse.
* **C15 Pulay restart files reproduce the history** - File as list of records; load/save model.
  Theorems in `Pulay_Props.v`.
  Outcome: Byte-level file with fixed-size variables; reading and writing one variable is external and assumed to round-trip.
* **C16 Cached memory allocator never hands out live memory** - MemCache as multimap (list) model with addresses from an oracle allocator assumed fresh; invariant by induction over operations.
  Theorems in `Mem_Props.v`.
  Outcome: MemCache with its underlying allocator external, and objects using it. False for zero-byte objects as far as blocks (not bytes) are concerned: _refuted, they are never given back. Locking is not modelled (operations atomic); sizes without overflow; CPU builds without cache call the system directly.
* **C17 Memory usage report peaks are correct** - Counter machine; peak = max over prefixes.
  Theorems in `Mem_Props.v`.
  Outcome: MemUsageReport with the events of the objects (C16_objects links the usage to the objects); formatting to GB not modelled.
* **C18 Input commands are processed after everything they require** - Finite command table with dependency lists; getDependencies recursion with fuel = table size, pass levels; prove order.
  Theorems in `Commands_Props.v`.
  Outcome: Order of the lines is irrelevant for acceptance and for the pass structure; the run order of commands of one pass is the order of the file (_refuted: not fully order independent). Behaviour of the individual process() functions is a parameter.
* **C19 Mutually exclusive commands are rejected** - Same model; forbids check; refuted for one-directional cross-section forbids when order hides them.
  Theorems in `Commands_Props.v`.
  Outcome: False as stated across sections: _refuted with phonon / fix-electron-density, which are accepted together. Proved within a section (all jdftx commands) and whenever the forbidding command is in a later pass. _refuted: the table check ignores what a command itself forbids.
* **C20 Input line reading: comments, continuation and white space** - Character list model of trim / readLine.
  Theorems in `Reader_Props.v`.
  Outcome: _refuted: a variable value starting with a blank yields an empty command name, because trimming precedes substitution.
* **C21 Include files: cycles are detected and reading terminates** - Include graph model: visited chain strictly grows; fuel = number of files.
  Theorems in `Reader_Props.v`.
  Outcome: Termination for finitely many files when every dollar sign opens a reference; cycle characterisation for reference-free files. _refuted: names are compared case-insensitively, so distinct files a and A count as a cycle.
* **C22 All MPI processes see the same commands** - String serialisation model; round trip without newlines proved; refuted with newline in value.
  Theorems in `Reader_Props.v`.
  Outcome: False as stated for values containing a newline (_refuted); proved whenever no environment value holds a newline.
* **C23 Environment variable substitution terminates and substitutes everything** - String model with fuel; refuted for self-referential environment; proved for environments whose values contain no reference.
  Theorems in `Reader_Props.v`.
  Outcome: False as stated: two _refuted theorems (self-referential value; an input file that sets a reference-free value and then loops for ever). Proved for values without dollar sign or without opening brace; result is always the exact expansion.
* **C24 Enumerated option names round trip** - Association list model of EnumStringMap.
  Theorems in `EnumMap_Props.v`.
* **C25 Lattice vector reduction preserves the lattice** - Integer transform tracked through the reduction loop over Z with real metric; invariant T unimodular, result = R*T.
  Theorems in `Lattice_Props.v`.
* **C26 Periodic lookup finds exactly the equivalent points** - Grid hash model of PeriodicLookup over R: soundness, completeness for separation within tolerance.
  Theorems in `Lattice_Props.v`.
* **C27 k-point folding generates the complete mesh with correct weights** - Q/R model of kpointsFold; counts, weights, congruence.
  Theorems in `KPoints_Props.v`.
* **C28 Spin expansion of the reduced k-points keeps weights normalised** - List model of the spin expansion in kpointsReduce.
  Theorems in `KPoints_Props.v`.
  Outcome: Total weight relative to the reduced k-points; the reduction itself is C29.
* **C29 Symmetry reduction of the k-mesh preserves Brillouin zone averages** - Finite group action on mesh indices (lists of permutations); reduceKmesh scan.
  Theorems in `KPoints_Props.v`.
  Outcome: Proved for symmetry lists that form a group, with an exact lookup (and with the actual PeriodicLookup table when images within its tolerance are equal). _refuted: without closure under products (not checked for manual symmetries) the total weight changes.
* **C30 Smearing functions are consistent** - Real functions; Coquelicot is_derive for the identities; erfc as integral.
  Theorems in `Smear_Props.v`.
  Outcome: False as stated for every type: Methfessel-Paxton and cold smearing leave [0,1] and are not monotone, cold smearing is not symmetric (C30_*_refuted). Derivative, entropy consistency and limits proved for all types; range and monotonicity for Fermi and Gauss; symmetry for all but cold. Fermi entropy identity holds where occupations exceed the code cutoff 1e-300.
* **C31 Chemical potential search conserves the electron number** - Bisection on an arbitrary continuous monotone function with fuel; IVT.
  Theorems in `Smear_Props.v`.
  Outcome: Termination, bracketing and accuracy proved for a given field and for unpolarized systems; for fixed magnetization in a polarized system the field search is proved to terminate and a returned mu is proved to bracket, but termination of the outer search is not proved.
* **C32 Initial fillings hold exactly the requested number of electrons** - R model of the filling loop; sum preserved.
  Theorems in `Fillings_Props.v`.
  Outcome: False as stated when the user gives the number of bands: the check uses the average over spins, so a strongly polarized system loses electrons (C32_given_bands_refuted). Proved when the code chooses the number of bands or the given number holds each spin channel; fillings from a file always preserve the count per state.
* **C33 State-resolved files are independent of the number of processes** - File offsets as Z; records per state; composition of write with nProcs p and read with q.
  Theorems in `StateIO_Props.v`.
  Outcome: Element-level file model (bytes are C06/C07); any interleaving of the collective write, or write through the head process. _refuted: file offsets are int products and overflow for large matrices.
* **C34 Space group operation algebra** - matrix3 over a commutative ring / Z and R; ring identities.
  Theorems in `Sym_Props.v`.
  Outcome: applyReal/applyRecip of sgo_mul, associativity, unit, two-sided inverse for determinant +-1; translations are real vectors (not reduced modulo the lattice), exact arithmetic.
* **C35 Symmetrization is a projection** - Orbit averages over finite group given as list closed under composition.
  Theorems in `Sym_Props.v`.
  Outcome: False as stated in two points: C35_total_force_refuted (the total force is replaced by its average over the group; preserved iff symmetric, in particular if zero) and C35_translation_refuted (a mesh that fits the rotations but not the translations, which the code does not check: not a projection). Proved for every finite space group whose operations map the mesh to itself: scalar densities (invariance on the mesh, fixed points, charge, average formula, reality and bounds), spin density matrices, forces, tensors. symmetrizeSpherical is not modelled.
* **C36 Symmetry operations map the FFT mesh to itself when accepted** - Z arithmetic: S_i*rot_ij divisible by S_j ; permutation of mesh points.
  Theorems in `FFTBox_Props.v`.
* **C37 Plane wave basis contains exactly the plane waves below the cutoff** - R metric with Cauchy-Schwarz; enumeration box completeness.
  Theorems in `Basis_Props.v`.
  Outcome: Sphere membership for every lattice, cutoff and k; index round trip proved for the FFT boxes the grid setup accepts and |k_i| < 1, refuted for k outside that range.
* **C38 Half / full reciprocal space conversions** - Index arithmetic from C04, complex pairs over R; changeGrid as partial index map.
  Theorems in `Convert_Props.v`.
  Outcome: All thread counts and store orders. Preservation of the real-field property by changeGrid is refuted at the Nyquist frequency and proved without it.
* **C39 Quintic spline derivative and smoothness** - Exact de Casteljau polynomials over R; is_derive and continuity at knots.
  Theorems in `Spline_Props.v`.
  Outcome: Holds on the whole open range including the sample points, not only inside intervals. Extra: guarded evaluation of RadialFunctionG never reads out of bounds; the guard of the screened exchange kernels admits an out-of-bounds read (C39_screened_in_bounds_refuted, latent because the table has ten spare samples).
* **C40 Quintic spline passes through its samples** - Pentadiagonal elimination model on lists; A x = b proved given non-zero pivots, pivots shown non-zero.
  Theorems in `Spline_Props.v`.
  Outcome: False as stated at the last sample point: C40_last_sample_refuted (evaluation reads one coefficient past the end). Proved for all other sample points from three samples on, and as a limit at the last one; also the boundary conditions.
* **C41 Spline gradient propagation is the adjoint of evaluation** - Field identity per coefficient.
  Theorems in `Spline_Props.v`.
  Outcome: CPU accumulation, and the GPU block reduction for every order of threads between barriers.
* **C42 Tetrahedron density of states integrates to the band weight** - Field identities over R with case split on degeneracy; tessellation determinant check.
  Theorems in `Tetra_Props.v`.
  Outcome: Integral with all degeneracies; pointwise agreement with the geometric slice density; equal volumes; covering and disjointness of the tessellation; shortest diagonal. One weight function is modelled (they are independent). The lookup of mesh points is C26.
* **C43 DOS post-processing preserves the integral** - List of intervals/maps over R; sums.
  Theorems in `Tetra_Props2.v`.
  Outcome: False as stated for arbitrary collections: an isolated delta function is dropped (C43_isolated_delta_refuted) and gaps end in the assertion or an invalid iterator (C43_gap_refuted); proved for every gapless collection, every set of tables, and for getDOS of bands of tetrahedra connected through shared corner energies (the case of every mesh).
* **C44 Welding nearly degenerate eigenvalues** - List scan over R.
  Theorems in `Weld_Props.v`.
  Outcome: Sum, order, separation of distinct results and equality of entries within Etol for every Etol >= 0 and every list; identity when already separated. Entries within Etol of one another in a chain are welded together, as in the code.
* **C45 Spin density and magnetization representations are inverse** - R algebra; is_derive for the noncollinear diagonalisation gradient.
  Theorems in `Spin_Props.v`.
  Outcome: Round trip in both directions; the Pauli decomposition; spin-diagonal components as projections; exact gradients (also with the aliased output arrays of ExCorr.cpp line 835); eigenvalues up to the regularisation.
* **C46 Solvation cavity shape functions are bounded, monotone and have exact gradients** - is_derive for SCCS, CANDLE-type, error-function based shapes; bounds by monotonicity.
  Theorems in `Cavity_Props.v`.
  Outcome: False as stated in three corners (_refuted): ShapeFunction uses fabs(n) but its gradient ignores the sign for n<0; CANDLE replaces tanh(x^2) by 1 above x=4 and so jumps there; SoftSphere skips a grid point lying on an atom, which loses the radius derivative. Proved everywhere else: range, monotonicity and exact (directional) gradients of ShapeFunction, SCCS (incl. the glued end points), CANDLE (joint derivative in n, Dn, Dphi, pCavity), SGA13 density expansion and SoftSphere (position and radius of any atom). Pointwise kernels; convolutions and the field-level drivers of PCM.cpp are not modelled.
* **C47 Nonlinear solvent response functions are consistent** - is_derive; bisection invariants.
  Theorems in `NLPCM_Props.v`.
  Outcome: False as stated in two corners (_refuted): for eps<1/10 the truncated series of logsinch is not the antiderivative of eps*frac (error exactly eps^7/4725), and for alpha>=3 (epsBulk<epsInf, not rejected by the constructor) the linear inversion loops forever. Proved: hard-sphere derivative, termination and accuracy of both bisections, uniqueness of the packing fraction and dE/dV = ionic charge (packing fraction <= 1/3), dA/dx = polarization, exactness of A_phi, A_Dphi, A_s for every smooth lookup, exact inverses of the table mappings, and the zero-field sample. The quintic-spline lookups are abstract here (their derivative is C39).
* **C48 Hard sphere mixture functional derivatives are exact** - is_derive of transcribed polynomial/log expressions.
  Theorems in `FMT_Props.v`.
  Outcome: False as stated at isolated points (_refuted): the scale functions jump where the series takes over (n3=0.002, 0.005), and the clamped vector factor of the bonding correction has a kink at |n2v|=n2. Proved everywhere else on n0,n1,n2>0, 0<n3<1: joint directional derivative of the energy density in all 15 weighted density components, of the bonding correction, values and gradients of the tensor contractions, value and adjointness of the reciprocal space tensor kernel.
* **C49 LDA exchange-correlation potentials are derivatives of the energy** - is_derive of transcribed functionals (Rpower, ln, atan).
  Theorems in `LDA_Props.v`.
  Outcome: False as stated for Perdew-Zunger correlation at rs=1, where its two branches do not meet (C49_PZ_refuted). Proved for all seven functionals otherwise: both spin potentials as the joint derivative of the energy density (n_s>0, total above the cutoff), unpolarized potential, spin exchange symmetry, agreement of the polarized and unpolarized code for equal spins, ferromagnetic limit, properties of the interpolation function. pow is modelled for non-negative arguments.
* **C50 Fluid equation of state derivatives are exact** - is_derive of transcribed EOS.
  Theorems in `EOS_Props.v`.
  Outcome: Proved for all densities N>0 with positive Ginv and packing below 1 (where the code does not return NAN) and every temperature at which the exclusion volume is nonzero (automatic up to 1408.4 K); the parameters of the Jeffery-Austin constructor are modelled with the unit constants of Units.h. Tao-Mason holds for arbitrary parameters. N=0 exactly (where Aex jumps to the value 0 used for negative densities) is excluded.
* **C51 Coulomb kernel lattice derivatives are exact** - is_derive along arbitrary metric perturbation.
  Theorems in `Coulomb_Props.v`.
  Outcome: False as stated for the spherical exchange kernel without exchange regularization, where the radius is the fixed radius of CoulombSpherical but the gradient contains the term of a radius growing like detR^(1/3) (_refuted). Proved: whole-grid getLatticeGradient of the periodic, spherical, slab and ion kernels as strain derivative of the pair energy; periodic, erfc-screened, spherical (radius from supercell volume) and unscreened slab exchange kernels per reciprocal vector away from the threshold. Slab kernels under the orthogonality the code itself requires, for strains preserving it. The spline-tabulated screened truncated kernels and numerical kernels are not modelled.
* **C52 Euler angles round trip** - trigonometric identities over R, atan2 model.
  Theorems in `Euler_Props.v`.
  Outcome: False as stated for rotations within 1e-7 of gimbal lock but not locked (C52_near_lock_refuted); there every entry of the reconstructed matrix is proved to be within 1/2000. Proved exactly for all other rotations including exactly locked ones, plus the inverse round trip on angles, ranges of the angles and the axis conversions. The comment that polarUnitVector(alpha,beta) is the axis reached by the rotation does not hold for matrixFromEuler (C52_axis_comment_refuted): it is the third row for gamma,beta and the image of z is polarUnitVector(PI-alpha,beta).
* **C53 Real space translation operators conserve particle number** - Finite sums over Z-indexed fields.
  Theorems in `Translate_Props.v`.
  Outcome: Proved for every thread count and interleaving of the loop bodies. The comment T_t(x(r))=x(r+t) in TranslationOperator.h has the opposite sign to the code (C53_direction_refuted). The Fourier operator is modelled on the half-space coefficients (the transforms themselves are not modelled); it keeps fields real except at Nyquist frequencies (C53_fourier_nyquist_refuted).
* **C54 Matrix slicing reads and writes exactly the requested block** - matrices as functions nat->nat->R with explicit bounds; flattened storage.
  Theorems in `Matrix_Props.v`.
  Outcome: _refuted: the column bound checks of matrix::set and accum use || and so accept an out-of-bounds column range.
* **C55 Tiled block matrix products agree with dense products** - Block matrices over R; square proved, non-square left product refuted.
  Theorems in `Matrix_Props.v`.
  Outcome: _refuted: left product of a tiled block matrix is wrong for non-square tiles.
* **C56 Threaded matrix multiplication equals the serial product** - Output-element partition using C02 ranges.
  Theorems in `Matrix_Props.v`.
* **C57 Printed energy components add up to the total** - Association list of (name,value); merge preserves sums.
  Theorems in `Energy_Props.v`.
* **C58 Checksum used to identify hosts and files is standard CRC-32** - N bit operations; table computed by vm_compute and compared with reference; fold by induction.
  Theorems in `Crc_Props.v`.
* **C59 Integer helper functions agree with their mathematical definitions** - Z with C++ truncated division semantic (Z.quot / Z.rem).
  Theorems in `IntUtil_Props.v`.
  Outcome: positiveRemainder is exact in its int16/uint16 domain; the _refuted theorems show int arguments beyond 16 bits, loss of direction in gcdReduce of negative vectors, and division by zero for the zero vector.
* **C60 Errors raised on any process are seen by all** - List-of-strings model of gather and broadcast.
  Theorems in `IntUtil_Props.v`.
  Outcome: Messages are non-NUL characters; total length assumed to fit an int.
* **C61 Ionic constraints are projections** - Vectors as lists of R; projections; non-orthogonal hyperplanes refuted.
  Theorems in `Ions_Props.v`.
  Outcome: False as stated (_refuted) for hyperplane constraints whose normals are not orthogonal (they are removed one after the other), and for hyperplanes not mapped onto each other by the symmetries, which isEquivalent accepts because it compares the zero vector d. Proved otherwise: the result is allowed and symmetric, allowed symmetric displacements are unchanged, idempotent, and the orthogonal projection.
* **C62 Molecular dynamics integrator is time reversible and averages correctly** - Exact arithmetic over R^n functions; induction on steps.
  Theorems in `Ions_Props.v`.
  Outcome: False as stated for momentum (_refuted): constrain removes the unweighted mean of the accelerations, so with unequal masses the total momentum changes although forces sum to zero. Proved: time reversal of n steps for every force field with constraints and symmetries, velocities stay allowed, momentum with equal masses or without the projection (external potential), relative accelerations, mean of the accumulated density. Thermostats and the electronic minimization are not modelled; forces are a function of the positions.
* **C63 Trial steps compose additively** - matrix3 over R; ionic proved, lattice refuted.
  Theorems in `Ions_Props.v`.
  Outcome: False as stated for lattice steps that change the cell (_refuted): steps multiply the lattice, so two steps differ from one by alpha beta L^2 R (C63_lattice_defect states the exact difference of lattice and positions). Proved for ionic steps, and for lattice steps with fixed cell.
* **C64 Reduction to the Wigner-Seitz cell** - Loop with fuel over R^3 metric; measure argument for termination.
  Theorems in `WS_Props.v`.
  Outcome: WS_Model transcribes the face equations, the initial parallelepiped and its vertices, the enumeration of candidate planes, the slicing loop, the choice of one face per inversion pair, both reductions, boundaryDistance, inRadius and getNeighbours. The polyhedron bookkeeping (vertices, edges, addPlane's graph surgery) is not modelled: addPlane and the largest vertex distance are functions with the hypotheses slices and extent. C64_reduce gives termination (enough fuel exists and more fuel changes nothing), equivalence, non-increase of the distance and membership of the cell up to 2e-8 |l|^2; C64_construction shows that the enumerated planes bound exactly the cell. Finding: the continue of WignerSeitz.cpp line 184 only affects the inner loop, so getNeighbours returns neighbours along truncated directions too (C64_neighbours_refuted).
* **C65 Gradient and divergence operators are adjoint** - complex pairs over R; ring identities.
  Theorems in `Deriv_Props.v`.
  Outcome: Pointwise and for whole fields under the inner product of the code; value of the gradient; real fields stay real except for the single-direction derivative D, refuted at the Nyquist frequency.
* **C66 Inner products and sums of half-space fields** - Half-space weights over the reduced FFT box; sums over the box split into mirrored pairs.
  Theorems in `Deriv_Props.v`.
  Outcome: False as stated for odd third dimension >= 3: C66_dot_odd_refuted (the last slice is counted once although it is not at the Nyquist frequency). Proved for even or unit third dimension.
* **C67 Gradient-corrected exchange-correlation potentials are the same on all processes** - Per-process loops over slices of the mesh with an allReduce; equality of the replicated results.
  Theorems in `Spin_Props.v`.
  Outcome: False as stated for noncollinear densities on several processes: the increments of ExCorr.cpp line 889 are not summed over processes (C67_noncollinear_processes_agree_refuted, deficit in C67_noncollinear_deficit); proved for unpolarized and collinear densities with any number of processes and for noncollinear densities on one process.
* **C68 Spinor rotations represent the crystal rotations** - SU(2) matrices from Euler angles; homomorphism to rotations by trigonometric identities.
  Theorems in `Euler_Props.v`.
  Outcome: Proved for all orthogonal matrices further than 1e-7 from gimbal lock or exactly locked; unitarity holds for every input.
* **C69 Vibration modes span the allowed displacements** - Basis loop of the vibration code over constraint records; span and orthonormality as linear algebra over R.
  Theorems in `Ions_Props.v`.
  Outcome: False as stated for planar constraints with normal along z (_refuted): both components compare equal, the z axis is chosen as reference and the mode is 0/0. Proved for all others, with NaN as the value None. The branch of the code for hyperplane constraints ends with an error and is excluded.
* **C70 Fixed lattice vectors and symmetries survive lattice minimization** - Projector onto free lattice directions (Gram-Schmidt of fixed vectors) and tensor symmetrization; commutation and invariance.
  Theorems in `Ions_Props.v`.
  Outcome: Proved for every lattice, group and path on which the lattice stays non-singular, with the commensurability condition which the constructor checks (transcribed as the hypothesis commensurate).
* **C71 Safe lattice step stays within the allowed strain** - Step-halving loop with fuel; bound on the strain and termination.
  Theorems in `Ions_Props.v`.
  Outcome: False as stated (_refuted): the criterion adds alpha*dir to the strain, but the step multiplies the lattice, so the resulting strain (C71_actual_strain) has another term and compute may return NAN after a safe step. Proved: termination, positivity, half of the allowed strain, and the bound on the sum.
* **C72 Supercell cell map is a partition of unity** - Cell map as association list over Z^3 with weights 1/multiplicity; sum over images of a class is one.
  Theorems in `CellMap_Props.v`.
  Outcome: CellMap_Model transcribes getCellMap: the search box, the smooth weights, the normalization of sets of equivalent cells with its assertion (None), with the result as a list of entries. The circumscribed radius and the neighbour list are arguments: the radius must contain the Wigner-Seitz cell of the supercell (contains_cell), the neighbours are arbitrary (closed under inversion for C72_reversal; C64_neighbours gives the list the code uses). Supercell matrices are exact integer combinations, truncated directions orthogonal to the others and not mixed by the supercell. C72_partition_of_unity holds up to 1/symmThreshold cells; beyond that the test of equivalence accepts inequivalent cells (C72_equivalence_refuted), which is a limitation rather than a practical error. File output (writeCellMap) is not modelled.
* **C73 Embedding spreads every mesh point evenly over its images** - Embedding map on Z^3 with boundary splitting; sum of weights and symmetry.
  Theorems in `Embed_Props.v`.
  Outcome: False as stated (C73_odd_mesh_refuted): when every sample count is odd (possible with a user-specified fftbox, which is only checked against a minimum) the boundary map can be empty, and symmEquiv.rbegin() at Coulomb.cpp 428 is undefined behaviour. Proved when some sample count is even (automatic meshes are), for truncated directions orthogonal to the others, meshes resolved by the tolerance (mesh points are on a bounding plane or off it by more than the tolerance; the code compares a squared length with 1e-8 on the inside and a fraction on the outside) and mesh coordinates that fit in 16 bits (positiveRemainder). Embed_Model transcribes the real-space parts: index map, boundary map as a multimap, classes, symmetrization, scatter and gather. Fourier transforms and the shift by the embedding center are not modelled. The faces are those of C64.
* **C74 Nonlinear conjugate gradients are exact on quadratic energies** - Minimizer transcription run on a quadratic form over an abstract inner-product space; simulation of linear conjugate gradients.
  Theorems in `MinQuad_Props.v`.
  Outcome: Equality of the results of Minimizable::minimize and LinearSolvable::solve in exact arithmetic, for the three conjugate gradient formulas and linminQuad, with the energy threshold at zero (which decreasing energies never meet). Observation proved as C74_test_step_never_reduced: Minimize_linmin.h 101 tests alphaT/alpha where its message says alpha/alphaT, so that the reduction of an overlong test step is unreachable with the default factors.
* **C75 Dispersion energies are sums over all neighbours** - Pair sums over Z^3 boxes, divided over processes; reindexing of half boxes to full boxes.
  Theorems in `VdW_Props.v`.
  Outcome: VdW_Model transcribes energyAndGrad of D2 and D3 and computeCN with the half-space loops of C04 and the division of cells of C01; the whole box is what the loops represent. For D2 the theorem is for atoms further apart than the radius at which the code switches to a constant (below it the energy is a constant by design). For D3 it needs coefficient tables symmetric under exchange of the species (true of correctly laid out tables, see C77 for where the code lays them out wrongly), coordination numbers within reach of the references (otherwise the code takes the largest reference, C77_largest_reference), and non-zero C6 for Becke-Johnson damping (the code divides by it).
* **C76 Dispersion forces and stresses are derivatives of the energy** - is_derive along a joint displacement and strain through all pair terms and coordination numbers.
  Theorems in `VdW_Props.v`.
  Outcome: Derivative along an arbitrary joint displacement and strain. Excluded are the geometries where the energy itself jumps or has a kink: pairs exactly at a cutoff or at the switching radius, coincident atoms, and a sum of weights exactly at the underflow threshold. Holds for any list of cells per process, and for any tables (in particular also with the layout of C77_layout_refuted).
* **C77 Dispersion parameters and neighbour sampling** - Table layout, interpolation weights, neighbour sampling and cache as lists and functions; witnesses for the false parts.
  Theorems in `VdW_Props.v`.
  Outcome: False as stated in three ways. C77_layout_refuted (data of hydrogen and oxygen from VanDerWaalsD3_data.h): VanDerWaalsD3.cpp 78-87 writes the coefficients with the second species running fastest into a matrix stored with the first index running fastest, so that the coefficients of pairs of different elements with more than one reference each are permuted (3741 of the 4371 pairs of the tables), and the two orders of a pair disagree. C77_reach_refuted: the number of sampled cells is the cutoff divided by the length of the lattice vector rather than by the height of the cell, so that skewed cells (the primitive fcc cell of the witness with the default cutoff) miss images within the cutoff. C77_cache_refuted: the cache of radial functions is keyed by atomic numbers only, so that species with overridden parameters get those of whichever species came first. Proved: layout for the same element or a single reference, weights, indexing of pairs, reach in orthogonal cells, and the cache without overrides.
* **C78 Extended-system dynamics conserve their energies** - thermostat() as right-hand side of differential equations on R; derivative of the extended energy is zero.
  Theorems in `Dynamics_Props.v`.
  Outcome: Exact statement for the differential equations; the discretization error of the Verlet steps is not modelled (C62 covers the steps themselves without thermostat). The potential energy is any function whose derivatives are the accelerations and stress along the trajectory. With a barostat all atoms must be unconstrained (the friction from the strain rate does not respect constraints); chains of length zero are reads out of range (None).
* **C79 Thermostats, barostats and degrees of freedom** - Closed-form solutions of the relaxation equations; trace of the constraint map counts degrees of freedom.
  Theorems in `Dynamics_Props.v`.
  Outcome: False as stated in four ways. C79_hyperplane_refuted: the degrees of freedom of atoms constrained to hyperplanes are counted as three each (IonicMinimizer removes one for the whole group), so that a single atom that moves in a plane is reported to have no degrees of freedom. C79_all_fixed_refuted: with all atoms fixed, the count is forced to one instead of stopping. C79_external_potential_refuted: three degrees of freedom are taken off for the translations of unconstrained atoms even when an external potential lets them move. C79_berendsen_pressure: with B0 the bulk modulus the pressure relaxes with a third of the requested damping time. Proved: the number of degrees of freedom is the trace of the constraint projector in systems without hyperplanes, external potentials and symmetries; all the other parts.
* **C80 Forces and stresses of the periodic Ewald sum** - Ewald_Model transcribes EwaldPeriodic; derivative along a joint displacement and strain with Coquelicot, term by term through the sums
  Theorems in `Ewald_Props.v`.
  Outcome: Ewald_Model transcribes the loops of EwaldPeriodic with the half cells of C04; the number of samples and the width are held fixed under displacement and strain, as in the object that the code constructs once. Excluded are atoms on top of images of each other (division by zero) and atoms exactly on the edge of the home cell, where the truncated sum jumps by the terms bounded in C82.
* **C81 The periodic Ewald sum is that of the textbook** - the same model against the textbook formula over a centred box of cells, by permutation of the half-cell loops
  Theorems in `Ewald_Props.v`.
* **C82 Ewald sums reach far enough** - reach of the boxes from the rows and columns of the lattice by the Cauchy inequality, bounds on erfc and exp
  Theorems in `Ewald_Props.v`.
  Outcome: Bounds on each factor left out, not on the whole infinite sum. The constant nSigmasPerWidth = 1+sqrt(-2 log(DBL_EPSILON)) is written out in the statement as 1+sqrt(104 ln 2).
* **C83 The Ewald sum of slabs** - Ewald_Model transcribes EwaldSlab including the overflow guard and the margin check; derivatives, formula with the bound of dropped terms
  Theorems in `Ewald_Props.v`.
  Outcome: The formula is proved for truncation directions orthogonal to the other lattice vectors, which Coulomb.cpp checks elsewhere. The code drops terms with G|z| above 100 to avoid overflow (CoulombSlab.cpp 130): the gradients are those of the energy except exactly at the jump, and C83_slab_formula bounds the difference from the formula by exp(-100)-sized terms (leftOut).
* **C84 Isolated ions, electric fields and embedding of ions** - Ewald_Model transcribes EwaldIsolated, splitEfield, getEfieldPotential and the wrapping of ions in Coulomb::energyAndGrad; derivatives, Coulomb's law, refutation for the lattice derivative in a field
  Theorems in `Ewald_Props.v`.
  Outcome: False as stated for the lattice derivative in an electric field: C84_field_lattice_derivative_refuted (Coulomb.cpp 298-312 adds the energy and forces of the field but nothing to E_RRT, although the energy depends on the strain). The reduction to the Wigner-Seitz cell is a parameter, as in C73: the theorems hold wherever it is locally a translation. Everything else proved.
* **C85 Lattice derivative of the exchange energy** - Exchange_Model transcribes the application of the exchange kernel to a pair density, its stress and the G=0 terms on top of the kernels of Coulomb_Model; derivative theorems for periodic, screened, spherical and slab kernels, end to end with the probe charge; refutation for k-points differing by a reciprocal lattice vector
  Theorems in `Exchange_Props.v`.
  Outcome: False as stated for k-points equal up to a non-zero reciprocal lattice vector: C85_shifted_kpoint_refuted (Coulomb_ExchangeEval.cpp 635 tests kDiff itself and adds the derivative to the iG=0 component, while the kernel uses the G=0 value wherever iG+kDiff vanishes). Otherwise proved, for grids where no other wave vector is below the threshold. The box of the probe-charge sum is fixed under the strain. Screened spherical and slab, cylindrical and numerical kernels are not modelled.
* **C86 Singularity corrections of the exchange kernels** - Exchange_Model transcribes the probe charge, effGsq, fSingular3D/2D, erf_by_x, the mesh sum and the strain basis; image sums, cutoff, limits, bounds and sum rules
  Theorems in `Exchange_Props.v`.
  Outcome: The quadrature of the auxiliary function over the zone (lines 75-141) is a parameter I. At |x| = 1e-3, where erf_by_x switches between its branches with a jump below 1e-19, no derivative is claimed.
* **C87 Exchange kernel of the k-point supercell** - ExKernel_Model transcribes the reciprocal mesh of the supercell, the extraction of kernels, the lookup of k-point differences and the shifted multiplication; existence and uniqueness of representatives, aliasing arithmetic, refutation at the grid edge
  Theorems in `ExKernel_Props.v`.
  Outcome: False as stated at the edge of the grid: C87_grid_edge_refuted (multTransformedKernel_calc wraps a shifted component onto another wave vector); proved when the shifted components stay on the grid. The cubature of the supercell kernel itself (CoulombKernel::compute) is a parameter.
* **C88 Division of exchange work among processes** - ExPairs_Model transcribes the cumulative costs, lower_bound and the ranges per process; concatenation of ranges is the sequence of all bands, bound on the cost by division with remainder
  Theorems in `ExPairs_Props.v`.
  Outcome: Estimated costs are integers; overflow of the product of the process index and the total cost is not modelled.
* **C89 Symmetry reduction of k-point pairs in exchange** - ExPairs_Model transcribes the table of net transforms; invariant of the double loop over the mesh, group laws of the operations
  Theorems in `ExPairs_Props.v`.
  Outcome: The search for the best choice of transforms (lines 324-363) is not modelled: the theorems hold for every choice.
* **C90 Messages that redistribute wavefunctions for exchange** - ExPairs_Model represents request handles as slots that an operation overwrites; per-chunk decomposition of posted and waited operations, refutation for sends
  Theorems in `ExPairs_Props.v`.
  Outcome: False as stated: C90_sends_completed_refuted (ExactExchange.cpp 493-501 adds no request before the sends of the occupations and eigenvalues, so the handle of the send of the wavefunctions is overwritten and never waited for: C90_wavefunctions_never_completed). Proved for receives, for the matching of messages and for occupations.
* **C91 Gradient with respect to the auxiliary Hamiltonian under constraints on charge and magnetization** - FillGrad_Model has the weighted sums over states and bands, the four cases of constraint contributions and the energies; differentiation of the sums along a path with the constraints eliminating mu' and Bz'
  Theorems in `FillGrad_Props.v`, `MatFun_Props.v`.
  Outcome: False as stated: C91_fixed_mu_and_M_gradient_refuted (ElecVars.cpp 458 divides by the difference of the channels instead of the sum: C91_fixed_mu_and_M_derivative) and C91_fixed_mu_and_field_energies_refuted (ElecInfo.cpp 264-265 leave Bz at 0 when mu is given). Proved for fixed N, fixed N and M, and fixed mu and field. The off-diagonal part is C91_smearGrad_rotations, for eigenvalues that are equal or at least 1e-6 apart.
* **C92 Functions of Hermitian and unitary matrices and their gradients** - MatFun_Model writes the functions as V f(d) V^dagger with the branches for small and negative eigenvalues; uniqueness of the spectral form, and differentiation of V f(d) V^dagger in the moving eigenbasis for the gradients
  Theorems in `MatFun_Props.v`.
  Outcome: Eigenvectors, eigenvalues and the inverse Cholesky factor from LAPACK are inputs with contracts (MatFun_Spec). Matrices are over the exact complex numbers.
* **C93 Gradients of the electronic energy** - ElecGrad_Model has the gradients and steps for one state as matrices; differentiation of the Cholesky orthonormalization (the factor is flat along constrained directions) and of the moving eigenbasis
  Theorems in `ElecGrad_Props.v`.
  Outcome: False as stated for constant fillings that differ between bands: C93_rotation_gradient_refuted (ElecMinimizer.cpp 214 leaves out the weight of the state; C93_rotation_derivative has the correct derivative). Proved for scalar fillings and for the auxiliary Hamiltonian. One state at a time; LAPACK results are inputs with contracts; eigenvalues equal or at least 1e-6 apart (threshold in smearGrad), eigenvectors differentiable with the identity at the start.
* **C94 Steps of the electronic minimizer** - induction over the steps of a line search with the rotations as invariant; two by one witnesses for the refutations
  Theorems in `ElecGrad_Props.v`.
  Outcome: False as stated: C94_scalar_steps_refuted (with constant scalar fillings step adds the direction to wavefunctions that were already orthonormalized without rotating or scaling it, ElecMinimizer.cpp 163-167, so that a step and its reverse do not cancel) and C94_trial_gradient_refuted (ElecMinimizer.cpp 201 multiplies by the inverse of the rotation instead of its adjoint, which matters away from the start of a line search). Orthonormality, rotations, dependence on total length, and report are proved.
* **C95 Exchange energy and Hamiltonian of pairs of states** - nested loops reduced to sums by a fold lemma, induction over blocks; the operator as a sum of congruences of the kernel
  Theorems in `ExCompute_Props.v`.
  Outcome: Linear maps (transforms, Coulomb kernel) are arbitrary matrices; all bands of one state on one process (the division among processes is C88-C90); the lattice gradient is not modelled.
* **C96 Compressed exchange operator** - the inverse square root of MatFun on the singular overlap; a semi-definite form vanishes only on the kernel; completion of the square for the bound
  Theorems in `ExCompute_Props.v`.
  Outcome: Exact arithmetic: eigenvalues that are zero are exactly zero. The full computation is that of C95.
* **C97 Symmetrized force matrices of phonons** - orthogonality of phases reduces the transform pair to a closed form in real space; projections by sums over directions; the cell map through C72
  Theorems in `Phonon_Props.v`.
  Outcome: Doubles are reals; the diagonalization itself is not modelled.
* **C98 Correction of the first moment of the force matrix** - the correction is linear in the moment with matrix alphaInv, whose quadratic form is a weighted sum of squares
  Theorems in `Phonon_Props.v`.
  Outcome: False as stated for existence: C98_single_cell_refuted (a single repetition along an untruncated direction makes alphaInv singular) and C98_axis_refuted (truncation flags number lattice directions but are applied to Cartesian axes). Proved: existence when the cells of one pair of atoms span space and nothing is truncated; the derivative vanishes whenever the correction exists, with truncated directions aligned with the axes of the same number.
* **C99 Brillouin zone quadrature and vibrational free energies** - sums over products of ranges; geometric series for the partition function; derivative of the closed form; invariant of the scan over wavevectors
  Theorems in `Phonon_Props.v`.
  Outcome: False as stated in three places: the weights add up to (1+5e-34)^d (1-3^(-7d)) for d periodic directions (C99_total_weight, C99_unit_weight_refuted); with every direction truncated there are no points and all free energies are zero (C99_molecule_refuted); a lowest eigenvalue of exactly zero reads before the start of the list of points (C99_zero_mode_refuted). The rest proved; imaginary modes are left out of the sums as in the code.
* **C100 Real spherical harmonics are orthonormal solid harmonics** - Each harmonic is an expression with rational constants; `Ylm` evaluates it over the reals. `C100_homogeneous`, `C100_smooth` and `C100_harmonic` come from exact polynomial normal forms. The sphere integral is an iterated Riemann integral in cos(theta) and phi; integrals of monomials follow from recurrences, so `C100_orthogonal` is exact and `C100_normalised` holds within 4e-16. `C100_addition` compares with Legendre polynomials within 3e-12 (sum of magnitudes of coefficient errors, pi bounded to 24 digits by Machin's formula). Not modelled: rounding of double arithmetic, the device versions.
  Theorems in `Ylm_Props.v`.
  Outcome: orthogonality exact; normalisation within 4e-16 and addition theorem within 3e-12 because the code's constants are decimals
* **C101 Products of spherical harmonics expand in spherical harmonics** - The table is transcribed as is. `C101_product` bounds the difference by 2e-15 on the unit sphere, after making terms homogeneous with powers of the squared length; `C101_terms` and `C101_symmetric` cover the structure. For degree 4 and more the switch has no case and the list is empty although the harmonics exist: `C101_high_degree_refuted`.
  Theorems in `Ylm_Props.v`.
  Outcome: False as stated for degrees above 3, which the harmonics support but the table does not (C101_high_degree_refuted); proved for degrees up to 3
* **C102 The derivative of a spherical harmonic is the gradient of its polynomial** - `YlmPrime` keeps the terms added by each branch, each with factor, square roots and lower harmonic. `C102_gradient` shows each component within 2e-14 of the derivative of the polynomial (rational approximations of the square roots, exact differentiation of expressions).
  Theorems in `Ylm_Props.v`.
  Outcome: within 2e-14 because the constants are decimals
* **C103 Spherical Bessel functions match their definition** - j_l is specified as the sum of its power series. `C103_large_exact` shows each closed form to be that sum (derivative recurrence from sin x / x), `C103_error` bounds the truncation of the series branch, `C103_unique` shows that the specification determines the value, `C103_parity` and `C103_zero` complete the picture. The comment in the code promises 1 part in 1e15 at the crossover: `C103_accuracy_refuted` shows a relative error above 3e-15 for l = 0 at x = 1. Degrees above 6 return zero beyond the crossover although the series branch supports them: `C103_high_degree_refuted`. Not modelled: rounding of double arithmetic.
  Theorems in `Bessel_Props.v`.
  Outcome: False as stated for degrees above 6 (C103_high_degree_refuted) and for the accuracy the comment promises (C103_accuracy_refuted); proved for degrees up to 6 with 4e-15
* **C104 MINRES tracks the true residual and minimises it** - The loop is transcribed with abstract vectors; a vector divided by zero is lost (None). `C104_residual`, `C104_monotone`, `C104_minimal`, `C104_krylov`, `C104_converged`, `C104_state` and `C104_iterations` follow from one invariant: the Lanczos vectors are orthonormal, and the image of the search direction under the scaled operator is the rotated residual direction. `C104_finite_termination` needs a nondegenerate scaled operator, finite dimension, a stagnation threshold of at most zero and a nonzero initial residual. A start that already solves the system is divided by zero and lost: `C104_solved_start` for all such starts, `C104_solved_start_refuted`. The starting state is taken as y although the returned one is Ksqrt y, so a previous solution is not a fixed point: `C104_restart_refuted`. Not modelled: rounding, logging.
  Theorems in `Minres_Props.v`.
  Outcome: False as stated for starts that already solve the system (C104_solved_start_refuted) and for restarts (C104_restart_refuted); proved for all other runs
* **C105 Radial quadrature weights integrate natural splines exactly** - `Radial_Model.v` transcribes RadialFunction.cpp 97-147: assembly of the tridiagonal system, elimination, back substitution, the integration formula of every interval, and the checks of initWeights. The specification `Radial_Spec.v` knows only cubics, natural splines and Coquelicot's integral. The proof shows positive pivots by diagonal dominance, uniqueness of the slopes, linearity of the weights in the samples and the value of each integral.
  Theorems in `Radial_Props.v`.
  Outcome: Doubles are idealised as reals. The split over threads is left out, since locations are independent.
* **C106 Radial Bessel transforms are Simpson integrals** - `Radial_Model.v` transcribes RadialFunction.cpp 77-86 and 149-159 with the Bessel functions of `Bessel_Model.v`. `C106_simpson` holds for exactly logarithmic grids. `C106_even_drops` says that the last of an even number of samples is ignored. `C106_weights_refuted` gives a grid from initWeights for which the transform of a constant is wrong by a tenth.
  Theorems in `Radial_Props.v`.
  Outcome: False as stated for weights from initWeights (C106_weights_refuted); proved under a logarithmic grid.
* **C107 Potentials of gradient-corrected exchange and kinetic functionals** - `GGA_Model.v` transcribes ExCorr_internal_GGA.h 144-297 and 627-672 at one grid point. Derivatives are Coquelicot's, along every straight line in densities and contractions. Constants such as (3 pi^2)^(2/3) are compared through logarithms.
  Theorems in `GGA_Props.v`.
  Outcome: The PW91 form is differentiated for positive gradients only, since a square root of the contraction enters. Short-ranged omega-PBE, GLLB-sc and LB94 are not modelled.
* **C108 Potentials of gradient-corrected correlation functionals** - `GGA_Model.v` transcribes ExCorr_internal_GGA.h 175-217 and 496-624 on top of the local functionals of `LDA_Model.v`. The gradient correction is differentiated along curves of all its arguments, including the coefficient beta that the revised TPSS functional varies. Negativity of the uniform energy compares the fits for the stiffness and the unpolarized gas.
  Theorems in `GGA_Props.v`.
  Outcome: Full polarization is excluded, where the code itself drops a singular term.
* **C109 Closed forms of Gaussian integrals with erfc** - WPBE_Model transcribes the four specializations; an explicit antiderivative with erf and a limit at infinity give n = 1, 3, 5 (WPBE_Proofs2), derivatives along curves are in WPBE_Proofs
  Theorems in `WPBE_Props.v`.
  Outcome: n = 2 has no elementary antiderivative: it is characterized by its derivative with respect to B, stated with the improper integral of the differentiated integrand, and its limit for large B.
* **C110 Derivatives of short-ranged omega-PBE exchange** - the function is transcribed section by section (scaling, h, f, g, integral); each section gets a derivative along curves and these are composed; division by zero in the derivative of g is a distinct outcome
  Theorems in `WPBE_Props.v`.
  Outcome: False as stated: C110_uniform_refuted (at s2 = 0 the s2 derivative divides zero by zero) and C110_scaling_refuted (the scaling of s is not continuous at s = 1); proved for every s2 > 0 other than the two thresholds 1 and 225. At the level of GGA_eval; the composition with the density is C107 for the other functionals.
* **C111 Exchange potentials without an energy** - one iteration of each loop is transcribed and compared with a separately stated published formula
  Theorems in `WPBE_Props.v`.
  Outcome: False as stated: C111_LB94_spin_refuted (the formula is evaluated at the density multiplied by the number of channels instead of the spin density) and C111_LB94_asymptote_refuted (the cutoff on the density removes the tail); proved: C111_LB94 with the scaled density, sign, equal spins, tail and GLLB-sc.
* **C112 Reduced quadrature over molecular orientations** - SO3_Model transcribes setup, euler and weight; the bound on the order is justified by counting the orbit of an off-axis position, the average by splitting the sum over the circle into blocks
  Theorems in `SO3_Props.v`.
  Outcome: Largest among the exact symmetries; a symmetry within the threshold but not exact may be accepted or missed. The quadrature over nodes itself (exactness to jMax) is not part of the claim.
* **C113 Neutrality of the unit cell of a fluid mixture** - Neutral_Model transcribes Qtot, the Newton loop with its ten iterations, the scale factors and their derivatives; neutrality is read off the exit test, the derivatives follow by differentiating the neutrality condition
  Theorems in `Neutral_Props.v`.
  Outcome: False as stated: C113_iterations_refuted (the loop ends silently after ten iterations far from neutrality although a neutral shift exists); proved when the loop ends by its convergence test. The differentiability of the neutral shift is a hypothesis of C113_derivatives.

## Disagreements between the code and the stated properties

Each is a theorem about the transcribed code; the comment is the one beside the theorem.

* `C37_indices_roundtrip_far_k_refuted`: Without the bound on k the round trip fails: for k = (1,0,0) on the smallest accepted box the vector (-2,0,0) of the basis comes back as (2,0,0).
* `C103_accuracy_refuted`: the comment in the code promises 1 part in 1e15 at the crossover
* `C103_high_degree_refuted`: 
* `C46_shape_negative_density_refuted`: compute takes fabs(n), so the shape function is even, but propagateGradient does not flip the sign of the derivative for negative n: the gradient is wrong there (grid densities can be slightly negative)
* `C46_candle_cutoff_refuted`: the asymmetry tanh(x^2) is replaced by 1 for x > 4, so the shape function has a (tiny) jump at x = 4 and no derivative there
* `C46_softsphere_radius_refuted`: a grid point that coincides with the atom is skipped entirely: right for the force, but the derivative with respect to the radius is lost
* `C72_equivalence_refuted`: Beyond 1/symmThreshold cells (10000 by default) the test accepts cells which are not equivalent.
* `C18_same_order_refuted`: Two orders of the same lines need not run the commands in the same order: within a pass the order of the file is kept.
* `C19_cross_section_refuted`: False across sections: phonon forbids fix-electron-density, but is run before it and so never sees it.
* `C19_own_forbids_unchecked_refuted`: 
* `C08_energy_check_documented_refuted`: The documented criterion also counts vanishing changes and increases; the code does not.
* `C08_energy_check_nan_refuted`: Energies that are not numbers are reported as converged.
* `C38_changeGrid_up_real_field_refuted`: ... but not in general: on an even grid the Nyquist coefficient is carried to one of the two conjugate points of the larger grid only,
* `C38_changeGrid_down_real_field_refuted`: and on the way down the smaller grid's Nyquist coefficient receives one of two conjugate values instead of their sum.
* `C51_exchange_spherical_fixed_radius_refuted`: with the fixed radius of CoulombSpherical (no exchange regularization, ExchangeEval line 381) the same gradient is not the derivative: it still contains the term for a radius growing with the volume
* `C65_D_real_field_refuted`: ... but the single-direction derivative D keeps the Nyquist frequencies and is not one.
* `C66_dot_odd_refuted`: ... and not for odd dimensions from 3, where the last slice is not at the Nyquist frequency but is counted once (a manual fftbox may be odd).
* `C79_hyperplane_refuted`: 
* `C79_all_fixed_refuted`: 
* `C79_external_potential_refuted`: 
* `C93_rotation_gradient_refuted`: The code leaves out the weight (ElecMinimizer.cpp line 214), so that its gradient is not the derivative of the energy, unless the weight is one.
* `C94_scalar_steps_refuted`: With constant scalar fillings, the steps of a line search do not compose: a step followed by its reverse does not lead back.
* `C94_trial_gradient_refuted`: Away from the start of a line search the rotated gradient is not the derivative along the line: the inverse of the rotation stands where its adjoint should.
* `C73_odd_mesh_refuted`: With an odd number of points in every direction no mesh point need be on the boundary; the code then dereferences rbegin() of an empty map: the remaining hypotheses of the theorems above do not suffice.
* `C52_near_lock_refuted`: 
* `C52_axis_comment_refuted`: 
* `C84_field_lattice_derivative_refuted`: With an electric field the lattice derivative is not that of the energy.
* `C87_grid_edge_refuted`: At the edge of the grid a shifted component is given the kernel of another wave vector: coordinate -1 instead of 3.
* `C90_sends_completed_refuted`: 
* `C85_shifted_kpoint_refuted`: k-points equal up to a non-zero reciprocal lattice vector: the energy uses the G=0 value for the component iG = -kDiff, the gradient omits its derivative.
* `C05_no_cutoff_terminates_refuted`: The positivity hypothesis is needed: with no cutoff (Smin stays 0, GridInfo.cpp:204 not taken) the search never ends, because fftSuitable(0) divides 0 by 2 forever.
* `C48_fmt_branch_refuted`: at the switch between series and closed form the scale functions jump, hence the energy has no derivative at all
* `C48_bond_kink_refuted`: the vector correction factor is clamped at zero, which leaves a kink at |n2v| = n2
* `C91_fixed_mu_and_M_gradient_refuted`: Fixed mu and M: the code divides by the difference of the channels, and the result is not the derivative.
* `C91_fixed_mu_and_field_energies_refuted`: With mu and a field both given they do not.
* `C32_given_bands_refuted`: As stated, for every given number of bands, the property is false: 6 electrons with magnetization 4 and 3 bands pass all checks (3 bands times 2 spins hold 6 electrons) but the majority channel needs 5 bands; 2 electrons are lost.
* `C04_fullGspaceLoop_any_thread_count_refuted`: ... and without that the loop does not finish: THREAD_fullGspaceLoop tests for the end only after executing its body (LoopMacros.h:67), so an empty range never ends.
* `C59_positive_remainder_all_ints_refuted`: Callers pass int; beyond 16 bits the result is wrong.
* `C59_gcdReduce_keeps_direction_refuted`: The sign is not always kept: (0,0,-2) is reduced to (0,0,1).
* `C59_gcdReduce_total_refuted`: The zero vector leads to a division by zero.
* `C61_hyperplanes_refuted`: Hyperplanes that are not orthogonal are not respected, and constraining is then not idempotent.
* `C61_symmetric_hyperplane_refuted`: The check of the symmetry of constraints accepts hyperplanes that are not symmetric; they are then not respected.
* `C62_momentum_refuted`: The mean of the accelerations is not weighted by the masses: momentum is not conserved.
* `C63_lattice_refuted`: 
* `C69_planar_z_refuted`: 
* `C71_safe_step_refuted`: 
* `C29_needs_group_refuted`: False without closure under products, which is not checked for manually specified symmetries: with the identity and a three-fold rotation (but not its square), the weights 1/3, 1/3, 1/3 become 2/3, 2/3.
* `C49_PZ_refuted`: the low and high density branches of Perdew-Zunger correlation do not meet at rs = 1: no derivative there
* `C13_initial_refuted`: The property is false as stated: the initial state is not restored when it was the best (symmetric operator).
* `C13_last_refuted`: ... and a worse state is restored over the last one when that was the best.
* `C54_bad_column_write_rejected_refuted`: C54, out-of-range columns in a write: false of the code. The two assertions on the columns use "||" (matrixOperators.cpp:101-102), so the write goes outside the matrix.
* `C54_negative_column_write_rejected_refuted`: 
* `C55_tiled_left_product_wide_tiles_refuted`: C55, non-square tiles from the left: false of the code, which uses the column offset of the tile for the rows of the result (matrixOperators.cpp:421,425).
* `C55_tiled_left_product_tall_tiles_refuted`: 
* `C16_zero_bytes_refuted`: But an object of zero bytes never gives its block back: blocks can remain after all objects are released.
* `C09_quad_undo_refuted`: 
* `C09_quad_sign_refuted`: 
* `C09_minimize_restores_refuted`: As a consequence minimize(), started at a minimum, can end elsewhere with a higher energy.
* `C11_secant_refuted`: With a preconditioner it does not.
* `C104_solved_start_refuted`: 
* `C104_restart_refuted`: The solution of a system, given as the start, has a residual: the start is scaled once more.
* `C47_dielectric_bisection_refuted`: the constructor only rejects alpha < 0: for epsBulk < epsInf (alpha > 3) the linear inversion loops forever
* `C47_dielectric_series_refuted`: the small-field series for logsinch is one order shorter than that for frac, so it is not its exact antiderivative
* `C113_iterations_refuted`: neutrality is not always reached: the loop is left after ten iterations although a neutral shift exists
* `C98_single_cell_refuted`: 
* `C98_axis_refuted`: 
* `C99_zero_mode_refuted`: 
* `C99_molecule_refuted`: 
* `C99_unit_weight_refuted`: 
* `C14_repeated_calls_refuted`: False as stated for repeated calls without clearState (as in the exact-exchange loop of SCF::minimize): the first call stops on convergence before computing the overlaps of its last residual, and the second call mixes with whatever the overlap matrix contained there (here 0 instead of 1/100).
* `C106_weights_refuted`: With weights that are complete already, the alternating factors of the transform remain: a constant misses its integral by a tenth.
* `C20_name_is_first_word_refuted`: With a variable whose value starts with a blank this fails: substitution comes after trimming, and the command name read is empty.
* `C23_terminates_refuted`: A variable whose value mentions itself: the loop never ends.
* `C23_input_file_terminates_refuted`: The input file alone can do it, with a value that contains no reference at all.
* `C21_distinct_files_refuted`: Two different files whose names differ in letter case only, without any cycle, are reported as a cycle.
* `C22_all_processes_agree_refuted`: With a newline in an environment variable the other processes see different commands.
* `C30_mp1_range_refuted`: As stated for every type the range, monotonicity and symmetry are false: Methfessel-Paxton occupations leave [0,1] on both sides and are not monotone; cold smearing exceeds 1, is not monotone and is not symmetric.
* `C30_mp1_monotone_refuted`: 
* `C30_cold_range_refuted`: 
* `C30_cold_monotone_refuted`: 
* `C30_cold_symmetric_refuted`: 
* `C67_noncollinear_processes_agree_refuted`: Noncollinear, several processes: the increments of line 889 stay on the process that made them, so two processes hold different potentials for the same positive semidefinite spin-density.
* `C39_screened_in_bounds_refuted`: The guard of the screened exchange kernels compares with the number of samples, which lets through arguments whose evaluation reads past the end of the table.
* `C40_last_sample_refuted`: The last sample point itself cannot be evaluated: it reads one coefficient past the end of the array, for every list of samples.
* `C40_few_samples_refuted`: Fewer than three samples index outside the arrays of the solver.
* `C33_offset_overflow_refuted`: The offsets are computed in int: 100 states of 5000 x 5000 matrices overflow (undefined behaviour) in every process.
* `C35_total_force_refuted`: The total force is not preserved in general.
* `C35_translation_refuted`: A mesh that fits all rotations, but not the translations, passes the checks of the code, and there symmetrization is not a projection.
* `C43_isolated_delta_refuted`: for an arbitrary collection the claim is false: a delta function outside of all the intervals is dropped
* `C43_gap_refuted`: two intervals with a gap stop at the assertion, delta functions alone make the first iterator invalid
* `C53_direction_refuted`: the comment T_t(x(r)) = x(r+t) of TranslationOperator.h line 40 has the opposite sign
* `C53_fourier_nyquist_refuted`: 
* `C77_layout_refuted`: ** C77
* `C77_reach_refuted`: 
* `C77_cache_refuted`: 
* `C110_uniform_refuted`: without a gradient the derivative with respect to s2 is not finite
* `C110_scaling_refuted`: the scaled s is not a continuous function of s
* `C111_LB94_spin_refuted`: the published formula is one of the spin density itself
* `C111_LB94_asymptote_refuted`: 
* `C64_neighbours_refuted`: getNeighbours is documented to leave out neighbours along truncated directions, but its continue statement only skips the inner loop.
* `C02_empty_loop_runs_nothing_refuted`: C02, empty loop: false of the code. With nJobs = 0 each thread t is handed [t, nThreads), so a loop over zero iterations does run its body.
* `C02_empty_loop_runs_cell_twice_refuted`: ... and with several threads the same cell is updated more than once.
* `C03_empty_dot_is_zero_refuted`: C03, N = 0: false of the code. The dot product of empty vectors reads element 0 and returns x0*y0 (BlasExtra.cpp:272 launches with nJobs = N = 0).
* `C101_high_degree_refuted`: 

## Observations made while transcribing (not stated as theorems)

* `Minimize_linmin.h` lines 101, 110 (linminQuad): see C09; `alphaT` is a by-value parameter, so the adjusted test step is lost.
* `Minimize_LBFGS.h`: with history size 1 the last pair is dropped before use; gamma is not reset after a history reset.
* `Pulay.h`: history = 0 erases from an empty vector.
* `memory.cpp`: a zero-byte request on the GPU path calls cudaMalloc(0).
* `Spline.h`: the documented valid range excludes the last sample, see C40.
* `matrixOperators.cpp` det: the sign of the pivot permutation is not used (only the modulus is meaningful).
* `Phonon.cpp` lines 486-490 (C98): `isTruncated[iDir]` numbers lattice directions but sets Cartesian diagonal elements; a slab whose truncated direction is not along the axis of the same number gets a singular `alphaInv`. A single repetition along a periodic direction is singular as well.
* `Phonon.cpp` lines 187-220 (C99): `ikMin` stays -1 if the lowest eigenvalue is zero but never negative, while `kSqMaxIm` becomes positive: `quad[-1]` is read.
* `Phonon.cpp` lines 293-303 (C99): a molecule (all directions truncated) has an empty quadrature, so that ZPE, E and A are zero. Elsewhere the innermost box is left out, so that the weights add up to slightly less than one.
- `expandYlmProd` (SphericalHarmonics.h 208-352) returns an empty expansion for degrees 4 to 6, which `Ylm` supports; a caller with l > 3 gets zero instead of an error (`C101_high_degree_refuted`).
- `bessel_jl` (`jdftx/core/SphericalHarmonics.h` 45): the comment promises 1 part in 1e15 at the crossover, but seven correction terms leave a relative error above 3e-15 for l = 0 at x = 1 (`C103_accuracy_refuted`). For l > 6 the function is zero just above the crossover and correct below it (`C103_high_degree_refuted`).
- `LinearSolvableIndefinite::MINRES` (`jdftx/perturb/LinearSolver.h` 189): a start that already solves the system is divided by its zero residual; the state is lost and nothing is reported (`C104_solved_start`, `C104_solved_start_refuted`). The start is taken in scaled variables but the result is returned in unscaled ones, so a previous solution is not recognised (`C104_restart_refuted`).
- `RadialFunctionR::transform` (RadialFunction.cpp 149-159) multiplies every sample by a Simpson factor 1/3, 4/3 or 2/3. Weights from `initWeights` are complete already, and fluid/Molecule.cpp uses them with `transform`. For locations 1, 2, 3 and a constant function the result is a tenth too small (`C106_weights_refuted`). The factors average to one, so that fine grids hide it.
- With an even number of samples `transform` ignores the last one (`C106_even_drops`).
- C110: GGA_X_wPBE_SR divides by gErfcArg, which is zero for a density without gradient; e_sIn2 is then an infinity times zero (ExCorr_internal_GGA.h line 407). The scaling of s (lines 364-378) jumps at s = 1, which is proved, and by hand calculation also at s = 15.
- C111: GGA_X_LB94 evaluates the formula at nCount times the spin density (line 482), which is the total density for an unpolarized system; the reference is one of the spin density, so the correction is smaller by up to 2^(1/3). Below nCutoff the potential is zero and not -1/r.
- C113: FluidMixture::operator() limits the Newton iteration for the neutralizing potential to ten steps and continues with a charged cell without a message. Each step moves by at most one unit once the exponential dominates, so an external charge of a thousand times the number of ions is not reached (C113_iterations_refuted). After an exit by the iteration count, Qprime also belongs to the previous iterate.

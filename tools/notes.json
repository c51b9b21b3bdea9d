{
 "C01": [
  "proved",
  "All widths and code paths. _refuted: on an empty string ffs of the >64-bit path does not return 0 (no caller relies on it)."
 ],
 "C02": [
  "proved",
  "_refuted theorems give the wide-string inputs on which fast_to_ulong/ullong drop bits."
 ],
 "C03": [
  "proved",
  "Strict total order equal to the integer order, on every code path."
 ],
 "C04": [
  "proved",
  "std::stable_sort is modelled by its contract (stable insertion sort). _refuted: more electrons than energies reads past the list."
 ],
 "C05": [
  "proved",
  "_refuted: assertion rejects full occupation; bits at or above norb silently give an incomplete virtual list."
 ],
 "C06": [
  "proved",
  "Spinless singles/doubles, counts, active-space variants."
 ],
 "C07": [
  "proved",
  "Widths 64 and 128 (those whose half-words the code extracts)."
 ],
 "C08": [
  "proved",
  ""
 ],
 "C09": [
  "proved",
  "Termination of the do/while loop included. std::prev_permutation modelled by its standard algorithm."
 ],
 "C10": [
  "proved",
  ""
 ],
 "C22": [
  "proved",
  "_refuted: over-long strings are accepted and corrupt the beta string."
 ],
 "C11": [
  "proved",
  ""
 ],
 "C12": [
  "proved",
  ""
 ],
 "C13": [
  "proved",
  "Exact arithmetic; needs (pq|rs) = (rs|pq) only. Widths 64 and 128."
 ],
 "C14": [
  "proved",
  ""
 ],
 "C15": [
  "partial",
  "Zero beyond two moves is proved for all inputs. The part of the claim about different particle numbers is false of the code: C15_spin_flip_refuted, C15_electron_pair_refuted."
 ],
 "C16": [
  "proved",
  ""
 ],
 "C17": [
  "proved",
  "Row pointers are unbounded integers (overflow of a 32-bit index type is not modelled)."
 ],
 "C18": [
  "proved",
  "Row bounds from the default tiling; the MPI distribution itself is modelled as one call per rank."
 ],
 "C19": [
  "proved",
  "Stated with the code's 1e-16 cutoff on coefficient products. _refuted: the 2-RDM is not stored entry by entry as the textbook matrix; only the contraction with symmetric integrals is right."
 ],
 "C20": [
  "proved",
  "With the code's 1e-16 cutoff."
 ],
 "C21": [
  "partial",
  "False in general (C21_null_trdm_refuted); proved for lists without pairs exactly two moves apart."
 ],
 "C26": [
  "proved",
  "std::sort / pdqsort by contract: every tie resolution."
 ],
 "C27": [
  "proved",
  ""
 ],
 "C28": [
  "proved",
  "One rank, exact arithmetic, no resonance E0 = H_tt. Without the bound on the number of pairs (pair_size_max) the pruning theorem gives the list contract only. _refuted: a limit below the core size wraps around and is not enforced."
 ],
 "C36": [
  "proved",
  "The diagonaliser is an arbitrary relation. _refuted: with grow_factor = 1 growth can loop forever. grow_with_rot = true is C61."
 ],
 "C37": [
  "proved",
  ""
 ],
 "C51": [
  "proved",
  "C51_resonance: an exact resonance gives a non-finite score."
 ],
 "C53": [
  "proved",
  ""
 ],
 "C29": [
  "proved",
  "satisfies_constraint is true exactly for the strings whose orbitals at or above the constraint's lowest one are the constraint's; make_triplet and make_quad build such constraints; beyond 64 orbitals below the lowest one they throw (refuted)."
 ],
 "C30": [
  "proved",
  "Sound, complete and duplicate-free for every determinant and constraint, given an empty output vector; a stale output vector is a refuted case."
 ],
 "C31": [
  "proved",
  "Both counters and the histogram."
 ],
 "C32": [
  "proved",
  "Every string within two moves of the given alpha strings and with at least 3 + nlevels electrons meets exactly one constraint over all ranks, whatever local_average, tie breaking and partition order are; splitting a constraint partitions it. Strings with fewer electrons are lost (refuted)."
 ],
 "C33": [
  "proved",
  "Each constraint on exactly one rank; greedy (LPT) bound: the load of a rank exceeds no other rank's load by more than the work of any constraint it owns."
 ],
 "C52": [
  "proved",
  "All ranks together report each state once with its total score, complete for alpha strings of at least 3+level electrons; equal to the serial result whenever the two screenings keep the same pairs (always without screening). The unrestricted English claim is false: refuted for |c h| vs |h| screening, just_singles, fewer than three electrons, pruning."
 ],
 "C34": [
  "proved",
  "For every distribution, pivot sequence and outcome of partition/nth_element every rank returns a k-th element of the union and the loop ends after at most one round per element; the same value on all ranks when ties are equal. Hypothesis: fewer than 2^31 elements in total (int counts). k = 0 and k larger than the total are undefined behaviour, not errors (refuted)."
 ],
 "C35": [
  "proved",
  "Gather/scan correct below 2^31; chunked reduction and broadcast equal the unchunked ones for every chunk size. Refuted: the scan accumulates in int and wraps beyond 2^31; buffers of INT_MAX elements or more are refused by a throw, so the chunk loop is never reached."
 ],
 "C54": [
  "proved",
  "Proved for every rank count and pivot sequence when at least as many candidates exist as requested; best ones and equal to the serial search when no two candidates tie. Refuted: fewer candidates than requested is undefined behaviour; with ties the truncation by rank order can drop the strictly best determinant."
 ],
 "C41": [
  "proved",
  "Compressed-row product for every base, leading dimension, number of columns and order of the parallel iterations. Coordinate-format product proved for base 0 and refuted for base 1 (the index base is ignored; that overload is not used by the solvers)."
 ],
 "C42": [
  "proved",
  "For every number of ranks, row tiling, sparsity pattern and order of the local loops, below 2^31 exchanged elements per rank; messages follow the MPI non-overtaking rule and uninitialised buffer elements are errors in the model. Composed with the distributed Hamiltonian of C18."
 ],
 "C43": [
  "proved",
  "Tiles given in closed form, unique owner, custom tilings accepted exactly when valid. Refuted: the copy constructor forgets a custom tiling."
 ],
 "C38": [
  "partial",
  "CSR->COO, CSC->CSR, change of index base, CSR->dense and sorting are proved for every well-formed matrix. COO->CSR is proved for row-sorted matrices without empty rows (it throws when unsorted) and COO->CSC for square matrices without empty columns; both restrictions are necessary: refuted with witnesses (empty row gives wrong entries; rectangular throws or is ill-formed). COO->dense holds for base 0 and is refuted for base 1. Triangle expansion needs a complete diagonal; otherwise it is proved to fail. Values are exact rationals; index types unbounded."
 ],
 "C39": [
  "proved",
  "For matrices whose rows have non-decreasing column indices (needed: std::partition_point is undefined otherwise); diagonal and trace need no order but no repeated column. Includes the distributed constructors built on the extraction."
 ],
 "C40": [
  "proved",
  "Row/column permutation for every number of threads, thread assignment and iteration order; the per-thread index vectors reused across rows are modelled. perm_from_part throws exactly when some part number is too large."
 ],
 "C23": [
  "proved",
  "Files are their text; double formatting/parsing is abstracted by show/rnd with the hypothesis that each coefficient's text reads back as itself (prints). _refuted: writing an empty wavefunction leaves an older file in place."
 ],
 "C24": [
  "proved",
  "Reading semantics for any line order and duplicate lines, and the round trip of symmetric integrals. _refuted: orbital-energy lines are undefined behaviour; five-field header lines, integer-valued integrals, Fortran exponents misread; a padded target array is undefined; a second write throws."
 ],
 "C25": [
  "proved",
  "Any leading dimensions on both sides; padding untouched. _refuted: truncated files are accepted."
 ],
 "C44": [
  "partial",
  "Round trips of MatrixMarket (local, distributed) and binary files, reading of general/symmetric MatrixMarket files. Missing because false: see the _refuted theorems (0-based matrix without row/column 0 shifted, default base of 1-based matrices, empty rows in CSR, triangular matrices in binary files). Number formatting abstracted by show/rnd, doubles' bytes by enc/dec."
 ],
 "C45": [
  "proved",
  "Two-index transform for every leading dimension; four-index transform for packed arrays (what the property claims), composition law for both. Also proved: with LDX/LDY larger than the dimension the four-index code does not respect them (refuted theorems), and what it computes instead."
 ],
 "C46": [
  "proved",
  "All Fock matrices for every leading dimension, energy identity for integrals with (pq|rs)=(rs|pq) and symmetric D; refuted without that symmetry. Energy in rotated orbitals."
 ],
 "C47": [
  "proved",
  "Packing layout is a bijection, pack/unpack are inverse, antisymmetry, gradient vector and matrix; every leading dimension for unpacking and gradients."
 ],
 "C48": [
  "partial",
  "Amplitudes, zero denominators, density blocks, trace, symmetry, natural-orbital wrapper (LAPACK syev an arbitrary function). Missing because false: block-diagonality (the caller's off-diagonal entries are kept) and the printed energy for LDV > norb; both have _refuted theorems."
 ],
 "C55": [
  "partial",
  "Derivative theorem for every symmetric-integral problem and every rotation (exact second-order Taylor expansion with a bound on the remainder), uniqueness, diagonal Hessian, descent. Missing because false: symmetry of Hessian products away from stationary points (refuted, with the exact asymmetry proved) and the one-index transform for LDX <> LDT (refuted). Proved for packed T, V (LDT = LDV = norb)."
 ],
 "C49": [
  "proved",
  "History, extrapolation, coefficient affinity and least-squares optimality (LAPACK gelss an arbitrary function; the optimality theorem assumes its least-squares contract). A zero history limit and an empty history are undefined behaviour: _refuted theorems."
 ],
 "C50": [
  "proved",
  "Exact rationals; the square root and LAPACK syev are parameters (an exact root / an eigensolver of symmetric matrices where a theorem says so). Serial = distributed for max_m at most the dimension. Five claims of the English property are false of the code and are stated as *_refuted or *_never_returns with witnesses."
 ],
 "C56": [
  "partial",
  "Serial: proved for all spaces with at least two determinants (a run that returns); trace and energy up to the neglected coefficients, with the exact bound. Missing because false: with one determinant, or on two or more MPI ranks, it never returns (proved); the two-body density does not have the symmetry of the integrals (refuted)."
 ],
 "C57": [
  "proved",
  "LDV = norb and LDD = nactive (see C59 for other leading dimensions); the matrix exponential is a parameter assumed to be orthogonal for antisymmetric arguments, gelss an exact least-squares solver; exact rationals. No claim that a run returns."
 ],
 "C58": [
  "partial",
  "The exact test and stopping rule are proved. Missing because false: at the first point the length of the gradient is tested, not its root mean square (refuted); the caller gets the energy of an unconverged run (refuted)."
 ],
 "C59": [
  "partial",
  "Proved for LDD = nactive. Missing because false: for padded densities the energy is wrong (refuted); densities with the right trace are accepted however unphysical and a \"converged\" energy below the spectrum is returned (refuted)."
 ],
 "C60": [
  "partial",
  "Proved for every pass of every returning run. Missing because false: diis_nkeep = 0 with DIIS, or an empty set of rotations with a tolerance of zero, never make a pass that succeeds (proved as C60_no_history, C60_nothing_to_rotate). The limit is not claimed for extrapolated steps."
 ],
 "C61": [
  "partial",
  "Proved on one rank for every eigensolver returning all eigenpairs and every diagonaliser. Missing because false: the returned energy is that of the last iteration, before the rotation, and not of the returned determinants with the returned integrals (C61_energy_refuted)."
 ],
 "C62": [
  "partial",
  "Proved for every P > 1, pivot sequence and solver oracle: agreement of the ranks, determinants, residual, variational energy, growth and refinement paths. Missing because false: it does not return with fewer determinants than ranks (C62_few_determinants_refuted), nor when it grows from the single lowest determinant and the first target is not a multiple of the number of ranks (C62_first_step_refuted). Ranks run in lockstep; grow_with_rot on several ranks is C72."
 ],
 "C63": [
  "partial",
  "Values and frame of both routines for all inputs, error bounds against the analytic gradient and Hessian, exponentials that meet the hypotheses. Hessian accuracy needs i < b (the loop bound); LDOG ignored, missing pairs and the b = j elements are refuted with runs. Exact arithmetic: rounding is not bounded. LDV must be the number of orbitals (C47)."
 ],
 "C64": [
  "partial",
  "Files of the layout IniSpec.line_says/laid_out are read exactly as they say, totality for unindented files, numbers, switches. Missing because false: nine layouts or queries a user would expect to work (C64_*_refuted). isspace of negative characters, stof and getDataInSection are not modelled."
 ],
 "C65": [
  "proved",
  "For every partition of the orbitals and every pair of determinants; energies of runs that return with exact square roots and an exact dense eigensolver (oracles), up to inject(n*n)*threshold for n determinants. Floating point rounding is not modelled."
 ],
 "C66": [
  "partial",
  "Serial build of the standalone program, from the input file to the printed energy and the files written. Missing because false (refuted): too many electrons are not reported; with E0_WFN, an unnormalised WFN_FILE or densities of no wave function in RDMFILE the energy printed need not be that of a wave function. Not covered: console output other than the energy and the determinants. The MPI build is C73."
 ],
 "C67": [
  "proved",
  "Orbital-rotation invariance of full CI, proved from the anticommutation relations of the rotated operators (RotInvProofs*.v): the CI matrices are orthogonally similar; consequences for states, bounds, eigenvalues, the transformation functions, casscf_diis, ASCI growth with rotations and the printed energies. Exact arithmetic; CI matrices without threshold (what the threshold changes is the stated error). The same claim for a selection of determinants is refuted."
 ],
 "C68": [
  "proved",
  "In exact arithmetic. Beyond the statement, refuted with runs: the discrete search may end higher than it starts, and bfgs gives up where the curvature is negative (a double well). Convergence within max_iter is not claimed."
 ],
 "C69": [
  "proved",
  "Real matrices, exact arithmetic, exact syev/potrf/gelqf. A quotient by zero ends the modelled run. Beyond the statement, refuted with runs: a guess that is not orthonormal is used as it is and may end in a converged value below the spectrum, and with K > 2N the workspace asked for is overrun."
 ],
 "C70": [
  "proved",
  "METIS is a parameter. Beyond the statement, refuted with a matrix: a diagonal element stored twice leaves a loop in the graph."
 ],
 "C71": [
  "proved",
  "Exact conversion of decimals is a parameter. Beyond the statement, refuted with files: the type is ignored (of a symmetric matrix only one triangle is read) and so are the Fortran formats (D exponents dropped, adjacent numbers joined); a file cut within its values is accepted."
 ],
 "C72": [
  "proved",
  "Exact arithmetic; lapack::syev of the density by contract, the solver's eigensolver and square root arbitrary. Ranks run in lockstep and start with the same arrays; an exception on rank 0 is an error of the run. That the energy is not the one of the returned integrals is part of the path (and refuted as a claim in C61_energy_refuted)."
 ],
 "C73": [
  "partial",
  "ASCI with and without GROW_WITH_ROT, from the input file to the energy and WFN_OUT_FILE, for every number of ranks and every sequence of pivots; sizes below 2^31. Missing because false (refuted): with EXPANSION = CAS and with MCSCF (without RDMFILE) no run on two or more ranks ends with an energy. With an RDMFILE a run on several ranks ends only if no densities had to be calculated, with the energy of the file's densities. Ranks run in lockstep on the same files."
 ]
}
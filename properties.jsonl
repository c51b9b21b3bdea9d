{"id": "C01", "title": "Bit scanning is exact", "statement": "For a non-empty bit string of any width, the first-set-bit query returns one plus the smallest set position, the last-set-bit query returns the largest set position, whichever width-specific code path is selected, and the index-list conversion returns exactly the set positions in strictly increasing order.", "quantifier": "every width and every bit string of that width", "why_tests_cant": "2^W strings per width, four different code paths chosen at compile time; tests sample a handful of strings at three widths.", "anchors": ["include/macis/bitset_operations.hpp:ffs", "include/macis/bitset_operations.hpp:fls", "include/macis/bitset_operations.hpp:bits_to_indices"]}
{"id": "C02", "title": "Masks and width changes preserve bits", "statement": "A mask of i ones has bit p set iff p < i; truncating keeps exactly the bits below the new width; expanding changes no bit; truncate after expand is the identity; the low and high halves of a string determine it and are recovered from it.", "quantifier": "every pair of widths and every bit string", "why_tests_cant": "template instantiations and strings are unbounded; each width goes through a different specialisation.", "anchors": ["include/macis/bitset_operations.hpp:full_mask", "include/macis/bitset_operations.hpp:truncate_bitset", "include/macis/bitset_operations.hpp:expand_bitset", "include/macis/bitset_operations.hpp:bitset_lo_word", "include/macis/bitset_operations.hpp:bitset_hi_word"]}
{"id": "C03", "title": "Determinant ordering is a strict total order", "statement": "The determinant comparator is irreflexive, transitive and trichotomous, and agrees with the unsigned integer value of the string, on every code path, so that sorting and de-duplication with it is well defined.", "quantifier": "every width, every pair/triple of bit strings", "why_tests_cant": "a comparator that is wrong on one pair breaks std::sort with undefined behaviour; pairs cannot be enumerated.", "anchors": ["include/macis/bitset_operations.hpp:bitset_less", "include/macis/bitset_operations.hpp:bitset_less_comparator"]}
{"id": "C04", "title": "Hartree-Fock reference occupation", "statement": "The canonical HF determinant with na alpha and nb beta electrons occupies exactly the na lowest alpha and nb lowest beta orbitals; the energy-ordered variant occupies exactly the na (nb) orbitals that come first when orbitals are ordered by energy with ties broken by index, for any energy list.", "quantifier": "every width, electron counts and orbital energy list", "why_tests_cant": "ties and orderings of energies are unbounded.", "anchors": ["include/macis/sd_operations.hpp:canonical_hf_determinant"]}
{"id": "C05", "title": "Occupied/virtual partition", "statement": "For a state supported on the first norb orbitals the occupied and virtual lists are strictly increasing, disjoint, and together contain every orbital below norb exactly once; occupied orbitals are exactly those set in the state. The active-space variant partitions the given orbital list, in order.", "quantifier": "every norb, state, active orbital list", "why_tests_cant": "all occupation patterns.", "anchors": ["include/macis/sd_operations.hpp:bitset_to_occ_vir", "include/macis/sd_operations.hpp:bitset_to_occ_vir_as"]}
{"id": "C06", "title": "Spinless single and double excitations are complete and duplicate free", "statement": "The generated singles (doubles) of a state contain exactly the states on the same orbitals with the same number of electrons that differ by moving exactly one (two) electrons, each once, and their number is nocc*nvir (C(nocc,2)*C(nvir,2)).", "quantifier": "every norb and state", "why_tests_cant": "completeness and absence of duplicates over all states cannot be sampled.", "anchors": ["include/macis/sd_operations.hpp:append_singles", "include/macis/sd_operations.hpp:append_doubles", "include/macis/sd_operations.hpp:generate_singles", "include/macis/sd_operations.hpp:generate_doubles", "include/macis/sd_operations.hpp:generate_singles_doubles"]}
{"id": "C07", "title": "Spin-conserving excitations are complete and duplicate free", "statement": "The spin-resolved singles (doubles) of a determinant are exactly the determinants with the same number of alpha and of beta electrons within norb orbitals reached by moving one (two) electrons, each listed once; the active-space variants give exactly those whose changed orbitals lie in the active list.", "quantifier": "every norb, determinant, active orbital list, even width", "why_tests_cant": "all determinants.", "anchors": ["include/macis/sd_operations.hpp:generate_singles_spin", "include/macis/sd_operations.hpp:generate_singles_doubles_spin", "include/macis/sd_operations.hpp:generate_singles_spin_as", "include/macis/sd_operations.hpp:generate_singles_doubles_spin_as"]}
{"id": "C08", "title": "CIS and CISD spaces", "statement": "The CIS (CISD) space of a reference is duplicate free and consists of exactly the reference and every determinant with the same alpha and beta electron counts at most one (two) electron moves away.", "quantifier": "every norb and reference determinant", "why_tests_cant": "all references.", "anchors": ["include/macis/sd_operations.hpp:generate_cis_hilbert_space", "include/macis/sd_operations.hpp:generate_cisd_hilbert_space"]}
{"id": "C09", "title": "Full CI space enumeration", "statement": "The full Hilbert space for (norb, nalpha, nbeta) contains each determinant with nalpha alpha and nbeta beta electrons in the first norb orbitals exactly once, and no other; its size is C(norb,nalpha)*C(norb,nbeta).", "quantifier": "every norb, nalpha<=norb, nbeta<=norb with norb at most half the width", "why_tests_cant": "combinatorially many determinants; relies on prev_permutation walking the whole orbit.", "anchors": ["include/macis/sd_operations.hpp:generate_combs", "include/macis/sd_operations.hpp:generate_hilbert_space"]}
{"id": "C10", "title": "Two-electron residues", "statement": "The residues of a determinant are exactly the determinants obtained by removing two distinct electrons (alpha-alpha, beta-beta or mixed), each once; their number is C(nalpha+nbeta,2).", "quantifier": "every determinant", "why_tests_cant": "all determinants.", "anchors": ["include/macis/sd_operations.hpp:generate_residues"]}
{"id": "C11", "title": "Single-excitation phase", "statement": "The sign reported for a single excitation equals the fermionic phase obtained by applying the annihilator of the emptied orbital and then the creator of the filled one in second quantisation, and the reported orbitals are the emptied and the filled one; the phase is the same for the reverse excitation.", "quantifier": "every width, every pair of determinants that differ by one electron move", "why_tests_cant": "sign errors appear only for particular occupation patterns between the two orbitals.", "anchors": ["include/macis/sd_operations.hpp:single_excitation_sign", "include/macis/sd_operations.hpp:single_excitation_sign_indices", "include/macis/sd_operations.hpp:first_occupied_flipped"]}
{"id": "C12", "title": "Double-excitation phase", "statement": "The indices and sign reported for a double excitation (any spin pairing) equal those of applying the corresponding two annihilators and two creators in second quantisation.", "quantifier": "every width, every pair of determinants that differ by two electron moves", "why_tests_cant": "sign errors appear only for particular interleavings of the four orbitals.", "anchors": ["include/macis/sd_operations.hpp:doubles_sign_indices", "include/macis/sd_operations.hpp:doubles_sign"]}
{"id": "C13", "title": "Slater-Condon matrix elements are those of the second-quantised Hamiltonian", "statement": "The matrix element returned for a bra and ket equals <bra| sum_pq t_pq a+_p a_q + 1/2 sum_pqrs (pq|rs) a+_p a+_r a_s a_q |ket> summed over both spins, for integrals with the usual permutational symmetry.", "quantifier": "every orbital count, one- and two-electron integrals with the stated symmetry, every pair of determinants in the orbital space", "why_tests_cant": "the element is a sum over occupations with sign and exchange terms; tests compare a few elements against stored numbers.", "anchors": ["include/macis/hamiltonian_generator/matrix_elements.hpp", "include/macis/hamiltonian_generator/impl.hpp", "include/macis/hamiltonian_generator.hpp:matrix_element"]}
{"id": "C14", "title": "Hermiticity of the Hamiltonian", "statement": "Exchanging bra and ket does not change the matrix element when the integrals are symmetric.", "quantifier": "every pair of determinants and symmetric integrals", "why_tests_cant": "all pairs.", "anchors": ["include/macis/hamiltonian_generator/matrix_elements.hpp", "include/macis/hamiltonian_generator.hpp:matrix_element"]}
{"id": "C15", "title": "Selection rules", "statement": "The matrix element is exactly zero when the determinants differ by more than two electron moves or have different numbers of alpha or beta electrons.", "quantifier": "every pair of determinants, any integrals", "why_tests_cant": "all pairs; guards on Hamming distance and per-spin counts.", "anchors": ["include/macis/hamiltonian_generator.hpp:matrix_element"]}
{"id": "C16", "title": "Incremental diagonal elements", "statement": "The fast single, same-spin double and opposite-spin double diagonal updates return the diagonal matrix element of the excited determinant, given the diagonal element of the reference and its single-orbital energies.", "quantifier": "every determinant, excitation and integrals with the usual symmetry", "why_tests_cant": "the formulas cancel many terms; each excitation class is different.", "anchors": ["include/macis/hamiltonian_generator/fast_diagonals.hpp"]}
{"id": "C17", "title": "CSR Hamiltonian content", "statement": "The sparse Hamiltonian built for bra and ket determinant lists is a well-formed compressed-row matrix in which entry (i,j) is stored iff both determinants are non-empty, they are within a double excitation and the matrix element exceeds the threshold in magnitude; the stored value is that matrix element and columns increase within a row.", "quantifier": "every pair of determinant lists, integrals and threshold", "why_tests_cant": "all determinant lists.", "anchors": ["include/macis/csr_hamiltonian.hpp", "include/macis/hamiltonian_generator/double_loop.hpp"]}
{"id": "C18", "title": "Distributed Hamiltonian equals the serial one", "statement": "For any number of ranks, the row blocks partition the rows, and on each rank the diagonal and off-diagonal tiles added together give exactly the rank's rows of the serial Hamiltonian.", "quantifier": "every determinant list and every number of ranks", "why_tests_cant": "tests run with one or two ranks and one determinant list.", "anchors": ["include/macis/csr_hamiltonian.hpp:make_dist_csr_hamiltonian", "src/sparsexx/include/sparsexx/matrix_types/dist_sparse_matrix.hpp"]}
{"id": "C19", "title": "RDM energy identity", "statement": "Contracting the integrals with the computed one- and two-body reduced density matrices reproduces the expectation value of the Hamiltonian for the given coefficients.", "quantifier": "every determinant list, coefficient vector and integrals with the usual symmetry", "why_tests_cant": "identity over all coefficient vectors and determinant lists.", "anchors": ["include/macis/hamiltonian_generator/rdms.hpp", "include/macis/util/rdms.hpp"]}
{"id": "C20", "title": "One-body RDM definition and trace", "statement": "The computed 1-RDM is the sum over bra/ket pairs of c_bra c_ket times <bra|a+_p a_q|ket> summed over spin; its trace is the sum of c^2 times the electron count.", "quantifier": "every duplicate-free determinant list and coefficient vector", "why_tests_cant": "all lists and coefficients.", "anchors": ["include/macis/hamiltonian_generator/rdms.hpp", "include/macis/util/rdms.hpp"]}
{"id": "C21", "title": "1-RDM-only request", "statement": "Asking for the 1-RDM without a 2-RDM gives the same 1-RDM as asking for both.", "quantifier": "every determinant list and coefficients", "why_tests_cant": "depends on which excitation class pairs of the list fall in.", "anchors": ["include/macis/util/rdms.hpp"]}
{"id": "C22", "title": "Canonical string round trip", "statement": "Parsing the canonical string of a determinant gives the determinant back, the string has one character per spatial orbital, and printing a parsed string over {0,u,d,2} of full length gives the string back.", "quantifier": "every determinant and every string", "why_tests_cant": "all determinants.", "anchors": ["include/macis/sd_operations.hpp:to_canonical_string", "include/macis/sd_operations.hpp:from_canonical_string"]}
{"id": "C23", "title": "Wavefunction file round trip", "statement": "Reading a wavefunction file written by the library returns the same determinants and coefficients in the same order.", "quantifier": "every orbital count, determinant list and coefficient list", "why_tests_cant": "all lists.", "anchors": ["include/macis/wavefunction_io.hpp"]}
{"id": "C24", "title": "FCIDUMP semantics and round trip", "statement": "Each integral line is classified by which of its indices vanish and stored at all its symmetry-equivalent positions; reading a file written from symmetric integrals returns those integrals and the core energy, and the orbital count is recovered.", "quantifier": "every orbital count, symmetric integrals, any line order", "why_tests_cant": "all integrals and line orders.", "anchors": ["src/macis/fcidump.cxx"]}
{"id": "C25", "title": "Binary RDM file round trip", "statement": "Reading an RDM file written by the library restores exactly the two matrices, for any leading dimensions, touching no padding; a file with another orbital count is rejected.", "quantifier": "every norb, leading dimensions and matrices", "why_tests_cant": "strides and padding.", "anchors": ["include/macis/util/binary_rdms.hpp", "src/macis/fcidump.cxx:write_rdms_binary/read_rdms_binary"]}
{"id": "C26", "title": "Contribution accumulation", "statement": "Sorting and accumulating candidate contributions yields each candidate state exactly once, in increasing state order, with score equal to the sum of all its contributions.", "quantifier": "every list of contributions", "why_tests_cant": "all multiplicity patterns.", "anchors": ["include/macis/asci/determinant_sort.hpp"]}
{"id": "C27", "title": "Keeping the largest copy", "statement": "Merging candidate lists with repeated states returns each state exactly once, in increasing state order, paired with the maximum of the scores it was given.", "quantifier": "every list and k", "why_tests_cant": "ties and sizes.", "anchors": ["include/macis/asci/determinant_sort.hpp:keep_only_largest_asci_pairs"]}
{"id": "C28", "title": "ASCI search result contract", "statement": "The serial search returns selected candidates followed by all core determinants, duplicate free and at most the requested number (when that is at least the number of core determinants); every selected determinant is a non-core candidate with a non-zero score whose magnitude is at least that of every candidate left out, and nothing with a non-zero score is left out while there is room. Below the number of core determinants the limit is not enforced.", "quantifier": "every wavefunction, core count, target size", "why_tests_cant": "all wavefunctions.", "anchors": ["include/macis/asci/determinant_search.hpp:asci_search"]}
{"id": "C29", "title": "Constraint predicate", "statement": "An alpha string satisfies a constraint exactly when its highest occupied orbitals are the constraint's orbitals and nothing at or above the constraint's lowest orbital other than them is occupied.", "quantifier": "every constraint and string", "why_tests_cant": "all strings.", "anchors": ["include/macis/asci/mask_constraints.hpp:satisfies_constraint"]}
{"id": "C30", "title": "Constraint excitations are sound and complete", "statement": "The excitations generated for a determinant under a constraint are exactly the single (double) excitations whose result satisfies the constraint, each listed once.", "quantifier": "every determinant, constraint and orbital count", "why_tests_cant": "case analysis on how many constraint orbitals are empty.", "anchors": ["include/macis/asci/mask_constraints.hpp:generate_constraint_singles/doubles/_excitations"]}
{"id": "C31", "title": "Constraint work counts equal generated work", "statement": "The counting functions used for load balance return exactly the number of excitations the generators list.", "quantifier": "every determinant and constraint", "why_tests_cant": "all determinants.", "anchors": ["include/macis/asci/mask_constraints.hpp:constraint_histogram/count_*"]}
{"id": "C32", "title": "Constraints partition the determinants", "statement": "Every alpha string with enough electrons satisfies exactly one of the constraints produced for work distribution, at every splitting level.", "quantifier": "every orbital count, string and nesting level", "why_tests_cant": "all strings.", "anchors": ["include/macis/asci/mask_constraints.hpp:make_triplet/gen_constraints_general", "include/macis/asci/mask_constraints.hpp:dist_constraint_general"]}
{"id": "C33", "title": "Work assignment covers every constraint once", "statement": "The load balancer gives every constraint to exactly one rank and no rank exceeds the greedy bound.", "quantifier": "every number of ranks and every work list", "why_tests_cant": "all work lists.", "anchors": ["include/macis/asci/mask_constraints.hpp:dist_constraint_general"]}
{"id": "C34", "title": "Distributed selection", "statement": "Distributed quickselect returns the k-th element of the union of all ranks' lists, on every rank, for any distribution of data across ranks and any sequence of random pivots, and terminates.", "quantifier": "every distribution of data, k in range, pivot sequence", "why_tests_cant": "random pivots and rank counts cannot be enumerated.", "anchors": ["include/macis/util/dist_quickselect.hpp"]}
{"id": "C35", "title": "Collective helpers", "statement": "The gather-and-scan helper gives every rank the total and the sum of lower ranks' values; chunked reductions over long buffers give the same result as one reduction for every chunk size.", "quantifier": "every number of ranks, values, lengths and chunk size", "why_tests_cant": "chunk boundaries only matter beyond 2^31 elements.", "anchors": ["include/macis/util/mpi.hpp"]}
{"id": "C36", "title": "Growth and refinement loops", "statement": "If growth returns, the wavefunction has exactly the target number of determinants and passed through strictly increasing sizes; refinement preserves the number of determinants and returns only when the energy change is within tolerance; otherwise an error is raised.", "quantifier": "every search/solver behaviour, settings and start", "why_tests_cant": "all histories of iterations.", "anchors": ["include/macis/asci/grow.hpp", "include/macis/asci/refine.hpp", "include/macis/asci/iteration.hpp"]}
{"id": "C37", "title": "Coefficient reordering", "statement": "Reordering a wavefunction by coefficient magnitude keeps each determinant paired with its own coefficient, is a permutation, and the magnitudes come out non-increasing.", "quantifier": "every wavefunction", "why_tests_cant": "all orderings and ties.", "anchors": ["include/macis/asci/determinant_sort.hpp:reorder_ci_on_coeff"]}
{"id": "C38", "title": "Sparse format conversions preserve the matrix", "statement": "Converting between coordinate, compressed-row and compressed-column formats (either base) gives a well-formed matrix with the same entries.", "quantifier": "every well-formed sparse matrix", "why_tests_cant": "all sparsity patterns, including empty rows/columns.", "anchors": ["src/sparsexx/include/sparsexx/matrix_types/conversions.hpp", "src/sparsexx/include/sparsexx/matrix_types/coo_matrix_ops.hpp", "src/sparsexx/include/sparsexx/matrix_types/coo_conversions.hpp", "src/sparsexx/include/sparsexx/matrix_types/dense_conversions.hpp"]}
{"id": "C39", "title": "Submatrix extraction", "statement": "Extracting a row/column range (or the rows with the column range excluded) gives a well-formed matrix whose entries are the corresponding entries of the source; the two pieces of a row block add up to the block.", "quantifier": "every matrix and range", "why_tests_cant": "all patterns and ranges.", "anchors": ["src/sparsexx/include/sparsexx/util/submatrix.hpp"]}
{"id": "C40", "title": "Permutations", "statement": "Row/column permutation of a sparse matrix gives A'(i,j)=A(p(i),q(j)); the inverse permutation undoes it; the forward and backward vector permutations are inverse; the partition-derived permutation is a bijection grouping rows by part.", "quantifier": "every matrix, permutation and partition vector", "why_tests_cant": "all permutations.", "anchors": ["src/sparsexx/include/sparsexx/util/permute.hpp"]}
{"id": "C41", "title": "Local sparse matrix times block of vectors", "statement": "The local product computes alpha*A*V + beta*AV for every well-formed compressed-row matrix, index base, leading dimensions and number of columns, touching nothing else.", "quantifier": "every matrix, scalars, K, leading dimensions", "why_tests_cant": "strides and index bases.", "anchors": ["src/sparsexx/include/sparsexx/spblas/spmbv.hpp"]}
{"id": "C42", "title": "Distributed sparse product", "statement": "The distributed product with its communication plan gives each rank its rows of the global product, for any number of ranks, row partition and sparsity pattern.", "quantifier": "every matrix, partition and vector", "why_tests_cant": "communication plan depends on the pattern.", "anchors": ["src/sparsexx/include/sparsexx/spblas/pspmbv.hpp"]}
{"id": "C43", "title": "Row tiling of distributed matrices", "statement": "The default row tiles are consecutive, disjoint and cover all rows for any number of ranks; index-to-owner lookups agree with the tiling.", "quantifier": "every row count and rank count", "why_tests_cant": "remainders.", "anchors": ["src/sparsexx/include/sparsexx/matrix_types/dist_sparse_matrix.hpp"]}
{"id": "C44", "title": "Sparse file formats round trip", "statement": "Reading back a matrix written in binary-triplet or MatrixMarket form gives the same entries.", "quantifier": "every matrix and index base", "why_tests_cant": "all patterns and bases.", "anchors": ["src/sparsexx/include/sparsexx/io/write_mm.hpp", "src/sparsexx/include/sparsexx/io/read_mm.hpp", "src/sparsexx/include/sparsexx/io/write_binary_triplets.hpp", "src/sparsexx/include/sparsexx/io/read_binary_triplets.hpp"]}
{"id": "C45", "title": "Integral transformations", "statement": "The two- and four-index transforms return C^T X C and the fourfold contraction for every coefficient matrix and packed arrays; transforming by C1 then C2 equals transforming by C1*C2.", "quantifier": "every array, coefficients and dimensions", "why_tests_cant": "leading dimension handling, all dimensions.", "anchors": ["src/macis/transform.cxx"]}
{"id": "C46", "title": "Fock matrices and energy", "statement": "The inactive and active Fock matrices are the documented contractions and the energy computed from the generalised Fock matrix equals inactive energy plus active one- and two-body contributions.", "quantifier": "every partition of orbitals, integrals with the usual symmetry, density matrices", "why_tests_cant": "all sizes.", "anchors": ["src/macis/fock_matrices.cxx"]}
{"id": "C47", "title": "Orbital rotation packing", "statement": "Packing and unpacking of orbital rotation parameters are inverse, the unpacked matrix is antisymmetric and vanishes within the inactive, active and virtual blocks; the packed gradient is the packing of the gradient matrix.", "quantifier": "every orbital partition and parameter vector", "why_tests_cant": "offset arithmetic for all sizes.", "anchors": ["src/macis/orbital_rotation_utilities.cxx", "src/macis/orbital_gradient.cxx"]}
{"id": "C48", "title": "MP2 quantities", "statement": "MP2 amplitudes are the integral over denominators; the MP2 one-particle density has trace twice the number of occupied orbitals and is block diagonal and symmetric.", "quantifier": "every size, integrals and orbital energies without zero denominators", "why_tests_cant": "all sizes.", "anchors": ["src/macis/moller_plesset.cxx"]}
{"id": "C49", "title": "DIIS history", "statement": "The extrapolation buffer holds the most recent at most ndiis_max vectors in insertion order with the matching error inner products.", "quantifier": "every sequence of insertions", "why_tests_cant": "all histories.", "anchors": ["include/macis/util/diis.hpp"]}
{"id": "C50", "title": "Iterative eigensolver: guess, residual, variational bound, serial and distributed", "statement": "The diagonal guess is one at a smallest diagonal element; new basis vectors are orthonormal to the old; whatever serial or distributed selected_ci_diag returns has residual norm below the threshold for the Hamiltonian of the passed determinants; without a passed guess the returned energy is the expectation value of the returned unit vector, at or below every diagonal element and never below the spectrum; with room for the whole space the iteration never ends as 'not converged'; the distributed solver returns on every rank exactly what the serial one returns whenever a smallest diagonal element lies before the remainder rows, and its iteration never deadlocks. Refuted: that the guess is a unit vector when the caller's vector is not zero; that a passed guess gives a variational energy; that the distributed solver returns whenever the serial one does (a smallest diagonal element in the remainder rows only, or more ranks than rows, never returns); that ranks agree on whether a passed guess is used (if not, they wait for ever).", "quantifier": "every integral set, determinant list, rank count, row distribution, guess, threshold and subspace size; every order of the reductions", "why_tests_cant": "rank layouts with remainder rows, guesses with small local parts and eigenvectors as starts are special inputs; the bound ranges over all matrices and histories.", "anchors": ["include/macis/solvers/davidson.hpp", "include/macis/solvers/selected_ci_diag.hpp"]}
{"id": "C51", "title": "Candidate scores", "statement": "Every contribution generated for a core determinant targets a genuine spin-conserving single or double excitation of it inside the orbital space and has score c*H_ij/(E0-H_jj) with the exact matrix elements; every such excitation above the tolerance is generated.", "quantifier": "every determinant, integrals and thresholds", "why_tests_cant": "sums over all excitations.", "anchors": ["include/macis/asci/determinant_contributions.hpp"]}
{"id": "C52", "title": "Serial and constraint-based searches agree", "statement": "Processing the determinants constraint by constraint generates the same contributions as the unconstrained search.", "quantifier": "every determinant list and constraint set", "why_tests_cant": "depends on electron counts and thresholds.", "anchors": ["include/macis/asci/determinant_search.hpp", "include/macis/asci/determinant_contributions.hpp"]}
{"id": "C53", "title": "Search, growth and refinement preserve the electron counts", "statement": "Starting from distinct determinants inside the orbital space with the same number of alpha and beta electrons, an ASCI iteration, growth and refinement return only distinct determinants inside the orbital space with those same counts.", "quantifier": "every Hamiltonian, starting wavefunction, settings (thresholds, sizes, pruning) and diagonaliser behaviour, every tie resolution of the sorts", "why_tests_cant": "a test run follows one history of one system; the claim is an invariant over all histories", "anchors": ["include/macis/asci/iteration.hpp asci_iter", "include/macis/asci/grow.hpp asci_grow", "include/macis/asci/refine.hpp asci_refine", "include/macis/asci/determinant_search.hpp asci_search"]}
{"id": "C54", "title": "Parallel search returns the best determinants", "statement": "On any number of MPI ranks the determinant search returns the core determinants plus the requested number of distinct best-scored new determinants, and these are the determinants the serial search returns.", "quantifier": "every core, Hamiltonian, number of ranks, pivot sequence, outcome of unstable library algorithms", "why_tests_cant": "rank counts, random pivots and ties cannot be enumerated.", "anchors": ["include/macis/asci/determinant_search.hpp: asci_search", "include/macis/util/dist_quickselect.hpp"]}
{"id": "C55", "title": "Orbital derivatives of the energy", "statement": "The gradient and the Hessian-vector product returned for a density matrix and integrals are the first and second derivatives of the energy returned for orbitals rotated by exp(-tK), for every rotation K; Hessian products are symmetric; the preconditioned step goes downhill when the diagonal Hessian is positive.", "quantifier": "every orbital partition, integrals and density matrices with the usual symmetries, every rotation vector and every family of orbital coefficients agreeing with exp(-tK) to second order", "why_tests_cant": "a statement about all directions and all t; finite differences only see a few at limited precision.", "anchors": ["src/macis/orbital_gradient.cxx", "src/macis/orbital_hessian.cxx", "src/macis/orbital_energies.cxx", "src/macis/orbital_steps.cxx"]}
{"id": "C56", "title": "Densities of CI wave functions", "statement": "A CASCI calculation that returns has solved the eigenvalue problem in the space of all determinants of the given electron numbers to the residual tolerance, and fills the arrays with the one- and two-body density matrices of that solution: symmetric, with the trace of the number of electrons, and reproducing the energy with the integrals.", "quantifier": "every number of orbitals and electrons, every symmetric set of integrals, every number of MPI ranks", "why_tests_cant": "a statement about all integrals and all determinant spaces; tests compare a few molecules.", "anchors": ["include/macis/util/cas.hpp: compute_casci_rdms", "include/macis/hamiltonian_generator/rdms.hpp", "include/macis/solvers/selected_ci_diag.hpp"]}
{"id": "C57", "title": "CASSCF energy and densities belong to one set of orbitals", "statement": "The energy and the densities an orbital optimisation returns are those of the active space of one and the same set of orbitals, which is an orthogonal transformation of the given orbitals.", "quantifier": "every orbital partition, integrals, settings, starting densities, any number of passes with or without extrapolation, any CI solver that keeps its contract", "why_tests_cant": "it is an invariant over all passes of the optimisation from every start.", "anchors": ["include/macis/util/mcscf_impl.hpp: mcscf_impl", "src/macis/casscf.cxx: casscf_diis"]}
{"id": "C58", "title": "Convergence of the orbital optimisation", "statement": "The optimisation reports convergence exactly if the root mean square of the orbital gradient at the returned point is below orb_grad_tol_mcscf; it stops at the first such point and otherwise makes exactly max_macro_iter passes.", "quantifier": "every problem, settings and course of the optimisation", "why_tests_cant": "the stopping point depends on the whole history of every run.", "anchors": ["include/macis/util/mcscf_impl.hpp: mcscf_impl", "include/macis/util/mcscf.hpp: MCSCFSettings"]}
{"id": "C59", "title": "Starting densities of the orbital optimisation", "statement": "Passed densities with the trace of the number of electrons are used as the start, with the given leading dimensions; otherwise the densities of a CI in the given orbitals are used; the energy of a run that ends at once is the energy of these densities.", "quantifier": "every passed density, integrals, leading dimensions", "why_tests_cant": "all arrays and both branches have to be covered for all problems.", "anchors": ["include/macis/util/mcscf_impl.hpp: mcscf_impl"]}
{"id": "C60", "title": "Orbital steps are limited", "statement": "Every pass rotates the orbitals by the exponential of an antisymmetric matrix: the Newton step with the approximate diagonal Hessian, scaled to max_orbital_step when larger, added to the accumulated rotation, and extrapolated from the last diis_nkeep passes when DIIS is on. All settings give defined behaviour.", "quantifier": "every pass of every run, every settings", "why_tests_cant": "a statement about every pass from every state, including settings nobody tests.", "anchors": ["include/macis/util/mcscf_impl.hpp: mcscf_impl", "src/macis/orbital_steps.cxx: precond_cg_orbital_step", "include/macis/util/diis.hpp"]}
{"id": "C61", "title": "Growth with natural orbitals", "statement": "With grow_with_rot every growth step that reaches rot_size_start determinants rotates the integrals to the natural orbitals (descending occupation numbers) of the wave function just found and recomputes its coefficients; the growth ends at ntdets_max valid determinants, and the generator then holds the original integrals in other orthonormal orbitals. Without grow_with_rot the integrals are untouched. The returned energy is that of the returned determinants with the integrals now held.", "quantifier": "every wave function, integrals, settings, number of steps, eigensolver and diagonaliser outcome", "why_tests_cant": "the statement is about every step of every growth history and about integrals overwritten in place along it.", "anchors": ["include/macis/asci/grow.hpp: asci_grow", "include/macis/util/transform.hpp", "include/macis/asci/determinant_search.hpp: ASCISettings"]}
{"id": "C62", "title": "ASCI iterations on several ranks", "statement": "An iteration, growth or refinement on several MPI ranks leaves the same wave function on every rank: the leading determinants of the previous one and distinct single and double excitations of them with the same numbers of electrons, one gathered coefficient each, with the residual below the solver tolerance and, with exact roots and eigensolver, a normalised vector whose energy is variational. Growth ends with ntdets_max determinants and refinement keeps the number. It returns whenever the run on one rank would.", "quantifier": "every number of ranks, wave function, integrals, settings, pivot sequence and outcome of the solvers", "why_tests_cant": "the determinants per rank, the remainder rows and the pivots depend on the number of ranks and the random numbers; failures need sizes that do not divide.", "anchors": ["include/macis/asci/iteration.hpp: asci_iter", "include/macis/asci/grow.hpp: asci_grow", "include/macis/asci/refine.hpp: asci_refine", "include/macis/solvers/selected_ci_diag.hpp", "include/macis/solvers/davidson.hpp: p_diagonal_guess"]}
{"id": "C63", "title": "Numerical orbital gradients and Hessians agree with the analytic ones", "statement": "numerical_orbital_gradient stores at element (a,i), i<a, the five-point central difference with step 0.001 of the energy along the rotation of orbitals a and i, changes nothing else, and therefore agrees with the analytic gradient up to 20/3*10^-12 times the fifth-order remainder of the energy; numerical_orbital_hessian stores the mixed five-point difference for two rotations, which is the symmetrised analytic Hessian up to 32*10^-12 times the sixth-order remainder. (Refuted parts: LDOG is ignored; Hessian elements of pairs (a,i),(b,j) with b<=i are never computed; elements with b=j, which are no rotation, are.)", "quantifier": "all orbital spaces, integrals, density matrices, leading dimensions of the inputs, and all matrix exponentials that agree with exp(-tK) to third order", "why_tests_cant": "a test compares a few elements of one molecule to a tolerance; the error bound, the exact set of written elements and the leading dimensions concern all of them", "anchors": ["src/macis/orbital_gradient.cxx: numerical_orbital_gradient, numerical_orbital_hessian", "include/macis/util/orbital_gradient.hpp"]}
{"id": "C64", "title": "Input file of the standalone driver", "statement": "An input file made of headings, entries (key = value or key: value), continued values, comments and blank lines is read without failure, and getData(\"SECTION.KEY\") then returns exactly the value the file gives that key of that section (the last one, names without regard to case; a heading starts its section afresh) and throws for every other query; containsData says which; a missing file throws; any file without lines that start with a space, '=' or ':' is read without failure; decimal numbers are read back as size_t, int64_t and int, and switches are on for TRUE and ON. (Refuted parts: a comment, tab or carriage return behind a heading loses the section; an indented entry below another one is corrupted or fails; a lone '=' and a query without '.' are undefined; values are cut at '=', ':' and numbers at the first non-digit (1e6 reads as 1); 'true' is off; -1 wraps; repeated sections forget; padded section names cannot be found; containsSection is case sensitive.)", "quantifier": "all files (texts of any length), all section and key names, all values", "why_tests_cant": "tests read a handful of files; which layouts are read as written, and that no other query is answered, concerns every file and every name", "anchors": ["tests/ini_input.cxx: INIFile::parse, splitQuery, getData", "tests/ini_input.hpp: containsData, containsSection"]}
{"id": "C65", "title": "Freezing doubly occupied orbitals is exact, and the reported energies are variational", "statement": "active_hamiltonian and inactive_energy reduce the problem of all orbitals to the active ones without loss: for every pair of active-space determinants the matrix element from the active integrals (plus the inactive energy on the diagonal) equals the one computed from all integrals between the determinants with the inactive orbitals doubly occupied; energies, residuals and lower bounds correspond; and inactive energy + CI energy (selected CI or CASCI) is, up to the elements neglected below the threshold, the energy of a normalised wave function of all electrons, hence not below the exact energy in all orbitals.", "quantifier": "all numbers of orbitals (total, inactive, active) fitting the bitset, all integrals with the usual symmetry, all pairs/lists of determinants, all coefficient vectors, every run of the solver that returns", "why_tests_cant": "tests compare a few molecules with stored energies; the equality concerns every matrix element for every partition of the orbitals, and the variational bound every subset of determinants", "anchors": ["include/macis/util/fock_matrices.hpp: active_hamiltonian, inactive_energy", "src/macis/fock_matrices.cxx", "include/macis/hamiltonian_generator.hpp: matrix_element", "include/macis/util/mcscf_impl.hpp: compute_casci_rdms", "include/macis/solvers/selected_ci_diag.hpp"]}
{"id": "C66", "title": "The standalone program calculates what its input file asks for", "statement": "A run of standalone_driver that ends normally used exactly the settings its input file gives (documented defaults otherwise); without an argument, input file, FCIDUMP file or required keywords it does not end normally. The energy printed by JOB=CI (CAS or ASCI) and JOB=MCSCF is core energy in the file + energy of a normalised wave function of the requested determinants with the inactive orbitals doubly occupied, in the integrals of the file (or an orthogonal transformation of them), up to neglected matrix elements; the determinants printed are those with large coefficients; WFN_OUT_FILE holds that wave function and FCIDUMP_OUT those integrals.", "quantifier": "all input files, FCIDUMP files, wave function files, all choices of keywords, all outcomes of the nondeterministic parts (sort order, uninitialised memory), every run that returns", "why_tests_cant": "the repository has no test of the driver at all; the claim ranges over all input files and combinations of options", "anchors": ["tests/standalone_driver.cxx: main", "tests/ini_input.cpp", "include/macis/util/fcidump.hpp", "include/macis/wavefunction_io.hpp", "include/macis/asci/grow.hpp", "include/macis/asci/refine.hpp", "include/macis/util/mcscf.hpp", "include/macis/util/mp2.hpp"]}
{"id": "C67", "title": "Results do not depend on the orbitals the problem is stated in", "statement": "Transforming the one- and two-electron integrals with an orthogonal matrix (two_index_transform/four_index_transform, or the transformations inside MP2 guess, casscf and ASCI with rotations) leaves the full CI problem unchanged: the CI matrix over all determinants of given numbers of electrons, built with the new integrals, is the old one in another orthonormal basis, so eigenvalues, energies, residual norms and lower bounds agree. Hence the energy casscf_diis returns, and the energy the standalone program prints, is (up to the neglected matrix elements) the energy of a normalised wave function of all electrons in the orbitals of the input, and never below the exact energy there. Selections of determinants have no such invariance.", "quantifier": "all numbers of orbitals and electrons, all orthogonal matrices, all integrals (no symmetry assumed), all orders of the determinants; all inputs of casscf_diis and of the standalone program", "why_tests_cant": "A test compares the lowest energy of one molecule in two sets of orbitals; the claim is about the whole spectrum for every rotation and every space, and about wave functions the program never writes down in the original orbitals.", "anchors": ["include/macis/util/transform.hpp: two_index_transform, four_index_transform", "src/macis/transform.cxx", "include/macis/hamiltonian_generator.hpp: matrix_element", "src/macis/casscf.cxx: casscf_diis", "include/macis/asci/grow.hpp: asci_grow (rotations)", "tests/standalone_driver.cxx: main"]}
{"id": "C68", "title": "BFGS optimiser", "statement": "apply of a BFGS Hessian multiplies with the matrix the BFGS formula gives for the history of updates, from the identity, the scaled identity (scale of the last or of the first step), a diagonal or a user-supplied operator; it satisfies the secant equation, is symmetric, and gives descent directions as long as the curvature along the steps is positive. backtracking_line_search returns the first halving (at most 19) with the required decrease and never a higher objective; nocedal_wright_line_search returns only points with the strong Wolfe conditions and otherwise throws; discrete_line_search returns a best point of its grid. bfgs returns the end of a path of at most max_iter such steps, along which the objective does not rise, at a point that passes the convergence test; for strictly convex objectives it converges or throws.", "quantifier": "all objectives and gradients, all dimensions, starting points, histories of updates, iteration limits", "why_tests_cant": "Tests optimise a few functions from a few points; the matrix identity has to hold for histories of any length, and the line-search guarantees for objectives that are not smooth or not bounded.", "anchors": ["src/macis/bfgs/bfgs_hessian.hpp: BFGSHessian, UpdatedScaledBFGSHessian, StaticScaledBFGSHessian, RuntimeInitializedBFGSHessian, DiagInitializedBFGSHessian", "src/macis/bfgs/line_search.hpp: backtracking_line_search, nocedal_wright_line_search, discrete_line_search", "src/macis/bfgs/bfgs.hpp: bfgs"]}
{"id": "C69", "title": "Block eigensolver (LOBPCG)", "statement": "lobpcg, started from K orthonormal vectors for a symmetric matrix, returns (also when it throws for lack of convergence) K orthonormal vectors and NR values that are Ritz pairs: the matrix is diagonal between the first NR vectors, each value is the expectation value of its vector, ascending, and the residuals written are the actual relative residuals. If it does not throw, the convergence check holds for the actual residuals (simple interface: all relative residuals below the tolerance). No value is below the spectrum, the sum of the k lowest is at most the trace of the matrix on any k orthonormal combinations of the guess, and the recorded sums never grow from iteration to iteration. A workspace query answers 8NK+9K^2+5K, smaller workspaces are refused, and no access is out of bounds if K is at most N.", "quantifier": "all symmetric matrices, dimensions, block sizes, orthonormal guesses, preconditioners, tolerances and iteration limits", "why_tests_cant": "Tests solve a few matrices to convergence; the Ritz property, the variational bounds and the bounds of the workspace have to hold after any number of iterations for any matrix and any preconditioner.", "anchors": ["src/lobpcgxx/include/lobpcgxx/driver.hpp: lobpcg, lobpcg_lwork", "src/lobpcgxx/include/lobpcgxx/cholqr.hpp: cholqr", "src/lobpcgxx/include/lobpcgxx/rayleigh_ritz.hpp: rayleigh_ritz", "src/lobpcgxx/include/lobpcgxx/residuals.hpp: residuals", "src/lobpcgxx/include/lobpcgxx/convergence.hpp: lobpcg_relres_convergence_check, lobpcg_absres_convergence_check", "src/lobpcgxx/include/lobpcgxx/simplified_interface.hpp: lobpcg"]}
{"id": "C70", "title": "Adjacency graph of a sparse matrix", "statement": "extract_adjacency of a well-formed CSR matrix without repeated entries returns adjacency lists (row pointers and neighbours, counted from the requested base) in which the neighbours of vertex i are the columns stored in row i, in order, except i itself, whether or not the diagonal is stored and whatever the index base of the matrix; their total length is the number of off-diagonal entries. For a symmetric pattern the graph is undirected without loops or repeated edges. kway_partition throws for fewer than two parts and otherwise hands this graph to METIS.", "quantifier": "all well-formed CSR matrices, index bases and numbers of parts", "why_tests_cant": "A test partitions one matrix with a full diagonal; METIS accepts wrong graphs silently, so missing or shifted neighbours for rows without a diagonal or for base 1 go unnoticed.", "anchors": ["src/sparsexx/include/sparsexx/util/graph.hpp: extract_adjacency, kway_partition", "src/sparsexx/src/metis_wrapper.cxx: metis_kway_partitioning"]}
{"id": "C71", "title": "Rutherford-Boeing files", "statement": "read_rb returns, for every Rutherford-Boeing file whose blocks of column pointers, row indices and values have the announced lengths, the matrix with exactly these arrays (counted from 1) as a CSC matrix and the same elements, ordered within rows, as a CSR matrix, however the numbers are spread over lines. Lines after the values are refused. Values missing at the end of the file are read as zeros.", "quantifier": "all files, sizes, line layouts and conversions of decimals", "why_tests_cant": "There is no test of the reader; layouts of numbers over lines are unbounded, and a shifted or dropped number gives a plausible matrix.", "anchors": ["src/sparsexx/include/sparsexx/io/read_rb.hpp: read_rb_as_csc, read_rb", "src/sparsexx/include/sparsexx/util/string.hpp: tokenize"]}
{"id": "C72", "title": "Growth with natural orbitals on several ranks", "statement": "With grow_with_rot on several ranks, every pass of the growth ends with the same determinants, coefficients and integrals on all ranks. From rot_size_start determinants on, the integrals after a pass are those before it in the natural orbitals of the wave function just found (descending occupation), the same on every rank, and the coefficients are an approximate eigenvector of the Hamiltonian of the determinants with the new integrals. Over the whole growth the integrals change by an orthogonal transformation only. With grow_with_rot = false the integrals are unchanged and growth is that without rotation. The returned energy is that of the last iteration, before its rotation.", "quantifier": "all numbers of ranks, integrals with the pair symmetry, wave functions, settings, pivot sequences and solver results", "why_tests_cant": "The rotation runs on one rank and is broadcast; a rank left with old integrals gives plausible but wrong energies, for some sizes and numbers of ranks only. There is no test of growth with rotation on several ranks.", "anchors": ["include/macis/asci/grow.hpp: asci_grow", "include/macis/util/mpi.hpp: bcast"]}
{"id": "C73", "title": "The standalone program on several ranks", "statement": "The standalone program built with MPI and run on several ranks calculates what its input file asks for, as on one rank. For ASCI without orbital rotations the energy printed is that of a normalised wave function over NTDETS_MAX determinants (or as many as the file has, if more) with the inactive orbitals doubly occupied, plus the core energy of the file, up to the neglected matrix elements, and WFN_OUT_FILE holds this wave function. With GROW_WITH_ROT it is that of such a wave function in orthogonally transformed active orbitals, and so of one over all determinants of the active space in the orbitals of the file; WFN_OUT_FILE holds its coefficients in the transformed orbitals. For the full active space and for MCSCF the energy is that of a wave function over all determinants of the active space.", "quantifier": "all numbers of ranks, input files, integral files, wave function files, pivot sequences and solver results", "why_tests_cant": "Results depend on the distribution of search tasks, determinants and matrix rows over the ranks and on random pivots; tests run the program on one rank, if at all.", "anchors": ["tests/standalone_driver.cxx: main", "include/macis/asci/grow.hpp: asci_grow", "include/macis/asci/refine.hpp: asci_refine", "include/macis/util/cas.hpp: compute_casci_rdms"]}

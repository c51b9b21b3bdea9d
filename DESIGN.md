# DESIGN

Formal model of wavefunction91/MACIS (C++ headers and sources under /repo) in Coq 8.16.1.

## Modelling conventions

* `std::bitset<W>` is a binary natural `N` below 2^W with the width as explicit argument; `~` and `<<` truncate to W bits; `reinterpret_cast` word access is division/modulus by 2^32 / 2^64 (little endian).
* indices and lengths are `nat`; `size_t` wrap-around is written explicitly where the code can underflow.
* `double` is modelled by exact canonical rationals `Qc`. Rounding, NaN and infinities are not modelled.
* `std::vector` is `list`; out-of-range access, exceptions, asserts and undefined behaviour are `None`/error results, not defaults.
* MPI ranks are a list of per-rank values; collectives are pure functions from that list to per-rank results.
* standard library algorithms are modelled by executable reference implementations satisfying their C++ contract (or by the contract, quantified universally).

## Plan per property

| id | property | plan |
|---|---|---|
| C01 | Bit scanning is exact | Bits.v: bitset<W> is a binary number below 2^W; each `if constexpr` branch is a branch on W; ffs/clz builtins are defined on binary numbers; induction on numbers. |
| C02 | Masks and width changes preserve bits | Bits.v; bitwise extensionality. |
| C03 | Determinant ordering is a strict total order | Bits.v; the 128-bit reinterpret path and the bit-loop path both shown equal to numeric order. |
| C04 | Hartree-Fock reference occupation | SD.v with a stable insertion sort specification of std::stable_sort; permutation/rank argument. |
| C05 | Occupied/virtual partition | SD.v; ffs loop on the complement with truncation to W bits. |
| C06 | Spinless single and double excitations are complete and duplicate free | SD.v; list comprehension in loop order, In-characterisation, NoDup and length. |
| C07 | Spin-conserving excitations are complete and duplicate free | SD.v; half-word split. |
| C08 | CIS and CISD spaces | SD.v corollaries. |
| C09 | Full CI space enumeration | SD.v; prev_permutation on bool vectors modelled as written in the C++ standard (swap/reverse), proved to enumerate all permutations of the multiset. |
| C10 | Two-electron residues | SD.v. |
| C11 | Single-excitation phase | Fock.v is the second-quantised specification; parity algebra. |
| C12 | Double-excitation phase | idem. |
| C13 | Slater-Condon matrix elements are those of the second-quantised Hamiltonian | Ham.v models tables and loops; Slater-Condon theorem by finite-sum manipulation over exact rationals. |
| C14 | Hermiticity of the Hamiltonian | corollary. |
| C15 | Selection rules | direct. |
| C16 | Incremental diagonal elements | sums over occupation lists. |
| C17 | CSR Hamiltonian content | Csr.v: two nested loops with row pointer; invariant on loop state. |
| C18 | Distributed Hamiltonian equals the serial one | Csr.v + Dist.v: tiles. |
| C19 | RDM energy identity | Rdm.v: accumulate contributions, linearity. |
| C20 | One-body RDM definition and trace | idem. |
| C21 | 1-RDM-only request | expected false: null-pointer dispatch falls through (refuted by witness). |
| C22 | Canonical string round trip | SD.v strings as lists of characters. |
| C23 | Wavefunction file round trip | IO.v: file as list of tokens; text formatting of doubles is an oracle with round-trip hypothesis. |
| C24 | FCIDUMP semantics and round trip | Fcidump.v: lines as (value,p,q,r,s). |
| C25 | Binary RDM file round trip | RdmFile.v: memory as function offset->value. |
| C26 | Contribution accumulation | Asci.v: sort specified by permutation+sortedness, code's merge loop as fold. |
| C27 | Top-k selection | nth_element as its standard contract. |
| C28 | ASCI search result contract | composition. |
| C29 | Constraint predicate | Constraint.v bitwise. |
| C30 | Constraint excitations are sound and complete | Constraint.v case analysis as in code. |
| C31 | Constraint work counts equal generated work | idem. |
| C32 | Constraints partition the determinants | combinatorial induction on bit position. |
| C33 | Work assignment covers every constraint once | greedy loop invariant. |
| C34 | Distributed selection | Quickselect.v: ranks = list of lists; pivot sequence is an arbitrary oracle; strong induction on total size. |
| C35 | Collective helpers | Mpi.v. |
| C36 | Growth and refinement loops | Grow.v: loop with oracle search/solver and fuel; partial correctness over every history. |
| C37 | Coefficient reordering | Asci.v. |
| C38 | Sparse format conversions preserve the matrix | Sparse.v. |
| C39 | Submatrix extraction | Sparse.v. |
| C40 | Permutations | Sparse.v. |
| C41 | Local sparse matrix times block of vectors | Sparse.v memory model. |
| C42 | Distributed sparse product | Dist.v message passing as pure exchange. |
| C43 | Row tiling of distributed matrices | Dist.v. |
| C44 | Sparse file formats round trip | Sparse IO. |
| C45 | Integral transformations | Dense.v: arrays are flat lists with leading dimensions, GEMM/transposes by their BLAS contract; loop invariants over the written cells; refutations by computed witnesses. |
| C46 | Fock matrices and energy | Dense.v; each loop nest is a fold that fills distinct cells; energy identity by rearranging finite sums. |
| C47 | Orbital rotation packing | Dense.v; bijection between packed positions and pairs (p,q). |
| C48 | MP2 quantities | Dense.v; division by zero is the error NonFinite; LAPACK syev is an arbitrary function. |
| C49 | DIIS history | Diis.v; LAPACK gelss is an arbitrary function; induction on the call history. |
| C50 | Davidson eigensolver: guess, residual, variational bound, serial = distributed | Davidson.v models davidson.hpp (serial and distributed), gram_schmidt, diagonal_guess and selected_ci_diag.hpp over exact rationals with the square root and syev as parameters; DavSpec.v says orthonormal, residual, spectrum, expectation. Loop invariant: orthonormal basis, projected matrix exact, energy = smallest Ritz value; distributed run = serial run by a simulation in both directions over the reductions' nondeterminism. |
| C51 | Candidate scores | Asci.v + Ham.v. |
| C52 | Serial and constraint-based searches agree | Asci.v + Constraint.v. |
| C53 | see properties.jsonl | Asci.v. |
| C54 | Parallel search returns the best determinants | AsciMpi.v = Constraint.v + Collective.v; composition of C52 and C34. |
| C55 | Orbital derivatives of the energy | Dense.v; exact Taylor expansion to second order with remainder bound, over families of orbital matrices; algebra of finite sums. |
| C56 | Densities of CI wave functions | Mcscf.v (compute_casci_rdms, also on P ranks) over Ham.v, Davidson.v and SD.v; CasciSpec.v says densities of a vector. Symmetry of the accumulated arrays by linear functionals of every contribution; energy by C19, trace by C20, eigenproblem by C50. |
| C57 | CASSCF energy and densities belong to one set of orbitals | Mcscf.v models mcscf_impl pass by pass over Dense.v, Diis.v; McscfSpec.v has points, passes and the answer. Loop invariant relating the state to a trajectory of points, for every CI functor with a contract. |
| C58 | Convergence of the orbital optimisation | Same invariant: test at every point; runs computed for the refuted claims. |
| C59 | Starting densities | mcscf_start of Mcscf.v; both branches; runs computed for the refuted claims. |
| C60 | Orbital steps are limited | rotate of Mcscf.v; each pass of the trajectory is an orbital_pass of McscfSpec.v; bounds from it. |
| C61 | Growth with natural orbitals | AsciRot.v: the growth loop on packed integrals that are rotated in place, eigensolver and diagonaliser as parameters; invariant along the path of passes, AsciRotSpec.grow_pass. |
| C62 | ASCI iterations on several ranks | AsciPar.v: the iteration, growth and refinement loops on P ranks over the models of the distributed search (AsciMpi.v) and solver (Davidson.v), with the Allgather/Bcast of the coefficients; if_returns invariants, AsciParSpec.passed/variational; the two non-returning families through the start vector of the solver. |
| C63 | numerical orbital derivatives | NumGrad.v: both loops over the models of compute_orbital_rotation and the rotated energy (Mcscf.v, Dense.v), matrix exponential an oracle; NumGradSpec.five_point/quartic/quintic2; a fold that fills an array at injective positions; the stencils are exact on polynomials, remainder bounds by linear arithmetic; c1 and c11 identified with the analytic gradient and Hessian through C55 and uniqueness of expansions. |
| C64 | INI reader of the driver | Ini.v: parse line by line with the C++ string operations (find, substr, trim, split), dictionary as an association list; IniSpec: which text says which item, the contents of a list of items; simulation between parser state and contents by induction over the lines. |
| C65 | Freezing orbitals, variational energies | FreezeSpec.freeze shifts an active determinant above ni doubly occupied orbitals; parity and bra-kets of the shifted determinants (FreezeProofs2), the sum over spin orbitals split into core and active (FreezeProofs, FreezeProofs3), then composed with the models of active_hamiltonian, inactive_energy, matrix_element, selected_ci_diag and compute_casci_rdms; the bound by extending a vector with zeros to the whole space (FreezeProofs4). |
| C66 | The standalone program | Driver.v models main of tests/standalone_driver.cxx (serial build) statement by statement on top of the models of the input reader, FCIDUMP and wave function files, MP2, ASCI, CASCI and CASSCF; files are functions from names to contents. DriverSpec says what an input file asks for and what a result is. Settings by following main's reads (DriverProofs), energies by composing C36, C50, C57, C60, C65 along the paths of main (DriverProofs2-4; DriverRot for ASCI with GROW_WITH_ROT, by C61; DriverRdm for MCSCF from an RDMFILE, by C25), files by C23/C24. |
| C67 | Orbital-rotation invariance | No new code: the model's transformations, CI matrix, casscf, ASCI growth and driver. Proof: creation and annihilation operators act on vectors over bit strings; rotated operators satisfy the same anticommutation relations (rows of an orthogonal matrix are orthonormal), so products of rotated creators on the vacuum behave as determinants (RotInvProofs 1, 2) and are orthonormal; the Hamiltonian written with rotated operators and transformed integrals is the original operator (RotInvProofs3), it maps rotated determinants of a whole space to such determinants (4). The matrix of overlaps is the orthogonal matrix of `similar`. Consequences in RotInvGlue(2). |
| C68 | BFGS optimiser | Bfgs.v models src/macis/bfgs: the limited-memory Hessian with its five starting matrices, the three line searches and the iteration; the functor (eval, grad, converged) is a parameter, its vectors are lists. Proof: the two loops are one recursion over the newest pair, which is the product with the rank-two update; secant, symmetry and definiteness by induction over the history; line searches by loop invariants (bounds distinct and nonnegative, slope of the lower bound nonzero); the iteration by a path invariant. Refuted: descent of the discrete search, convergence on a double well. |
| C69 | Block eigensolver (LOBPCG) | Lobpcg.v models src/lobpcgxx (driver, Cholesky QR, Rayleigh-Ritz, basis rotation, residuals, convergence checks, simple interface) for real matrices stored as lists of columns; the matrix, the preconditioner and the check are parameters, syev, potrf and gelqf/ormlq oracles with the specifications in LobpcgSpec.v; the workspace is a size. Proof: invariant of the iteration (basis X, P orthonormal, AX, AP their images, matrix diagonal between the X, residuals as stated), with orthogonality of the projected and factorised directions, and the Ky Fan inequality for the sums of the lowest Ritz values. Refuted: guesses that are not orthonormal, workspace for K > 2N. |
| C70 | Adjacency graph | Graph.v models extract_adjacency and kway_partition; METIS is a parameter. Proof: loop invariant over the rows (row pointers are the numbers of off-diagonal entries so far, the neighbours copied so far are the filtered rows). |
| C71 | Rutherford-Boeing files | ReadRb.v models read_rb_as_csc and read_rb on the characters of the file (lines, tokenize, stoi/stoll/stod as in SparseIO.v). Proof: induction over the lines of a block with the part of the array written so far; CSR through C38. Refuted: symmetric files, Fortran formats. |
| C72 | Growth with natural orbitals on several ranks | AsciRotPar.v: asci_grow with grow_with_rot under MPI: the rotation on rank 0, the two broadcasts (Collective.v), the solver on all ranks and the gathering of its result, over AsciPar.v and AsciRot.v. Invariant of the loop as C61 and C62; the broadcasts by C35. |
| C73 | The standalone program on several ranks | DriverMpi.v: main of tests/standalone_driver.cxx built with MPI: what all ranks compute alike is computed once, the parallel parts are those of AsciRotPar.v, AsciPar.v and Mcscf.v on P ranks; only rank 0 writes the wave function. Proof as C66 (DriverMpiProofs2), with the growth and refinement invariants from C62 and C72 (DriverMpiRot with rotations); the runs that never end by C56 (DriverMpiProofs; DriverMpiRdm when the densities come from a file, by the loop invariant of C57 with a CI step that never returns). |

## Trusted base

**Proof checker.** The kernel of Coq 8.16.1 (and its virtual machine: examples on literals and finite case checks use `vm_compute`).

**Assumptions.** Every theorem in `rocq/theories/Props_*.v` is followed by `Print Assumptions`; for each of them, all claims in MANIFEST.json included, the answer is *Closed under the global context*: no axiom of our own, of the standard library or of another library. There is no functor or module type, no `Admitted`, and section hypotheses are discharged, so they appear as premises of the theorems.

**The reading of the C++ source**: that the definitions of the model (each with file and lines in /repo) say what the code does, and that the specifications (`*Spec.v`) say what the English claims say. Nothing checks this mechanically; `seeded/LOG.jsonl` records changed programs and which theorems noticed.

**Parameters that theorems quantify over** (nothing is assumed of them except through premises visible in the statement):

* square root (`exact_root`), rounding of decimal numbers when reading (`rnd`), printing of doubles (`prints`), binary representation of doubles;
* LAPACK: syev (`eigensolver`, `all_eigenpairs`, `orthonormal_vectors`), gelss (`least_squares`), potrf, gelqf/ormlq; Eigen's matrix exponential (`exponential`); the CI solver in the CASSCF optimiser (a contract, which C56 establishes for the serial build);
* METIS (only the memory contract of its result), the random numbers of dist_quickselect, orders left open by the C++ standard (unstable sort, nth_element, hash maps): all results the contract allows (`nd`, a relation from program to outcome);
* `fuel` where a C++ loop has no obvious bound: statements say either that runs that end have a property, or that some fuel is enough.

**Models of the platform**: 64-bit little-endian `unsigned long`, 32-bit `int`; out-of-range access and unsigned underflow explicit; `assert` is active or not according to the parameter `dbg` where it matters. Allocation does not fail. MPI ranks are in lockstep: collectives combine the values of all ranks, an exception on a rank is an error of the run, point-to-point messages are delivered by their matching receive. Messages and files are not lost or damaged unless the theorem says so.

### Modelled

| code in /repo | model |
|---|---|
| include/macis/bitset_operations.hpp | Bits.v |
| include/macis/sd_operations.hpp | SD.v |
| include/macis/hamiltonian_generator.hpp, hamiltonian_generator/*.hpp, csr_hamiltonian.hpp, util/rdms.hpp | Ham.v, Dist.v |
| include/macis/asci/determinant_{contributions,sort,search}.hpp, iteration.hpp, grow.hpp, refine.hpp | Asci.v, AsciContrib.v, AsciContrib2.v, AsciRot.v (serial); AsciMpi.v, AsciPar.v, AsciRotPar.v (several ranks) |
| include/macis/asci/mask_constraints.hpp | Constraint.v, ConstraintContrib.v, ConstraintDist.v, ConstraintSearch.v |
| include/macis/util/mpi.hpp (reductions, broadcasts), util/dist_quickselect.hpp | Collective.v |
| include/macis/solvers/davidson.hpp, selected_ci_diag.hpp | Davidson.v |
| include/macis/util/diis.hpp | Diis.v |
| src/macis/{fock_matrices,transform,orbital_gradient,orbital_hessian,orbital_rotation_utilities,orbital_energies,orbital_steps,moller_plesset}.cxx | Dense.v, NumGrad.v |
| include/macis/util/{cas,mcscf,mcscf_impl}.hpp, src/macis/casscf.cxx | Mcscf.v |
| src/macis/bfgs/*.hpp | Bfgs.v |
| include/macis/wavefunction_io.hpp, src/macis/fcidump.cxx, RDM files | IO.v, Text.v |
| src/lobpcgxx/include | Lobpcg.v |
| src/sparsexx/include/sparsexx/matrix_types, util/{submatrix,permute}.hpp | Sparse.v, Dist.v |
| src/sparsexx/include/sparsexx/spblas (own kernels) | Spmv.v |
| src/sparsexx/include/sparsexx/io, util/string.hpp | SparseIO.v, ReadRb.v |
| src/sparsexx/include/sparsexx/util/graph.hpp, src/metis_wrapper.cxx | Graph.v |
| tests/standalone_driver.cxx, tests/ini_input.{hpp,cxx} | Driver.v (serial), DriverMpi.v (several ranks), Ini.v |

### Not modelled

* floating-point rounding, overflow, NaN and infinities (doubles are exact rationals; hence nothing about convergence in floating-point arithmetic);
* code between `#if 0` and its end (most of orbital_steps.cxx, the Ceres variant at the end of mcscf_impl.hpp, two task distributions in mask_constraints.hpp, old variants in read_mm.hpp), except the vector operations Bfgs.v takes from there;
* sparsexx/spsolve and sparsexx/wrappers (MKL solvers and matrices) and the MKL branch of spmbv.hpp, sparsexx/util/hash.hpp, type traits and forward declarations;
* MPI datatypes and their lifetime (mpi.hpp:30-157), reordering or loss of messages, ranks that fail separately, deadlock other than as a run that has no result;
* OpenMP: the iterations of a `parallel for` take place in any order and on any thread (Mem.v), but not interleaved with each other; other data races are not looked for;
* time and memory use, logging, console output other than what C66 lists;
* attic/, examples/, CMake files and all tests other than the standalone program and its input reader.

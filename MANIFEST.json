{
 "claims": [
  {
   "property": "C01",
   "status": "proved",
   "theorems": [
    "C01_ffs_is_least_set_bit",
    "C01_fls_is_greatest_set_bit",
    "C01_bits_to_indices_exact",
    "C01_count_exact",
    "C01_ffs_empty",
    "C01_fls_empty_undefined",
    "C01_ffs_zero_iff_empty_refuted"
   ],
   "note": "All widths and code paths. _refuted: on an empty string ffs of the >64-bit path does not return 0 (no caller relies on it)."
  },
  {
   "property": "C02",
   "status": "proved",
   "theorems": [
    "C02_full_mask_static",
    "C02_full_mask_dynamic",
    "C02_truncate_keeps_low_bits",
    "C02_expand_changes_nothing",
    "C02_truncate_after_expand",
    "C02_halves",
    "C02_halves_recombine",
    "C02_halves_of_combination",
    "C02_fast_to_ulong_refuted",
    "C02_fast_to_ullong_refuted",
    "C02_fast_to_ullong_exact_up_to_64",
    "C02_to_uint128_exact"
   ],
   "note": "_refuted theorems give the wide-string inputs on which fast_to_ulong/ullong drop bits."
  },
  {
   "property": "C03",
   "status": "proved",
   "theorems": [
    "C03_less_is_numeric_order",
    "C03_less_irreflexive",
    "C03_less_transitive",
    "C03_less_trichotomy"
   ],
   "note": "Strict total order equal to the integer order, on every code path."
  },
  {
   "property": "C04",
   "status": "proved",
   "theorems": [
    "C04_hf_lowest",
    "C04_hf_energy_order",
    "C04_too_many_electrons_refuted"
   ],
   "note": "std::stable_sort is modelled by its contract (stable insertion sort). _refuted: more electrons than energies reads past the list."
  },
  {
   "property": "C05",
   "status": "proved",
   "theorems": [
    "C05_partition",
    "C05_active_space",
    "C05_full_occupation_refuted",
    "C05_bits_beyond_norb_refuted"
   ],
   "note": "_refuted: assertion rejects full occupation; bits at or above norb silently give an incomplete virtual list."
  },
  {
   "property": "C06",
   "status": "proved",
   "theorems": [
    "C06_singles",
    "C06_doubles",
    "C06_singles_and_doubles",
    "C06_active_space",
    "C06_electrons_conserved"
   ],
   "note": "Spinless singles/doubles, counts, active-space variants."
  },
  {
   "property": "C07",
   "status": "proved",
   "theorems": [
    "C07_spin_excitations",
    "C07_spin_excitations_active_space",
    "C07_spin_counts_conserved"
   ],
   "note": "Widths 64 and 128 (those whose half-words the code extracts)."
  },
  {
   "property": "C08",
   "status": "proved",
   "theorems": [
    "C08_cis_cisd"
   ],
   "note": ""
  },
  {
   "property": "C09",
   "status": "proved",
   "theorems": [
    "C09_full_ci_space",
    "C09_combinations",
    "C09_too_many_electrons_refuted"
   ],
   "note": "Termination of the do/while loop included. std::prev_permutation modelled by its standard algorithm."
  },
  {
   "property": "C10",
   "status": "proved",
   "theorems": [
    "C10_residues"
   ],
   "note": ""
  },
  {
   "property": "C11",
   "status": "proved",
   "theorems": [
    "C11_single_phase"
   ],
   "note": ""
  },
  {
   "property": "C12",
   "status": "proved",
   "theorems": [
    "C12_double_phase_same_spin",
    "C12_double_phase_opposite_spin"
   ],
   "note": ""
  },
  {
   "property": "C13",
   "status": "proved",
   "theorems": [
    "C13_matrix_element"
   ],
   "note": "Exact arithmetic; needs (pq|rs) = (rs|pq) only. Widths 64 and 128."
  },
  {
   "property": "C14",
   "status": "proved",
   "theorems": [
    "C14_hermitian"
   ],
   "note": ""
  },
  {
   "property": "C15",
   "status": "partial",
   "theorems": [
    "C15_far_is_zero",
    "C15_three_moves_zero",
    "C15_spin_flip_refuted",
    "C15_electron_pair_refuted"
   ],
   "note": "Zero beyond two moves is proved for all inputs. The part of the claim about different particle numbers is false of the code: C15_spin_flip_refuted, C15_electron_pair_refuted."
  },
  {
   "property": "C16",
   "status": "proved",
   "theorems": [
    "C16_fast_single",
    "C16_fast_same_spin_double",
    "C16_fast_opposite_spin_double",
    "C16_precomputed_energies"
   ],
   "note": ""
  },
  {
   "property": "C17",
   "status": "proved",
   "theorems": [
    "C17_csr_content",
    "C17_no_entry_lost"
   ],
   "note": "Row pointers are unbounded integers (overflow of a 32-bit index type is not modelled)."
  },
  {
   "property": "C18",
   "status": "proved",
   "theorems": [
    "C18_distributed_equals_serial",
    "C18_row_blocks_partition"
   ],
   "note": "Row bounds from the default tiling; the MPI distribution itself is modelled as one call per rank."
  },
  {
   "property": "C19",
   "status": "proved",
   "theorems": [
    "C19_energy_identity",
    "C19_accumulates",
    "C19_two_body_entries_refuted"
   ],
   "note": "Stated with the code's 1e-16 cutoff on coefficient products. _refuted: the 2-RDM is not stored entry by entry as the textbook matrix; only the contraction with symmetric integrals is right."
  },
  {
   "property": "C20",
   "status": "proved",
   "theorems": [
    "C20_one_body_rdm",
    "C20_trace"
   ],
   "note": "With the code's 1e-16 cutoff."
  },
  {
   "property": "C21",
   "status": "partial",
   "theorems": [
    "C21_null_trdm_refuted",
    "C21_no_double_pairs_partial"
   ],
   "note": "False in general (C21_null_trdm_refuted); proved for lists without pairs exactly two moves apart."
  },
  {
   "property": "C22",
   "status": "proved",
   "theorems": [
    "C22_parse_print",
    "C22_print_parse",
    "C22_parse_meaning",
    "C22_overlong_string_refuted"
   ],
   "note": "_refuted: over-long strings are accepted and corrupt the beta string."
  },
  {
   "property": "C23",
   "status": "proved",
   "theorems": [
    "C23_round_trip",
    "C23_mismatch",
    "C23_negative_count",
    "C23_empty_refuted"
   ],
   "note": "Files are their text; double formatting/parsing is abstracted by show/rnd with the hypothesis that each coefficient's text reads back as itself (prints). _refuted: writing an empty wavefunction leaves an older file in place."
  },
  {
   "property": "C24",
   "status": "proved",
   "theorems": [
    "C24_norb_core",
    "C24_one_body",
    "C24_two_body",
    "C24_round_trip",
    "C24_orbital_energies_refuted",
    "C24_three_indices_refuted",
    "C24_header_refuted",
    "C24_integer_value_refuted",
    "C24_fortran_exponent_refuted",
    "C24_second_write_refuted",
    "C24_padded_refuted"
   ],
   "note": "Reading semantics for any line order and duplicate lines, and the round trip of symmetric integrals. _refuted: orbital-energy lines are undefined behaviour; five-field header lines, integer-valued integrals, Fortran exponents misread; a padded target array is undefined; a second write throws."
  },
  {
   "property": "C25",
   "status": "proved",
   "theorems": [
    "C25_round_trip",
    "C25_rejected",
    "C25_truncated_refuted"
   ],
   "note": "Any leading dimensions on both sides; padding untouched. _refuted: truncated files are accepted."
  },
  {
   "property": "C26",
   "status": "proved",
   "theorems": [
    "C26_accumulate"
   ],
   "note": "std::sort / pdqsort by contract: every tie resolution."
  },
  {
   "property": "C27",
   "status": "proved",
   "theorems": [
    "C27_keep_largest_copy"
   ],
   "note": ""
  },
  {
   "property": "C28",
   "status": "proved",
   "theorems": [
    "C28_search",
    "C28_search_with_pruning",
    "C28_small_limit_refuted"
   ],
   "note": "One rank, exact arithmetic, no resonance E0 = H_tt. Without the bound on the number of pairs (pair_size_max) the pruning theorem gives the list contract only. _refuted: a limit below the core size wraps around and is not enforced."
  },
  {
   "property": "C29",
   "status": "proved",
   "theorems": [
    "C29_satisfies_constraint",
    "C29_make_triplet",
    "C29_make_quad",
    "C29_make_triplet_wide_refuted"
   ],
   "note": "satisfies_constraint is true exactly for the strings whose orbitals at or above the constraint's lowest one are the constraint's; make_triplet and make_quad build such constraints; beyond 64 orbitals below the lowest one they throw (refuted)."
  },
  {
   "property": "C30",
   "status": "proved",
   "theorems": [
    "C30_constraint_singles",
    "C30_constraint_doubles",
    "C30_stale_output_refuted"
   ],
   "note": "Sound, complete and duplicate-free for every determinant and constraint, given an empty output vector; a stale output vector is a refuted case."
  },
  {
   "property": "C31",
   "status": "proved",
   "theorems": [
    "C31_counts",
    "C31_histogram"
   ],
   "note": "Both counters and the histogram."
  },
  {
   "property": "C32",
   "status": "proved",
   "theorems": [
    "C32_partition",
    "C32_split",
    "C32_split_refuted",
    "C32_few_electrons_refuted"
   ],
   "note": "Every string within two moves of the given alpha strings and with at least 3 + nlevels electrons meets exactly one constraint over all ranks, whatever local_average, tie breaking and partition order are; splitting a constraint partitions it. Strings with fewer electrons are lost (refuted)."
  },
  {
   "property": "C33",
   "status": "proved",
   "theorems": [
    "C33_distribution",
    "C33_assignment"
   ],
   "note": "Each constraint on exactly one rank; greedy (LPT) bound: the load of a rank exceeds no other rank's load by more than the work of any constraint it owns."
  },
  {
   "property": "C34",
   "status": "proved",
   "theorems": [
    "C34_kth_element",
    "C34_same_value",
    "C34_too_large_refuted",
    "C34_zero_refuted"
   ],
   "note": "For every distribution, pivot sequence and outcome of partition/nth_element every rank returns a k-th element of the union and the loop ends after at most one round per element; the same value on all ranks when ties are equal. Hypothesis: fewer than 2^31 elements in total (int counts). k = 0 and k larger than the total are undefined behaviour, not errors (refuted)."
  },
  {
   "property": "C35",
   "status": "proved",
   "theorems": [
    "C35_gather_and_scan",
    "C35_scan_wraps_refuted",
    "C35_allreduce",
    "C35_allreduce_chunks",
    "C35_allreduce_long_refuted",
    "C35_allreduce_value",
    "C35_bcast",
    "C35_bcast_chunks",
    "C35_bcast_long_refuted"
   ],
   "note": "Gather/scan correct below 2^31; chunked reduction and broadcast equal the unchunked ones for every chunk size. Refuted: the scan accumulates in int and wraps beyond 2^31; buffers of INT_MAX elements or more are refused by a throw, so the chunk loop is never reached."
  },
  {
   "property": "C36",
   "status": "proved",
   "theorems": [
    "C36_grow",
    "C36_grow_terminates",
    "C36_grow_terminates_refuted",
    "C36_refine"
   ],
   "note": "The diagonaliser is an arbitrary relation. _refuted: with grow_factor = 1 growth can loop forever. grow_with_rot = true is C61."
  },
  {
   "property": "C37",
   "status": "proved",
   "theorems": [
    "C37_reorder",
    "C37_reorder_size_mismatch"
   ],
   "note": ""
  },
  {
   "property": "C38",
   "status": "partial",
   "theorems": [
    "C38_coo_to_csr_partial",
    "C38_coo_to_csr_unsorted",
    "C38_coo_to_csr_empty_row_refuted",
    "C38_sort_by_row",
    "C38_sort_by_col",
    "C38_sort_then_csr",
    "C38_csr_to_coo",
    "C38_coo_to_csc_partial",
    "C38_coo_to_csc_unsorted",
    "C38_coo_to_csc_rectangular_refuted",
    "C38_csc_to_csr",
    "C38_set_indexing",
    "C38_csr_to_dense",
    "C38_csr_to_dense_zeroed",
    "C38_coo_to_dense_partial",
    "C38_coo_to_dense_index_base_refuted",
    "C38_expand_triangle_partial",
    "C38_expand_unchanged",
    "C38_expand_incomplete_diagonal_refuted"
   ],
   "note": "CSR->COO, CSC->CSR, change of index base, CSR->dense and sorting are proved for every well-formed matrix. COO->CSR is proved for row-sorted matrices without empty rows (it throws when unsorted) and COO->CSC for square matrices without empty columns; both restrictions are necessary: refuted with witnesses (empty row gives wrong entries; rectangular throws or is ill-formed). COO->dense holds for base 0 and is refuted for base 1. Triangle expansion needs a complete diagonal; otherwise it is proved to fail. Values are exact rationals; index types unbounded."
  },
  {
   "property": "C39",
   "status": "proved",
   "theorems": [
    "C39_submatrix",
    "C39_excluded_columns",
    "C39_upper_triangle",
    "C39_diagonal_and_trace",
    "C39_distribute_default",
    "C39_distribute_custom"
   ],
   "note": "For matrices whose rows have non-decreasing column indices (needed: std::partition_point is undefined otherwise); diagonal and trace need no order but no repeated column. Includes the distributed constructors built on the extraction."
  },
  {
   "property": "C40",
   "status": "proved",
   "theorems": [
    "C40_permute_rows",
    "C40_permute_cols",
    "C40_permute_rows_cols",
    "C40_round_trip",
    "C40_invert_perm",
    "C40_vector_forward",
    "C40_vector_backward",
    "C40_vector_round_trip",
    "C40_perm_from_part"
   ],
   "note": "Row/column permutation for every number of threads, thread assignment and iteration order; the per-thread index vectors reused across rows are modelled. perm_from_part throws exactly when some part number is too large."
  },
  {
   "property": "C41",
   "status": "proved",
   "theorems": [
    "C41_csr_product",
    "C41_coo_product_partial",
    "C41_coo_index_base_refuted"
   ],
   "note": "Compressed-row product for every base, leading dimension, number of columns and order of the parallel iterations. Coordinate-format product proved for base 0 and refuted for base 1 (the index base is ignored; that overload is not used by the solvers)."
  },
  {
   "property": "C42",
   "status": "proved",
   "theorems": [
    "C42_replicated_product",
    "C42_distributed_product",
    "C42_distributed_hamiltonian_product"
   ],
   "note": "For every number of ranks, row tiling, sparsity pattern and order of the local loops, below 2^31 exchanged elements per rank; messages follow the MPI non-overtaking rule and uninitialised buffer elements are errors in the model. Composed with the distributed Hamiltonian of C18."
  },
  {
   "property": "C43",
   "status": "proved",
   "theorems": [
    "C43_default_tiles",
    "C43_unique_owner",
    "C43_custom_tiles",
    "C43_custom_tiles_rejected",
    "C43_copy_keeps_tiles_refuted"
   ],
   "note": "Tiles given in closed form, unique owner, custom tilings accepted exactly when valid. Refuted: the copy constructor forgets a custom tiling."
  },
  {
   "property": "C44",
   "status": "partial",
   "theorems": [
    "C44_read_mm",
    "C44_size_line",
    "C44_mm_round_trip_partial",
    "C44_mm_csr_round_trip_partial",
    "C44_mm_default",
    "C44_mm_symmetric_throws",
    "C44_dist_mm_round_trip_partial",
    "C44_mm_base_refuted",
    "C44_mm_one_based_refuted",
    "C44_mm_empty_row_refuted",
    "C44_binary_round_trip_partial",
    "C44_binary_csr_round_trip_partial",
    "C44_binary_triangle_refuted",
    "C44_binary_incomplete_diagonal_refuted"
   ],
   "note": "Round trips of MatrixMarket (local, distributed) and binary files, reading of general/symmetric MatrixMarket files. Missing because false: see the _refuted theorems (0-based matrix without row/column 0 shifted, default base of 1-based matrices, empty rows in CSR, triangular matrices in binary files). Number formatting abstracted by show/rnd, doubles' bytes by enc/dec."
  },
  {
   "property": "C45",
   "status": "proved",
   "theorems": [
    "C45_two_index",
    "C45_four_index",
    "C45_four_index_strided_input_refuted",
    "C45_four_index_strided_output_refuted",
    "C45_four_index_first_stride",
    "C45_composition2",
    "C45_composition4"
   ],
   "note": "Two-index transform for every leading dimension; four-index transform for packed arrays (what the property claims), composition law for both. Also proved: with LDX/LDY larger than the dimension the four-index code does not respect them (refuted theorems), and what it computes instead."
  },
  {
   "property": "C46",
   "status": "proved",
   "theorems": [
    "C46_inactive_fock",
    "C46_active_hamiltonian",
    "C46_active_fock",
    "C46_q_matrix",
    "C46_generalized_fock",
    "C46_energy",
    "C46_energy_unsymmetric_refuted",
    "C46_rotated_energy"
   ],
   "note": "All Fock matrices for every leading dimension, energy identity for integrals with (pq|rs)=(rs|pq) and symmetric D; refuted without that symmetry. Energy in rotated orbitals."
  },
  {
   "property": "C47",
   "status": "proved",
   "theorems": [
    "C47_unpack",
    "C47_unpack_strided",
    "C47_antisymmetric",
    "C47_positions",
    "C47_pack_unpack",
    "C47_unpack_pack",
    "C47_gradient",
    "C47_gradient_matrix",
    "C47_gradient_packed"
   ],
   "note": "Packing layout is a bijection, pack/unpack are inverse, antisymmetry, gradient vector and matrix; every leading dimension for unpacking and gradients."
  },
  {
   "property": "C48",
   "status": "partial",
   "theorems": [
    "C48_orbital_energies",
    "C48_amplitudes",
    "C48_zero_denominator",
    "C48_density_matrix",
    "C48_trace",
    "C48_symmetric",
    "C48_block_diagonal_refuted",
    "C48_printed_energy_refuted",
    "C48_natural_orbitals"
   ],
   "note": "Amplitudes, zero denominators, density blocks, trace, symmetry, natural-orbital wrapper (LAPACK syev an arbitrary function). Missing because false: block-diagonality (the caller's off-diagonal entries are kept) and the printed energy for LDV > norb; both have _refuted theorems."
  },
  {
   "property": "C49",
   "status": "proved",
   "theorems": [
    "C49_history",
    "C49_extrapolation",
    "C49_optimal",
    "C49_affine",
    "C49_zero_limit_refuted",
    "C49_empty_refuted"
   ],
   "note": "History, extrapolation, coefficient affinity and least-squares optimality (LAPACK gelss an arbitrary function; the optimality theorem assumes its least-squares contract). A zero history limit and an empty history are undefined behaviour: _refuted theorems."
  },
  {
   "property": "C50",
   "status": "proved",
   "theorems": [
    "C50_diagonal_guess",
    "C50_diagonal_guess_total",
    "C50_diagonal_guess_unit_refuted",
    "C50_parallel_guess",
    "C50_parallel_guess_total",
    "C50_parts",
    "C50_gram_schmidt",
    "C50_residual",
    "C50_ci_residual",
    "C50_variational",
    "C50_variational_guess_refuted",
    "C50_total",
    "C50_small_never_returns",
    "C50_eigenvector_never_returns",
    "C50_parallel_residual",
    "C50_parallel_variational",
    "C50_parallel_is_serial",
    "C50_parallel_agrees",
    "C50_parallel_no_deadlock",
    "C50_parallel_remainder_never_returns",
    "C50_parallel_returns_refuted",
    "C50_parallel_few_rows_never_returns",
    "C50_parallel_disagreement",
    "C50_parallel_restart_refuted"
   ],
   "note": "Exact rationals; the square root and LAPACK syev are parameters (an exact root / an eigensolver of symmetric matrices where a theorem says so). Serial = distributed for max_m at most the dimension. Five claims of the English property are false of the code and are stated as *_refuted or *_never_returns with witnesses."
  },
  {
   "property": "C51",
   "status": "proved",
   "theorems": [
    "C51_contributions",
    "C51_resonance",
    "C51_pruning",
    "C51_constraint_pruning"
   ],
   "note": "C51_resonance: an exact resonance gives a non-finite score."
  },
  {
   "property": "C52",
   "status": "proved",
   "theorems": [
    "C52_constraint_search",
    "C52_agrees_with_serial",
    "C52_no_screening",
    "C52_screening_refuted",
    "C52_just_singles_refuted",
    "C52_few_electrons_refuted",
    "C52_pruning_refuted"
   ],
   "note": "All ranks together report each state once with its total score, complete for alpha strings of at least 3+level electrons; equal to the serial result whenever the two screenings keep the same pairs (always without screening). The unrestricted English claim is false: refuted for |c h| vs |h| screening, just_singles, fewer than three electrons, pruning."
  },
  {
   "property": "C53",
   "status": "proved",
   "theorems": [
    "C53_electrons_preserved"
   ],
   "note": ""
  },
  {
   "property": "C54",
   "status": "proved",
   "theorems": [
    "C54_parallel_search",
    "C54_best_without_ties",
    "C54_agrees_with_serial",
    "C54_few_candidates_refuted",
    "C54_ties_drop_best_refuted"
   ],
   "note": "Proved for every rank count and pivot sequence when at least as many candidates exist as requested; best ones and equal to the serial search when no two candidates tie. Refuted: fewer candidates than requested is undefined behaviour; with ties the truncation by rank order can drop the strictly best determinant."
  },
  {
   "property": "C55",
   "status": "partial",
   "theorems": [
    "C55_derivatives",
    "C55_families_exist",
    "C55_expansion_unique",
    "C55_one_index",
    "C55_one_index_leading_dimension_refuted",
    "C55_hessian_linear",
    "C55_hessian_symmetric_refuted",
    "C55_hessian_asymmetry",
    "C55_hessian_symmetric_at_stationary_points",
    "C55_diagonal_hessian",
    "C55_step",
    "C55_step_descends"
   ],
   "note": "Derivative theorem for every symmetric-integral problem and every rotation (exact second-order Taylor expansion with a bound on the remainder), uniqueness, diagonal Hessian, descent. Missing because false: symmetry of Hessian products away from stationary points (refuted, with the exact asymmetry proved) and the one-index transform for LDX <> LDT (refuted). Proved for packed T, V (LDT = LDV = norb)."
  },
  {
   "property": "C56",
   "status": "partial",
   "theorems": [
    "C56_symmetry",
    "C56_eightfold_refuted",
    "C56_casci",
    "C56_casci_ground",
    "C56_energy",
    "C56_one_determinant",
    "C56_mpi_never_returns"
   ],
   "note": "Serial: proved for all spaces with at least two determinants (a run that returns); trace and energy up to the neglected coefficients, with the exact bound. Missing because false: with one determinant, or on two or more MPI ranks, it never returns (proved); the two-body density does not have the symmetry of the integrals (refuted)."
  },
  {
   "property": "C57",
   "status": "proved",
   "theorems": [
    "C57_any_solver",
    "C57_casscf",
    "C57_last_point",
    "C57_energy"
   ],
   "note": "LDV = norb and LDD = nactive (see C59 for other leading dimensions); the matrix exponential is a parameter assumed to be orthogonal for antisymmetric arguments, gelss an exact least-squares solver; exact rationals. No claim that a run returns."
  },
  {
   "property": "C58",
   "status": "partial",
   "theorems": [
    "C58_flag",
    "C58_first_test_refuted",
    "C58_returns_unconverged_refuted"
   ],
   "note": "The exact test and stopping rule are proved. Missing because false: at the first point the length of the gradient is tested, not its root mean square (refuted); the caller gets the energy of an unconverged run (refuted)."
  },
  {
   "property": "C59",
   "status": "partial",
   "theorems": [
    "C59_start",
    "C59_unphysical_refuted",
    "C59_leading_dimension_refuted"
   ],
   "note": "Proved for LDD = nactive. Missing because false: for padded densities the energy is wrong (refuted); densities with the right trace are accepted however unphysical and a \"converged\" energy below the spectrum is returned (refuted)."
  },
  {
   "property": "C60",
   "status": "partial",
   "theorems": [
    "C60_step_limit",
    "C60_run_steps",
    "C60_nothing_to_rotate",
    "C60_no_history"
   ],
   "note": "Proved for every pass of every returning run. Missing because false: diis_nkeep = 0 with DIIS, or an empty set of rotations with a tolerance of zero, never make a pass that succeeds (proved as C60_no_history, C60_nothing_to_rotate). The limit is not claimed for extrapolated steps."
  },
  {
   "property": "C61",
   "status": "partial",
   "theorems": [
    "C61_grow_rotating",
    "C61_integrals_orthogonal",
    "C61_terminates",
    "C61_without_rotation",
    "C61_energy_refuted"
   ],
   "note": "Proved on one rank for every eigensolver returning all eigenpairs and every diagonaliser. Missing because false: the returned energy is that of the last iteration, before the rotation, and not of the returned determinants with the returned integrals (C61_energy_refuted)."
  },
  {
   "property": "C62",
   "status": "partial",
   "theorems": [
    "C62_gather",
    "C62_iteration",
    "C62_variational",
    "C62_grow",
    "C62_refine",
    "C62_few_determinants_refuted",
    "C62_first_step_refuted"
   ],
   "note": "Proved for every P > 1, pivot sequence and solver oracle: agreement of the ranks, determinants, residual, variational energy, growth and refinement paths. Missing because false: it does not return with fewer determinants than ranks (C62_few_determinants_refuted), nor when it grows from the single lowest determinant and the first target is not a multiple of the number of ranks (C62_first_step_refuted). Ranks run in lockstep; grow_with_rot on several ranks is C72."
  },
  {
   "property": "C63",
   "status": "partial",
   "theorems": [
    "C63_gradient",
    "C63_gradient_accuracy",
    "C63_hessian",
    "C63_hessian_accuracy_partial",
    "C63_exponentials_exist",
    "C63_gradient_leading_dimension_refuted",
    "C63_hessian_all_pairs_refuted",
    "C63_hessian_self_rotation_refuted"
   ],
   "note": "Values and frame of both routines for all inputs, error bounds against the analytic gradient and Hessian, exponentials that meet the hypotheses. Hessian accuracy needs i < b (the loop bound); LDOG ignored, missing pairs and the b = j elements are refuted with runs. Exact arithmetic: rounding is not bounded. LDV must be the number of orbitals (C47)."
  },
  {
   "property": "C64",
   "status": "partial",
   "theorems": [
    "C64_file_is_read",
    "C64_missing_file_throws",
    "C64_unindented_files_never_fail",
    "C64_numbers_are_read",
    "C64_switches_are_read",
    "C64_comment_after_heading_refuted",
    "C64_indented_entries_refuted",
    "C64_bad_input_is_reported_refuted",
    "C64_values_are_checked_refuted",
    "C64_section_names_refuted"
   ],
   "note": "Files of the layout IniSpec.line_says/laid_out are read exactly as they say, totality for unindented files, numbers, switches. Missing because false: nine layouts or queries a user would expect to work (C64_*_refuted). isspace of negative characters, stof and getDataInSection are not modelled."
  },
  {
   "property": "C65",
   "status": "proved",
   "theorems": [
    "C65_electrons",
    "C65_matrix_elements",
    "C65_energy",
    "C65_residual",
    "C65_selection",
    "C65_neglected",
    "C65_selected_ci",
    "C65_casci"
   ],
   "note": "For every partition of the orbitals and every pair of determinants; energies of runs that return with exact square roots and an exact dense eigensolver (oracles), up to inject(n*n)*threshold for n determinants. Floating point rounding is not modelled."
  },
  {
   "property": "C66",
   "status": "partial",
   "theorems": [
    "C66_settings",
    "C66_missing_input",
    "C66_cas_energy",
    "C66_asci_energy",
    "C66_asci_rotations",
    "C66_mcscf_energy",
    "C66_mcscf_rdm",
    "C66_rdm_energy_refuted",
    "C66_fcidump_out",
    "C66_fcidump_out_orbitals",
    "C66_too_many_electrons_refuted",
    "C66_given_energy_refuted",
    "C66_scaled_wavefunction_refuted"
   ],
   "note": "Serial build of the standalone program, from the input file to the printed energy and the files written. Missing because false (refuted): too many electrons are not reported; with E0_WFN, an unnormalised WFN_FILE or densities of no wave function in RDMFILE the energy printed need not be that of a wave function. Not covered: console output other than the energy and the determinants. The MPI build is C73."
  },
  {
   "property": "C67",
   "status": "proved",
   "theorems": [
    "C67_similar",
    "C67_same_states",
    "C67_back",
    "C67_bounds",
    "C67_eigenvalues",
    "C67_transformed_integrals",
    "C67_any_determinants",
    "C67_above",
    "C67_selection_refuted",
    "C67_casscf",
    "C67_asci_rotations",
    "C67_printed_cas",
    "C67_printed_asci",
    "C67_printed_asci_rotations",
    "C67_printed_mcscf"
   ],
   "note": "Orbital-rotation invariance of full CI, proved from the anticommutation relations of the rotated operators (RotInvProofs*.v): the CI matrices are orthogonally similar; consequences for states, bounds, eigenvalues, the transformation functions, casscf_diis, ASCI growth with rotations and the printed energies. Exact arithmetic; CI matrices without threshold (what the threshold changes is the stated error). The same claim for a selection of determinants is refuted."
  },
  {
   "property": "C68",
   "status": "proved",
   "theorems": [
    "C68_matrix",
    "C68_matrix_diagonal",
    "C68_matrix_runtime",
    "C68_secant",
    "C68_symmetric",
    "C68_descent",
    "C68_line_search",
    "C68_wolfe",
    "C68_wolfe_total",
    "C68_grid",
    "C68_grid_descends_refuted",
    "C68_bfgs",
    "C68_default",
    "C68_convex",
    "C68_converges_refuted"
   ],
   "note": "In exact arithmetic. Beyond the statement, refuted with runs: the discrete search may end higher than it starts, and bfgs gives up where the curvature is negative (a double well). Convergence within max_iter is not claimed."
  },
  {
   "property": "C69",
   "status": "proved",
   "theorems": [
    "C69_result",
    "C69_converged",
    "C69_relative_tolerance",
    "C69_absolute_tolerance",
    "C69_bounds",
    "C69_history",
    "C69_guess_refuted",
    "C69_cholqr",
    "C69_workspace",
    "C69_in_bounds",
    "C69_workspace_refuted"
   ],
   "note": "Real matrices, exact arithmetic, exact syev/potrf/gelqf. A quotient by zero ends the modelled run. Beyond the statement, refuted with runs: a guess that is not orthonormal is used as it is and may end in a converged value below the spectrum, and with K > 2N the workspace asked for is overrun."
  },
  {
   "property": "C70",
   "status": "proved",
   "theorems": [
    "C70_adjacency",
    "C70_size",
    "C70_undirected",
    "C70_partition",
    "C70_repeated_refuted"
   ],
   "note": "METIS is a parameter. Beyond the statement, refuted with a matrix: a diagonal element stored twice leaves a loop in the graph."
  },
  {
   "property": "C71",
   "status": "proved",
   "theorems": [
    "C71_read",
    "C71_read_csr",
    "C71_trailing",
    "C71_cut",
    "C71_symmetric_refuted",
    "C71_format_refuted"
   ],
   "note": "Exact conversion of decimals is a parameter. Beyond the statement, refuted with files: the type is ignored (of a symmetric matrix only one triangle is read) and so are the Fortran formats (D exponents dropped, adjacent numbers joined); a file cut within its values is accepted."
  },
  {
   "property": "C72",
   "status": "proved",
   "theorems": [
    "C72_grow_rotating",
    "C72_integrals_orthogonal",
    "C72_ranks_agree",
    "C72_without_rotation",
    "C72_returns"
   ],
   "note": "Exact arithmetic; lapack::syev of the density by contract, the solver's eigensolver and square root arbitrary. Ranks run in lockstep and start with the same arrays; an exception on rank 0 is an error of the run. That the energy is not the one of the returned integrals is part of the path (and refuted as a claim in C61_energy_refuted)."
  },
  {
   "property": "C73",
   "status": "partial",
   "theorems": [
    "C73_asci_energy",
    "C73_asci_rotations",
    "C73_cas_energy_refuted",
    "C73_mcscf_energy_refuted",
    "C73_mcscf_rdm"
   ],
   "note": "ASCI with and without GROW_WITH_ROT, from the input file to the energy and WFN_OUT_FILE, for every number of ranks and every sequence of pivots; sizes below 2^31. Missing because false (refuted): with EXPANSION = CAS and with MCSCF (without RDMFILE) no run on two or more ranks ends with an energy. With an RDMFILE a run on several ranks ends only if no densities had to be calculated, with the energy of the file's densities. Ranks run in lockstep on the same files."
  }
 ]
}
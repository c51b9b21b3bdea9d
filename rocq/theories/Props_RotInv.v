(** C67: results do not depend on the orthonormal orbitals the problem is stated in. *)
From Coq Require Import Ascii String QArith Qcanon ZArith NArith Bool.
From Verif Require Import Base Bits SD Spec Sums FockSpec SlaterCondon Ham Nondet Text IO IOSpec Dense DenseSpec DiisSpec Davidson DavSpec DavEx
  Mcscf McscfSpec McscfEx Asci AsciSpec AsciRot AsciRotSpec Ini IniSpec Driver DriverSpec DriverEx RotInvSpec RotInvProofs4 RotInvGlue RotInvGlue2 DriverRotGlue RotInvEx.
Local Open Scope nat_scope.

(* the CI matrix of all determinants of given numbers of electrons, built with orthogonally
   transformed integrals, is the original one in another orthonormal basis *)
Theorem C67_similar : forall W no, no <= W / 2 -> forall U T T' V V', rotated no U T V T' V' -> forall na nb D, whole_space W no na nb D ->
  similar (length D) (ci_matrix W (mk_ints no T V) 0%Qc D) (ci_matrix W (mk_ints no T' V') 0%Qc D).
Proof. exact rot_similar. Qed.
Print Assumptions C67_similar.
(* so every wave function has a counterpart, with the same norm, energy and residuals ... *)
Theorem C67_same_states : forall W no, no <= W / 2 -> forall U T T' V V', rotated no U T V T' V' -> forall na nb D, whole_space W no na nb D ->
  same_states (length D) (ci_matrix W (mk_ints no T V) 0%Qc D) (ci_matrix W (mk_ints no T' V') 0%Qc D).
Proof. exact rot_states. Qed.
Print Assumptions C67_same_states.
(* ... in both directions *)
Theorem C67_back : forall no U T V T' V', rotated no U T V T' V' -> rotated no (fun i j => U j i) T' V' T V.
Proof. exact rotated_back. Qed.
Print Assumptions C67_back.
Theorem C67_bounds : forall W no, no <= W / 2 -> forall U T T' V V', rotated no U T V T' V' -> forall na nb D, whole_space W no na nb D -> forall b,
  spectrum_above (length D) (ci_matrix W (mk_ints no T V) 0%Qc D) b <-> spectrum_above (length D) (ci_matrix W (mk_ints no T' V') 0%Qc D) b.
Proof. exact rot_bounds. Qed.
Print Assumptions C67_bounds.
Theorem C67_eigenvalues : forall W no, no <= W / 2 -> forall U T T' V V', rotated no U T V T' V' -> forall na nb D, whole_space W no na nb D -> forall lam,
  eigenvalue (length D) (ci_matrix W (mk_ints no T V) 0%Qc D) lam <-> eigenvalue (length D) (ci_matrix W (mk_ints no T' V') 0%Qc D) lam.
Proof. exact rot_eigen. Qed.
Print Assumptions C67_eigenvalues.
(* the arrays the transformation functions return *)
Theorem C67_transformed_integrals : forall W no na nb T V C T0 V0 T1 V1, 0 < no -> no <= W / 2 ->
  fits2 T no no no -> fits4 V no no -> fits2 C no no no -> fits2 T0 no no no -> fits4 V0 no no -> orthogonal no (at2 C no) ->
  two_index_transform no no T no C no T0 no = Ok T1 -> four_index_transform no no V no C no V0 no = Ok V1 ->
  forall D, whole_space W no na nb D ->
    similar (length D) (ci_matrix W (mk_ints no (at2 T no) (at4 V no)) 0%Qc D) (ci_matrix W (mk_ints no (at2 T1 no) (at4 V1 no)) 0%Qc D).
Proof. exact transformed. Qed.
Print Assumptions C67_transformed_integrals.
Example C67_transformed_integrals_ex : fits2 ex_M 2 2 2 /\ fits4 rV 2 2 /\ fits2 rC 2 2 2 /\ fits2 (repeat 0%Qc 4) 2 2 2 /\ fits4 (repeat 0%Qc 16) 2 2 /\ orthogonal 2 (at2 rC 2) /\
  two_index_transform 2 2 ex_M 2 rC 2 (repeat 0%Qc 4) 2 = Ok rT1 /\ four_index_transform 2 2 rV 2 rC 2 (repeat 0%Qc 16) 2 = Ok rV1 /\ whole_space 64 2 1 0 dets2.
Proof. exact rot_ex. Qed.
(* the new matrix is diagonal, the old one is not *)
Example C67_eigenvalues_ex : eigenvalue 2 (ci_matrix 64 (mk_ints 2 (at2 rT1 2) (at4 rV1 2)) 0%Qc dets2) (- inject 3)%Qc /\
  ci_matrix 64 (mk_ints 2 (at2 ex_M 2) (at4 rV 2)) 0%Qc dets2 0 1 = inject 4.
Proof. exact rot_eigen_ex. Qed.
(* a wave function over any determinants of rotated orbitals is one of the original orbitals *)
Theorem C67_any_determinants : forall W no, no <= W / 2 -> forall U T T' V V', rotated no U T V T' V' ->
  forall na nb dets Y E, valid_dets W no na nb dets -> dot (length dets) Y Y = 1%Qc ->
  expectation (length dets) (ci_matrix W (mk_ints no T' V') 0%Qc dets) Y = E -> full_state W no na nb T V E.
Proof. exact rot_dets. Qed.
Print Assumptions C67_any_determinants.
Theorem C67_above : forall W no na nb T V E, full_state W no na nb T V E ->
  forall D b, whole_space W no na nb D -> spectrum_above (length D) (ci_matrix W (mk_ints no T V) 0%Qc D) b -> (b <= E)%Qc.
Proof. exact full_above. Qed.
Print Assumptions C67_above.
(* Refuted: the same for a selection of determinants. Its energies depend on the orbitals. *)
Theorem C67_selection_refuted : exists W no U T V T' V' na nb dets lam, no <= W / 2 /\ rotated no U T V T' V' /\ valid_dets W no na nb dets /\ dets <> [] /\
  eigenvalue (length dets) (ci_matrix W (mk_ints no T' V') 0%Qc dets) lam /\ ~ eigenvalue (length dets) (ci_matrix W (mk_ints no T V) 0%Qc dets) lam.
Proof. exact rot_selected. Qed.
Print Assumptions C67_selection_refuted.

(** The energy of an orbital optimisation is, up to the neglected matrix elements, that of a wave function of all
    electrons in the orbitals it was started with; by [C67_above] it is not below the exact energy. (The hypotheses
    are those of C57_last_point; the run of C57_ex meets them.) *)
Theorem C67_casscf : forall root syev gelss expm st nalpha nbeta no ni na nv E_core T LDT V A1 A2,
  orbital_problem no ni na nv T LDT V -> density_room na A1 A2 -> rotations_or_tolerance root (orb_grad_tol st) ni na nv ->
  least_squares gelss -> exponential expm -> (enable_diis st = true -> 0 < diis_nkeep st) ->
  na <= 32 -> nalpha <= na -> nbeta <= na -> (0 <= ci_matel_tol st)%Qc -> exact_root root -> eigensolver syev ->
  exists f0, forall W2 fuel E B1 B2 it conv, f0 <= fuel -> no <= W2 / 2 ->
    casscf_diis root syev gelss expm fuel st nalpha nbeta no ni na nv E_core T LDT V no na na A1 A2 (Ok (E, B1, B2, (it, conv))) -> 0 < it ->
    exists E', full_state W2 no (ni + nalpha) (ni + nbeta) (at2 T LDT) (at4 V no) E' /\
      (Qcabs (E - (E_core + E')) <= inject ((binom na nalpha * binom na nbeta) * (binom na nalpha * binom na nbeta)) * ci_matel_tol st)%Qc.
Proof. exact casscf_full. Qed.
Print Assumptions C67_casscf.
(** The integrals ASCI leaves behind after growing with natural-orbital rotations define the same full problem. *)
Theorem C67_asci_rotations : forall syev W n na nb dbg st rs dg fuel TV s,
  all_eigenpairs syev -> spin_width W -> 0 < n -> n <= W / 2 ->
  (dbg = true -> na < n /\ nb < n) -> one_each dg ->
  (N.of_nat (ntdets_max st) < 2 ^ 64)%N -> 2 <= grow_factor st ->
  n * n <= List.length (fst TV) -> n * n * (n * n) <= List.length (snd TV) ->
  pair_symmetric n (at4 (snd TV) n) ->
  1 <= wfn_size s -> wfn_size s <= ntdets_max st -> valid_dets W n na nb (wfn_dets s) ->
  if_returns (asci_grow_rot syev fuel dbg W n st rs dg TV s) (fun r =>
    forall D, whole_space W n na nb D ->
      similar (length D) (ci_matrix W (mk_ints n (at2 (fst TV) n) (at4 (snd TV) n)) 0%Qc D)
        (ci_matrix W (mk_ints n (at2 (fst (snd r)) n) (at4 (snd (snd r)) n)) 0%Qc D)).
Proof. exact asci_rot_similar. Qed.
Print Assumptions C67_asci_rotations.

(** What the standalone program prints is, up to the neglected matrix elements, the core energy of the FCIDUMP file
    plus the energy of a wave function of all electrons in the orbitals of that file, whatever orbitals it used in
    between. (Examples of runs are those of C66.) *)
Theorem C67_printed_cas : forall root syev syev_ld gelss expm rnd show dec dbg fs fsb name ne es o,
  asked rnd fs name ne es o -> d_job o = JobCI -> d_exp o = ExpCAS ->
  (d_mp2 o = true -> orthonormal_vectors syev_ld) -> ne <= d_nactive o -> (0 <= k_ci_matel (d_mcscf o))%Qc -> exact_root root -> eigensolver syev ->
  exists f0, forall W2 fuel out, max_index es <= W2 / 2 -> f0 <= fuel -> driver root syev syev_ld gelss expm rnd show dec fuel dbg fs fsb (Some name) (Ok out) ->
  exists E, full_state W2 (max_index es) (d_ninactive o + ne) (d_ninactive o + ne) (file_T es) (file_V es) E /\
    (Qcabs (out_E out - (first_core es + E)) <=
     inject ((binom (d_nactive o) ne * binom (d_nactive o) ne) * (binom (d_nactive o) ne * binom (d_nactive o) ne)) * k_ci_matel (d_mcscf o))%Qc.
Proof. exact cas_full. Qed.
Print Assumptions C67_printed_cas.
Theorem C67_printed_asci : forall root syev syev_ld gelss expm rnd show dec dbg fs fsb name ne es o,
  asked rnd fs name ne es o -> forall n0, d_job o = JobCI -> d_exp o = ExpASCI ->
  (d_mp2 o = true -> orthonormal_vectors syev_ld) -> ne <= d_nactive o -> (0 <= k_ci_matel (d_mcscf o))%Qc -> exact_root root -> eigensolver syev ->
  (dbg = true -> ne < d_nactive o) -> k_rot (d_asci o) = false -> starting_point rnd fs (d_asci o) (d_nactive o) ne n0 -> (2 <= k_grow (d_asci o))%Z ->
  forall W2 fuel out, max_index es <= W2 / 2 -> driver root syev syev_ld gelss expm rnd show dec fuel dbg fs fsb (Some name) (Ok out) ->
  exists E, full_state W2 (max_index es) (d_ninactive o + ne) (d_ninactive o + ne) (file_T es) (file_V es) E /\
    let m := Nat.max n0 (Z.to_nat (k_ntdets_max (d_asci o))) in
    (Qcabs (out_E out - (first_core es + E)) <= inject (m * m) * k_ci_matel (d_mcscf o))%Qc.
Proof. exact asci_full. Qed.
Print Assumptions C67_printed_asci.
(** the same with GROW_WITH_ROT (a run is in C66_asci_rotations_ex) *)
Theorem C67_printed_asci_rotations : forall root syev syev_ld gelss expm rnd show dec dbg fs fsb name ne es o,
  asked rnd fs name ne es o -> forall n0, d_job o = JobCI -> d_exp o = ExpASCI ->
  (d_mp2 o = true -> orthonormal_vectors syev_ld) -> 0 < d_nactive o -> ne <= d_nactive o -> (0 <= k_ci_matel (d_mcscf o))%Qc ->
  exact_root root -> eigensolver syev -> all_eigenpairs syev ->
  (dbg = true -> ne < d_nactive o) -> (2 <= k_grow (d_asci o))%Z -> starting_point rnd fs (d_asci o) (d_nactive o) ne n0 ->
  forall W2 fuel out, max_index es <= W2 / 2 -> driver root syev syev_ld gelss expm rnd show dec fuel dbg fs fsb (Some name) (Ok out) ->
  exists E, full_state W2 (max_index es) (d_ninactive o + ne) (d_ninactive o + ne) (file_T es) (file_V es) E /\
    let m := Nat.max n0 (Z.to_nat (k_ntdets_max (d_asci o))) in
    (Qcabs (out_E out - (first_core es + E)) <= inject (m * m) * k_ci_matel (d_mcscf o))%Qc.
Proof. exact asci_rot_full. Qed.
Print Assumptions C67_printed_asci_rotations.
Theorem C67_printed_mcscf : forall root syev syev_ld gelss expm rnd show dec dbg fs fsb name ne es o,
  asked rnd fs name ne es o -> d_job o = JobMCSCF -> d_rdm o = [] ->
  (d_mp2 o = true -> orthonormal_vectors syev_ld) -> 0 < ne -> ne <= d_nactive o -> (0 <= k_ci_matel (d_mcscf o))%Qc -> exact_root root -> eigensolver syev ->
  least_squares gelss -> exponential expm -> (k_diis (d_mcscf o) = true -> (0 < k_diis_nkeep (d_mcscf o))%Z) ->
  rotations_or_tolerance root (k_orb_tol (d_mcscf o)) (d_ninactive o) (d_nactive o) (d_nvirtual o) ->
  exists f0, forall W2 fuel out, max_index es <= W2 / 2 -> f0 <= fuel -> driver root syev syev_ld gelss expm rnd show dec fuel dbg fs fsb (Some name) (Ok out) ->
  exists U T V dets E, rotated (max_index es) U (file_T es) (file_V es) T V /\ whole_space 64 (d_nactive o) ne ne dets /\
    full_state W2 (max_index es) (d_ninactive o + ne) (d_ninactive o + ne) (file_T es) (file_V es) E /\
    (Qcabs (out_E out - (first_core es + E)) <= neglected (d_ninactive o) (d_nactive o) T V (k_ci_matel (d_mcscf o)) dets)%Qc.
Proof. exact mcscf_full. Qed.
Print Assumptions C67_printed_mcscf.

(** C73: the standalone program built with MPI, run on several ranks. *)
From Coq Require Import Ascii String QArith Qcanon ZArith NArith Bool.
From Verif Require Import Base Bits SD Spec Sums FockSpec Ham Nondet Text IO IOSpec IOGlue Dense DenseSpec DiisSpec Davidson DavSpec DavEx Mcscf McscfSpec McscfEx CasciSpec Asci AsciSpec AsciRot AsciRotSpec
  FreezeSpec Ini IniSpec Driver DriverSpec DriverEx DriverRotEx DriverOutEx DriverMpi DriverMpiGlue DriverMpiRotGlue DriverMpiRdmGlue.
Local Open Scope nat_scope.
Local Open Scope string_scope.
Local Open Scope list_scope.

(** JOB = CI, EXPANSION = ASCI without orbital rotations, on [P] ranks: as on one (C66_asci_energy), whatever pivots the
    distributed selection draws. The energy printed is that of a normalised wave function over NTDETS_MAX determinants
    (or as many as the file has, if more) with the inactive orbitals doubly occupied, plus the core energy of the file,
    up to the neglected matrix elements; WFN_OUT_FILE holds this wave function. *)
Theorem C73_asci_energy : forall root syev syev_ld gelss expm rnd show dec P fs fsb name ne es o,
  asked rnd fs name ne es o -> forall n0 dbg, 1 < P -> d_job o = JobCI -> d_exp o = ExpASCI ->
  (d_mp2 o = true -> orthonormal_vectors syev_ld) -> ne <= d_nactive o -> (0 <= k_ci_matel (d_mcscf o))%Qc -> exact_root root -> eigensolver syev ->
  (dbg = true -> ne < d_nactive o) -> k_rot (d_asci o) = false -> (1 <= k_grow (d_asci o))%Z -> starting_point rnd fs (d_asci o) (d_nactive o) ne n0 ->
  (Z.max (Z.of_nat n0) (k_ntdets_max (d_asci o)) * Z.of_nat P < 2 ^ 31)%Z ->
  let no := max_index es in let ni := d_ninactive o in let na := d_nactive o in
  forall W2 g fuel out, no <= W2 / 2 -> driver_mpi root syev syev_ld gelss expm rnd show dec P g fuel dbg fs fsb (Some name) (Ok out) ->
  exists U T V dets Y E, rotated no U (file_T es) (file_V es) T V /\ (d_mp2 o = false -> T = file_T es /\ V = file_V es) /\
    wave_function W2 no ni na ne T V dets Y E /\
    (Qcabs (out_E out - (first_core es + E)) <= inject (length dets * length dets) * k_ci_matel (d_mcscf o))%Qc /\
    length dets = Nat.max n0 (Z.to_nat (k_ntdets_max (d_asci o))) /\
    out_dets out = [] /\ (k_wfn_out (d_asci o) = [] -> out_wfn out = None) /\
    (k_wfn_out (d_asci o) <> [] -> (forall v, In v Y -> prints show rnd v) ->
       exists f, out_wfn out = Some f /\ read_wavefunction rnd 64 f = Ok (dets, Y)).
Proof. exact asci_energy_mpi. Qed.
Print Assumptions C73_asci_energy.
Example C73_asci_energy_ex : asked exact (dr_fs dr_asci_in) (lit "in.ini") 1 dr_es dr_asci_o /\ d_job dr_asci_o = JobCI /\ d_exp dr_asci_o = ExpASCI /\
  d_mp2 dr_asci_o = false /\ 1 < d_nactive dr_asci_o /\ k_ci_matel (d_mcscf dr_asci_o) = 0%Qc /\ exact_root ex_root /\ eigensolver dr_syev /\
  k_rot (d_asci dr_asci_o) = false /\ (1 <= k_grow (d_asci dr_asci_o))%Z /\ starting_point exact (dr_fs dr_asci_in) (d_asci dr_asci_o) (d_nactive dr_asci_o) 1 1 /\
  (Z.max (Z.of_nat 1) (k_ntdets_max (d_asci dr_asci_o)) * Z.of_nat 2 < 2 ^ 31)%Z /\ prints ex_show exact 1%Qc /\
  forall g, exists out, driver_mpi ex_root dr_syev no_syev_ld no_gelss ex_expm exact ex_show dec1 2 g 5 true (dr_fs dr_asci_in) no_fsb (Some (lit "in.ini")) (Ok out) /\
    out_E out = Q2Qc (-9 # 2) /\ out_dets out = [] /\ (exists f, out_wfn out = Some f) /\ exists f, out_fcidump out = Some f.
Proof. exact asci_mpi_example. Qed.

(** The same with GROW_WITH_ROT, as C66_asci_rotations on one rank: the energy printed is that of a normalised wave
    function over NTDETS_MAX determinants in orthogonally transformed active orbitals, hence also of one over all
    determinants of the active space in the orbitals of the file; WFN_OUT_FILE, after at least one refinement, holds the
    determinants and the coefficients in the transformed orbitals. *)
Theorem C73_asci_rotations : forall root syev syev_ld gelss expm rnd show dec P fs fsb name ne es o,
  asked rnd fs name ne es o -> forall n0 dbg, 1 < P -> d_job o = JobCI -> d_exp o = ExpASCI ->
  (d_mp2 o = true -> orthonormal_vectors syev_ld) -> 0 < d_nactive o -> ne <= d_nactive o -> (0 <= k_ci_matel (d_mcscf o))%Qc ->
  exact_root root -> eigensolver syev -> all_eigenpairs syev ->
  (dbg = true -> ne < d_nactive o) -> (1 <= k_grow (d_asci o))%Z -> starting_point rnd fs (d_asci o) (d_nactive o) ne n0 ->
  (Z.max (Z.of_nat n0) (k_ntdets_max (d_asci o)) * Z.of_nat P < 2 ^ 31)%Z ->
  let no := max_index es in let ni := d_ninactive o in let na := d_nactive o in
  forall W2 g fuel out, no <= W2 / 2 -> driver_mpi root syev syev_ld gelss expm rnd show dec P g fuel dbg fs fsb (Some name) (Ok out) ->
  exists U T V Ua TA VA dets Y E D Z, rotated no U (file_T es) (file_V es) T V /\ (d_mp2 o = false -> T = file_T es /\ V = file_V es) /\
    rotated na Ua (active_T ni T V) (active_V ni V) TA VA /\
    valid_dets 64 na ne ne dets /\ length dets = Nat.max n0 (Z.to_nat (k_ntdets_max (d_asci o))) /\ length Y = length dets /\ dot (length dets) Y Y = 1%Qc /\
    E = (core_energy ni T V + expectation (length dets) (ci_matrix 64 (mk_ints na TA VA) 0%Qc dets) Y)%Qc /\
    whole_space 64 na ne ne D /\ wave_function W2 no ni na ne T V D Z E /\
    (Qcabs (out_E out - (first_core es + E)) <= inject (length dets * length dets) * k_ci_matel (d_mcscf o))%Qc /\
    out_dets out = [] /\ (k_wfn_out (d_asci o) = [] -> out_wfn out = None) /\
    (k_wfn_out (d_asci o) <> [] -> (0 < k_refine (d_asci o))%Z -> (forall v, In v Y -> prints show rnd v) ->
       exists f, out_wfn out = Some f /\ read_wavefunction rnd 64 f = Ok (dets, Y)).
Proof. exact asci_rot_mpi. Qed.
Print Assumptions C73_asci_rotations.
Example C73_asci_rotations_ex : asked exact (dr_fs dr_mrot_in) (lit "in.ini") 1 dr_es dr_mrot_o /\ d_job dr_mrot_o = JobCI /\ d_exp dr_mrot_o = ExpASCI /\
  d_mp2 dr_mrot_o = false /\ 1 < d_nactive dr_mrot_o /\ k_ci_matel (d_mcscf dr_mrot_o) = 0%Qc /\ exact_root ex_root /\ eigensolver ro_syev /\ all_eigenpairs ro_syev /\
  k_rot (d_asci dr_mrot_o) = true /\ (1 <= k_grow (d_asci dr_mrot_o))%Z /\ starting_point exact (dr_fs dr_mrot_in) (d_asci dr_mrot_o) (d_nactive dr_mrot_o) 1 1 /\
  (Z.max (Z.of_nat 1) (k_ntdets_max (d_asci dr_mrot_o)) * Z.of_nat 2 < 2 ^ 31)%Z /\
  forall g, exists out, driver_mpi ex_root ro_syev no_syev_ld no_gelss ex_expm exact ex_show dec1 2 g 5 true (dr_fs dr_mrot_in) no_fsb (Some (lit "in.ini")) (Ok out) /\
    out_E out = Q2Qc (-9 # 2) /\ out_dets out = [] /\ out_wfn out = None.
Proof. exact rot_mpi_example. Qed.

(** JOB = CI, EXPANSION = CAS: on two or more ranks no run ends with an energy. The whole active space is diagonalised,
    but the ranks then form the density matrices from their parts of the vector as if these were the whole (C56). *)
Theorem C73_cas_energy_refuted : forall root syev syev_ld gelss expm rnd show dec P fs fsb name ne es o,
  asked rnd fs name ne es o -> 2 <= P -> d_job o = JobCI -> d_exp o = ExpCAS ->
  (d_mp2 o = true -> orthonormal_vectors syev_ld) -> ne <= d_nactive o -> (0 <= k_ci_matel (d_mcscf o))%Qc ->
  (Z.of_nat (binom (d_nactive o) ne * binom (d_nactive o) ne * P) < 2 ^ 31)%Z ->
  exists f0, forall dbg g fuel out, f0 <= fuel -> ~ driver_mpi root syev syev_ld gelss expm rnd show dec P g fuel dbg fs fsb (Some name) (Ok out).
Proof. exact cas_mpi. Qed.
Print Assumptions C73_cas_energy_refuted.
Example C73_cas_energy_refuted_ex : asked exact (dr_fs dr_cas_in) (lit "in.ini") 1 dr_es dr_cas_o /\ d_job dr_cas_o = JobCI /\ d_exp dr_cas_o = ExpCAS /\
  d_mp2 dr_cas_o = false /\ 1 <= d_nactive dr_cas_o /\ k_ci_matel (d_mcscf dr_cas_o) = 0%Qc /\ (Z.of_nat (binom (d_nactive dr_cas_o) 1 * binom (d_nactive dr_cas_o) 1 * 2) < 2 ^ 31)%Z /\
  exists out, driver ex_root dr_syev no_syev_ld no_gelss ex_expm exact ex_show dec1 5 true (dr_fs dr_cas_in) no_fsb (Some (lit "in.ini")) (Ok out).
Proof. exact cas_mpi_example. Qed.

(** JOB = MCSCF without an RDM file: likewise. *)
Theorem C73_mcscf_energy_refuted : forall root syev syev_ld gelss expm rnd show dec P fs fsb name ne es o,
  asked rnd fs name ne es o -> 2 <= P -> d_job o = JobMCSCF -> d_rdm o = [] ->
  (d_mp2 o = true -> orthonormal_vectors syev_ld) -> 0 < ne -> ne <= d_nactive o -> (0 <= k_ci_matel (d_mcscf o))%Qc ->
  (Z.of_nat (binom (d_nactive o) ne * binom (d_nactive o) ne * P) < 2 ^ 31)%Z ->
  exists f0, forall dbg g fuel out, f0 <= fuel -> ~ driver_mpi root syev syev_ld gelss expm rnd show dec P g fuel dbg fs fsb (Some name) (Ok out).
Proof. exact mcscf_mpi. Qed.
Print Assumptions C73_mcscf_energy_refuted.
Example C73_mcscf_energy_refuted_ex : asked exact (dr_fs dr_mcscf_in) (lit "in.ini") 1 dr_es dr_mcscf_o /\ d_job dr_mcscf_o = JobMCSCF /\ d_rdm dr_mcscf_o = [] /\
  d_mp2 dr_mcscf_o = false /\ 1 <= d_nactive dr_mcscf_o /\ k_ci_matel (d_mcscf dr_mcscf_o) = 0%Qc /\ (Z.of_nat (binom (d_nactive dr_mcscf_o) 1 * binom (d_nactive dr_mcscf_o) 1 * 2) < 2 ^ 31)%Z /\
  exists out, driver ex_root dr_syev no_syev_ld no_gelss ex_expm exact ex_show dec1 5 true (dr_fs dr_mcscf_in) no_fsb (Some (lit "in.ini")) (Ok out).
Proof. exact mcscf_mpi_example. Qed.

(** JOB = MCSCF with an RDMFILE: a run on two or more ranks ends only if no densities had to be calculated. It then
    prints the energy expression evaluated with the file's densities (restricted to the active orbitals), which were
    checked only for the number of electrons, in the orbitals it started from. *)
Theorem C73_mcscf_rdm : forall root syev syev_ld gelss expm rnd show dec P fs fsb name ne es o,
  asked rnd fs name ne es o -> forall enc D1 L1 D2 L2 bytes, 2 <= P -> d_job o = JobMCSCF -> d_rdm o <> [] -> fsb (d_rdm o) = Some bytes ->
  let no := max_index es in let ni := d_ninactive o in let na := d_nactive o in
  write_rdms_binary enc no D1 L1 D2 L2 = Ok bytes ->
  (forall i j, i < no -> j < no -> i + j * L1 < List.length D1) -> (forall i j k l, i < no -> j < no -> k < no -> l < no -> i + j * L2 + k * L2 * L2 + l * L2 * L2 * L2 < List.length D2) ->
  (forall v, In v D1 \/ In v D2 -> List.length (enc v) = 8 /\ dec (enc v) = v) ->
  (d_mp2 o = true -> orthonormal_vectors syev_ld) -> 0 < ne -> ne <= na -> (0 <= k_ci_matel (d_mcscf o))%Qc ->
  (Z.of_nat (binom na ne * binom na ne * P) < 2 ^ 31)%Z ->
  least_squares gelss -> exponential expm -> (k_diis (d_mcscf o) = true -> (0 < k_diis_nkeep (d_mcscf o))%Z) ->
  rotations_or_tolerance root (k_orb_tol (d_mcscf o)) ni na (d_nvirtual o) ->
  exists f0, forall dbg g fuel out, f0 <= fuel -> driver_mpi root syev syev_ld gelss expm rnd show dec P g fuel dbg fs fsb (Some name) (Ok out) ->
  exists U T V, rotated no U (file_T es) (file_V es) T V /\ (d_mp2 o = false -> T = file_T es /\ V = file_V es) /\
    right_trace na ne ne (shift2 ni (at2 D1 L1)) /\
    out_E out = (first_core es + total_energy ni na T V (shift2 ni (at2 D1 L1)) (shift4 ni (at4 D2 L2)))%Qc /\
    out_dets out = [] /\ out_wfn out = None.
Proof. exact mcscf_rdm_mpi. Qed.
Print Assumptions C73_mcscf_rdm.
Example C73_mcscf_rdm_ex : asked exact (dr_fs rd_in) (lit "in.ini") 1 dr_es rd_o /\ d_job rd_o = JobMCSCF /\ d_rdm rd_o <> [] /\
  rd_fsb 0 (d_rdm rd_o) = Some (rd_bytes 0) /\ write_rdms_binary rd_enc 3 rd_D1 3 (rd_D2 0) 3 = Ok (rd_bytes 0) /\
  (forall i j, i < 3 -> j < 3 -> i + j * 3 < List.length rd_D1) /\ (forall i j k l, i < 3 -> j < 3 -> k < 3 -> l < 3 -> i + j * 3 + k * 3 * 3 + l * 3 * 3 * 3 < List.length (rd_D2 0)) /\
  (forall v, In v rd_D1 \/ In v (rd_D2 0) -> List.length (rd_enc v) = 8 /\ rd_dec (rd_enc v) = v) /\
  d_mp2 rd_o = false /\ 1 <= d_nactive rd_o /\ k_ci_matel (d_mcscf rd_o) = 0%Qc /\ (Z.of_nat (binom (d_nactive rd_o) 1 * binom (d_nactive rd_o) 1 * 2) < 2 ^ 31)%Z /\
  least_squares no_gelss /\ exponential ex_expm /\ (0 < k_diis_nkeep (d_mcscf rd_o))%Z /\ rotations_or_tolerance ex_root (k_orb_tol (d_mcscf rd_o)) 1 2 0 /\
  forall dbg g fuel, exists out, driver_mpi ex_root dr_syev no_syev_ld no_gelss ex_expm exact ex_show rd_dec 2 g fuel dbg (dr_fs rd_in) (rd_fsb 0) (Some (lit "in.ini")) (Ok out) /\ out_E out = Q2Qc (-9 # 2).
Proof. exact rdm_mpi_example. Qed.

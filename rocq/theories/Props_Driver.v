(** C66: the standalone driver: what is calculated for an input file. *)
From Coq Require Import Ascii String QArith Qcanon ZArith NArith Bool.
From Verif Require Import Base Bits SD Spec Sums FockSpec Ham Nondet Text IO IOSpec IOGlue Dense DenseSpec DiisSpec Davidson DavSpec DavEx Mcscf McscfSpec McscfEx CasciSpec Asci AsciSpec AsciRot AsciRotSpec
  FreezeSpec Ini IniSpec Driver DriverSpec DriverGlue DriverEx DriverRotEx DriverRotGlue DriverOut DriverOutEx.
Local Open Scope nat_scope.
Local Open Scope string_scope.
Local Open Scope list_scope.

(** A run that ends normally did what its input file asks for: the file named the FCIDUMP file, which exists, and
    equal numbers of electrons of both spins; every other keyword has the value the input file gives it, or its
    default (DriverSpec.v); the inactive orbitals leave room and there are at most 32 active ones. *)
Theorem C66_settings : forall root syev syev_ld gelss expm rnd show dec dbg fs fsb fuel name c out,
  input_file fs name c -> driver root syev syev_ld gelss expm rnd show dec fuel dbg fs fsb (Some name) (Ok out) ->
  exists fname ne, asks_for c fname (Z.of_nat ne) /\ fs fname <> None /\
    forall es, fcidump_file rnd fs fname es -> exists o, asked rnd fs name ne es o.
Proof. exact settings_ok. Qed.
Print Assumptions C66_settings.

(** Without an argument, an input file or the required keywords (or with different numbers of electrons) every run
    ends in an exception, and without an FCIDUMP file no run ends normally. *)
Theorem C66_missing_input : forall root syev syev_ld gelss expm rnd show dec dbg fs fsb fuel,
  (forall r, driver root syev syev_ld gelss expm rnd show dec fuel dbg fs fsb None r -> r = Err Throw) /\
  (forall name r, fs name = None -> driver root syev syev_ld gelss expm rnd show dec fuel dbg fs fsb (Some name) r -> r = Err Throw) /\
  (forall name c r, input_file fs name c -> (forall fname nel, ~ asks_for c fname nel) ->
     driver root syev syev_ld gelss expm rnd show dec fuel dbg fs fsb (Some name) r -> r = Err Throw) /\
  (forall name c fname nel out, input_file fs name c -> asks_for c fname nel -> fs fname = None ->
     ~ driver root syev syev_ld gelss expm rnd show dec fuel dbg fs fsb (Some name) (Ok out)).
Proof. exact missing_input. Qed.
Print Assumptions C66_missing_input.
Example C66_missing_input_ex : exists c, input_file (fun n => if text_eq_dec n (lit "in.ini") then Some (ini_file ["[CI]"; "NALPHA = 1"]) else None) (lit "in.ini") c /\
  forall fname nel, ~ asks_for c fname nel.
Proof. exact missing_ex. Qed.

(** JOB = CI, EXPANSION = CAS. The determinants are all those of the active space, and the energy printed is that of
    a normalised wave function over them with the inactive orbitals doubly occupied, in the full Hamiltonian of the
    integrals in the file (with MP2_GUESS in an orthogonal transformation of them), plus the core energy in the file,
    up to the neglected matrix elements. It lies above the spectrum in the sense of [frozen_state]. The determinants
    printed are exactly those with large coefficients. *)
Theorem C66_cas_energy : forall root syev syev_ld gelss expm rnd show dec dbg fs fsb name ne es o,
  asked rnd fs name ne es o -> d_job o = JobCI -> d_exp o = ExpCAS ->
  (d_mp2 o = true -> orthonormal_vectors syev_ld) -> ne <= d_nactive o -> (0 <= k_ci_matel (d_mcscf o))%Qc -> exact_root root -> eigensolver syev ->
  let no := max_index es in let ni := d_ninactive o in let na := d_nactive o in
  exists f0, forall W2 fuel out, no <= W2 / 2 -> f0 <= fuel -> driver root syev syev_ld gelss expm rnd show dec fuel dbg fs fsb (Some name) (Ok out) ->
  exists U T V dets Y E, rotated no U (file_T es) (file_V es) T V /\ (d_mp2 o = false -> T = file_T es /\ V = file_V es) /\
    whole_space 64 na ne ne dets /\ wave_function W2 no ni na ne T V dets Y E /\
    (Qcabs (out_E out - (first_core es + E)) <= inject ((binom na ne * binom na ne) * (binom na ne * binom na ne)) * k_ci_matel (d_mcscf o))%Qc /\
    (if k_dets (d_print o) then printed (k_dets_thr (d_print o)) dets Y (out_dets out) else out_dets out = []) /\ out_wfn out = None.
Proof. exact cas_energy. Qed.
Print Assumptions C66_cas_energy.
Example C66_cas_energy_ex : asked exact (dr_fs dr_cas_in) (lit "in.ini") 1 dr_es dr_cas_o /\ d_job dr_cas_o = JobCI /\ d_exp dr_cas_o = ExpCAS /\
  d_mp2 dr_cas_o = false /\ 1 <= d_nactive dr_cas_o /\ k_ci_matel (d_mcscf dr_cas_o) = 0%Qc /\ exact_root ex_root /\ eigensolver dr_syev /\
  exists out, driver ex_root dr_syev no_syev_ld no_gelss ex_expm exact ex_show dec1 5 true (dr_fs dr_cas_in) no_fsb (Some (lit "in.ini")) (Ok out) /\
    out_E out = Q2Qc (-27 # 2) /\ out_wfn out = None /\ out_fcidump out = None /\
    map snd (out_dets out) = [lit "20000000000000000000000000000000"; lit "02000000000000000000000000000000"] /\ map fst (out_dets out) = [q45; (- q35)%Qc].
Proof. exact cas_example. Qed.

(** JOB = CI, EXPANSION = ASCI without orbital rotations, from a single determinant or a normalised wave function in
    a file: the energy is that of a normalised wave function over NTDETS_MAX determinants (or as many as the file has,
    if more), and WFN_OUT_FILE holds this wave function. *)
Theorem C66_asci_energy : forall root syev syev_ld gelss expm rnd show dec dbg fs fsb name ne es o,
  asked rnd fs name ne es o -> forall n0, d_job o = JobCI -> d_exp o = ExpASCI ->
  (d_mp2 o = true -> orthonormal_vectors syev_ld) -> ne <= d_nactive o -> (0 <= k_ci_matel (d_mcscf o))%Qc -> exact_root root -> eigensolver syev ->
  (dbg = true -> ne < d_nactive o) -> k_rot (d_asci o) = false -> starting_point rnd fs (d_asci o) (d_nactive o) ne n0 ->
  let no := max_index es in let ni := d_ninactive o in let na := d_nactive o in
  forall W2 fuel out, no <= W2 / 2 -> driver root syev syev_ld gelss expm rnd show dec fuel dbg fs fsb (Some name) (Ok out) ->
  exists U T V dets Y E, rotated no U (file_T es) (file_V es) T V /\ (d_mp2 o = false -> T = file_T es /\ V = file_V es) /\
    wave_function W2 no ni na ne T V dets Y E /\
    (Qcabs (out_E out - (first_core es + E)) <= inject (length dets * length dets) * k_ci_matel (d_mcscf o))%Qc /\
    ((2 <= k_grow (d_asci o))%Z -> length dets = Nat.max n0 (Z.to_nat (k_ntdets_max (d_asci o)))) /\
    out_dets out = [] /\ (k_wfn_out (d_asci o) = [] -> out_wfn out = None) /\
    (k_wfn_out (d_asci o) <> [] -> (forall v, In v Y -> prints show rnd v) -> (N.of_nat (length dets) < 2 ^ 31)%N ->
       exists f, out_wfn out = Some f /\ read_wavefunction rnd 64 f = Ok (dets, Y)).
Proof. exact asci_energy. Qed.
Print Assumptions C66_asci_energy.
Example C66_asci_energy_ex : asked exact (dr_fs dr_asci_in) (lit "in.ini") 1 dr_es dr_asci_o /\ d_job dr_asci_o = JobCI /\ d_exp dr_asci_o = ExpASCI /\
  d_mp2 dr_asci_o = false /\ 1 < d_nactive dr_asci_o /\ k_ci_matel (d_mcscf dr_asci_o) = 0%Qc /\ exact_root ex_root /\ eigensolver dr_syev /\
  k_rot (d_asci dr_asci_o) = false /\ starting_point exact (dr_fs dr_asci_in) (d_asci dr_asci_o) (d_nactive dr_asci_o) 1 1 /\ prints ex_show exact 1%Qc /\
  exists out, driver ex_root dr_syev no_syev_ld no_gelss ex_expm exact ex_show dec1 5 true (dr_fs dr_asci_in) no_fsb (Some (lit "in.ini")) (Ok out) /\
    out_E out = Q2Qc (-9 # 2) /\ out_dets out = [] /\ (exists f, out_wfn out = Some f) /\ exists f, out_fcidump out = Some f.
Proof. exact asci_example. Qed.

(** The same with GROW_WITH_ROT (or without). The wave function over the selected determinants is one in the rotated
    active orbitals: [TA], [VA] are an orthogonal transformation of the active-space integrals. In the orbitals of the
    file the state is a combination of all determinants of the active space, with the same energy. If there are
    refinement iterations, WFN_OUT_FILE holds the wave function in the rotated orbitals (which are not written). *)
Theorem C66_asci_rotations : forall root syev syev_ld gelss expm rnd show dec dbg fs fsb name ne es o,
  asked rnd fs name ne es o -> forall n0, d_job o = JobCI -> d_exp o = ExpASCI ->
  (d_mp2 o = true -> orthonormal_vectors syev_ld) -> 0 < d_nactive o -> ne <= d_nactive o -> (0 <= k_ci_matel (d_mcscf o))%Qc ->
  exact_root root -> eigensolver syev -> all_eigenpairs syev ->
  (dbg = true -> ne < d_nactive o) -> (2 <= k_grow (d_asci o))%Z -> starting_point rnd fs (d_asci o) (d_nactive o) ne n0 ->
  let no := max_index es in let ni := d_ninactive o in let na := d_nactive o in
  forall W2 fuel out, no <= W2 / 2 -> driver root syev syev_ld gelss expm rnd show dec fuel dbg fs fsb (Some name) (Ok out) ->
  exists U T V Ua TA VA dets Y E D Z, rotated no U (file_T es) (file_V es) T V /\ (d_mp2 o = false -> T = file_T es /\ V = file_V es) /\
    rotated na Ua (active_T ni T V) (active_V ni V) TA VA /\
    valid_dets 64 na ne ne dets /\ length dets = Nat.max n0 (Z.to_nat (k_ntdets_max (d_asci o))) /\ length Y = length dets /\ dot (length dets) Y Y = 1%Qc /\
    E = (core_energy ni T V + expectation (length dets) (ci_matrix 64 (mk_ints na TA VA) 0%Qc dets) Y)%Qc /\
    whole_space 64 na ne ne D /\ wave_function W2 no ni na ne T V D Z E /\
    (Qcabs (out_E out - (first_core es + E)) <= inject (length dets * length dets) * k_ci_matel (d_mcscf o))%Qc /\
    out_dets out = [] /\ (k_wfn_out (d_asci o) = [] -> out_wfn out = None) /\
    (k_wfn_out (d_asci o) <> [] -> (0 < k_refine (d_asci o))%Z -> (forall v, In v Y -> prints show rnd v) -> (N.of_nat (length dets) < 2 ^ 31)%N ->
       exists f, out_wfn out = Some f /\ read_wavefunction rnd 64 f = Ok (dets, Y)).
Proof. exact asci_rot_energy. Qed.
Print Assumptions C66_asci_rotations.
Example C66_asci_rotations_ex : asked exact (dr_fs dr_rot_in) (lit "in.ini") 1 dr_es dr_rot_o /\ d_job dr_rot_o = JobCI /\ d_exp dr_rot_o = ExpASCI /\
  d_mp2 dr_rot_o = false /\ 1 < d_nactive dr_rot_o /\ k_ci_matel (d_mcscf dr_rot_o) = 0%Qc /\ exact_root ex_root /\ eigensolver ro_syev /\ all_eigenpairs ro_syev /\
  k_rot (d_asci dr_rot_o) = true /\ (2 <= k_grow (d_asci dr_rot_o))%Z /\ starting_point exact (dr_fs dr_rot_in) (d_asci dr_rot_o) (d_nactive dr_rot_o) 1 1 /\
  exists out, driver ex_root ro_syev no_syev_ld no_gelss ex_expm exact ex_show dec1 5 true (dr_fs dr_rot_in) no_fsb (Some (lit "in.ini")) (Ok out) /\
    out_E out = Q2Qc (-27 # 2) /\ out_dets out = [] /\ out_wfn out = None /\ out_fcidump out = None.
Proof. exact rot_example. Qed.

(** JOB = MCSCF without an RDM file: the energy is that of a normalised wave function over all determinants of the
    active space in orthogonally transformed orbitals, up to what the CI step neglects. *)
Theorem C66_mcscf_energy : forall root syev syev_ld gelss expm rnd show dec dbg fs fsb name ne es o,
  asked rnd fs name ne es o -> d_job o = JobMCSCF -> d_rdm o = [] ->
  (d_mp2 o = true -> orthonormal_vectors syev_ld) -> 0 < ne -> ne <= d_nactive o -> (0 <= k_ci_matel (d_mcscf o))%Qc -> exact_root root -> eigensolver syev ->
  least_squares gelss -> exponential expm -> (k_diis (d_mcscf o) = true -> (0 < k_diis_nkeep (d_mcscf o))%Z) ->
  rotations_or_tolerance root (k_orb_tol (d_mcscf o)) (d_ninactive o) (d_nactive o) (d_nvirtual o) ->
  let no := max_index es in let ni := d_ninactive o in let na := d_nactive o in
  exists f0, forall W2 fuel out, no <= W2 / 2 -> f0 <= fuel -> driver root syev syev_ld gelss expm rnd show dec fuel dbg fs fsb (Some name) (Ok out) ->
  exists U T V dets Y E, rotated no U (file_T es) (file_V es) T V /\ whole_space 64 na ne ne dets /\ wave_function W2 no ni na ne T V dets Y E /\
    (Qcabs (out_E out - (first_core es + E)) <= neglected ni na T V (k_ci_matel (d_mcscf o)) dets)%Qc /\ out_dets out = [] /\ out_wfn out = None.
Proof. exact mcscf_energy. Qed.
Print Assumptions C66_mcscf_energy.
Example C66_mcscf_energy_ex : asked exact (dr_fs dr_mcscf_in) (lit "in.ini") 1 dr_es dr_mcscf_o /\ d_job dr_mcscf_o = JobMCSCF /\ d_rdm dr_mcscf_o = [] /\
  d_mp2 dr_mcscf_o = false /\ 1 <= d_nactive dr_mcscf_o /\ k_ci_matel (d_mcscf dr_mcscf_o) = 0%Qc /\ exact_root ex_root /\ eigensolver dr_syev /\
  least_squares no_gelss /\ exponential ex_expm /\ (0 < k_diis_nkeep (d_mcscf dr_mcscf_o))%Z /\ rotations_or_tolerance ex_root (k_orb_tol (d_mcscf dr_mcscf_o)) 1 2 0 /\
  exists out, driver ex_root dr_syev no_syev_ld no_gelss ex_expm exact ex_show dec1 5 true (dr_fs dr_mcscf_in) no_fsb (Some (lit "in.ini")) (Ok out) /\ out_E out = Q2Qc (-27 # 2).
Proof. exact mcscf_example. Qed.

(** The same started from the densities in an RDMFILE, a file written by write_rdms_binary. If the iterations end before
    any densities were calculated, the energy printed is the energy expression evaluated with the file's densities
    (restricted to the active orbitals), which were checked only for the number of electrons; otherwise it is that of a
    wave function as above. *)
Theorem C66_mcscf_rdm : forall root syev syev_ld gelss expm rnd show dec dbg fs fsb name ne es o,
  asked rnd fs name ne es o -> forall enc D1 L1 D2 L2 bytes, d_job o = JobMCSCF -> d_rdm o <> [] -> fsb (d_rdm o) = Some bytes ->
  let no := max_index es in let ni := d_ninactive o in let na := d_nactive o in
  write_rdms_binary enc no D1 L1 D2 L2 = Ok bytes ->
  (forall i j, i < no -> j < no -> i + j * L1 < List.length D1) -> (forall i j k l, i < no -> j < no -> k < no -> l < no -> i + j * L2 + k * L2 * L2 + l * L2 * L2 * L2 < List.length D2) ->
  (forall v, In v D1 \/ In v D2 -> List.length (enc v) = 8 /\ dec (enc v) = v) ->
  (d_mp2 o = true -> orthonormal_vectors syev_ld) -> 0 < ne -> ne <= na -> (0 <= k_ci_matel (d_mcscf o))%Qc -> exact_root root -> eigensolver syev ->
  least_squares gelss -> exponential expm -> (k_diis (d_mcscf o) = true -> (0 < k_diis_nkeep (d_mcscf o))%Z) ->
  rotations_or_tolerance root (k_orb_tol (d_mcscf o)) ni na (d_nvirtual o) ->
  exists f0, forall W2 fuel out, no <= W2 / 2 -> f0 <= fuel -> driver root syev syev_ld gelss expm rnd show dec fuel dbg fs fsb (Some name) (Ok out) ->
  (exists U T V, rotated no U (file_T es) (file_V es) T V /\
    ((exists dets Y E, whole_space 64 na ne ne dets /\ wave_function W2 no ni na ne T V dets Y E /\
      (Qcabs (out_E out - (first_core es + E)) <= neglected ni na T V (k_ci_matel (d_mcscf o)) dets)%Qc) \/
     (right_trace na ne ne (shift2 ni (at2 D1 L1)) /\ (d_mp2 o = false -> T = file_T es /\ V = file_V es) /\
      out_E out = (first_core es + total_energy ni na T V (shift2 ni (at2 D1 L1)) (shift4 ni (at4 D2 L2)))%Qc))) /\ out_dets out = [] /\ out_wfn out = None.
Proof. exact mcscf_rdm_energy. Qed.
Print Assumptions C66_mcscf_rdm.
Example C66_mcscf_rdm_ex : asked exact (dr_fs rd_in) (lit "in.ini") 1 dr_es rd_o /\ d_job rd_o = JobMCSCF /\ d_rdm rd_o <> [] /\
  rd_fsb 0 (d_rdm rd_o) = Some (rd_bytes 0) /\ write_rdms_binary rd_enc 3 rd_D1 3 (rd_D2 0) 3 = Ok (rd_bytes 0) /\
  (forall i j, i < 3 -> j < 3 -> i + j * 3 < List.length rd_D1) /\ (forall i j k l, i < 3 -> j < 3 -> k < 3 -> l < 3 -> i + j * 3 + k * 3 * 3 + l * 3 * 3 * 3 < List.length (rd_D2 0)) /\
  (forall v, In v rd_D1 \/ In v (rd_D2 0) -> List.length (rd_enc v) = 8 /\ rd_dec (rd_enc v) = v) /\
  d_mp2 rd_o = false /\ 1 <= d_nactive rd_o /\ k_ci_matel (d_mcscf rd_o) = 0%Qc /\ exact_root ex_root /\ eigensolver dr_syev /\
  least_squares no_gelss /\ exponential ex_expm /\ (0 < k_diis_nkeep (d_mcscf rd_o))%Z /\ rotations_or_tolerance ex_root (k_orb_tol (d_mcscf rd_o)) 1 2 0 /\
  exists out, driver ex_root dr_syev no_syev_ld no_gelss ex_expm exact ex_show rd_dec 5 true (dr_fs rd_in) (rd_fsb 0) (Some (lit "in.ini")) (Ok out) /\ out_E out = Q2Qc (-9 # 2).
Proof. exact rdm_example. Qed.

(** Refuted: the energy printed by an MCSCF job is that of a wave function, also with an RDMFILE. With densities that
    belong to no wave function and a gradient below the threshold it can lie below the whole spectrum. *)
Theorem C66_rdm_energy_refuted : exists rnd fs fsb enc dec name es o D1 D2 bytes D b out, asked rnd fs name 1 es o /\ d_job o = JobMCSCF /\ d_mp2 o = false /\
  fsb (d_rdm o) = Some bytes /\ write_rdms_binary enc 3 D1 3 D2 3 = Ok bytes /\ (forall v, In v D1 \/ In v D2 -> List.length (enc v) = 8 /\ dec (enc v) = v) /\
  driver ex_root dr_syev no_syev_ld no_gelss ex_expm rnd ex_show dec 5 true fs fsb (Some name) (Ok out) /\
  max_index es = 3 /\ d_ninactive o = 1 /\ whole_space 64 3 2 2 D /\ spectrum_above (List.length D) (ci_matrix 64 (mk_ints 3 (file_T es) (file_V es)) 0%Qc D) b /\
  (out_E out < first_core es + b)%Qc.
Proof. exact rdm_energy. Qed.
Print Assumptions C66_rdm_energy_refuted.

(** FCIDUMP_OUT: unless MP2_GUESS is on, the file written holds the integrals that were read, whatever the job. (So
    orbitals optimised by MCSCF or rotated by ASCI are not in it.) *)
Theorem C66_fcidump_out : forall root syev syev_ld gelss expm rnd show dec dbg fs fsb name ne es o,
  asked rnd fs name ne es o -> d_mp2 o = false ->
  forall fuel out, driver root syev syev_ld gelss expm rnd show dec fuel dbg fs fsb (Some name) (Ok out) ->
  let no := max_index es in
  (d_fci_out o = [] -> out_fcidump out = None) /\
  (d_fci_out o <> [] -> (forall p q, p < no -> q < no -> prints show rnd (file_T es p q)) ->
     (forall p q r s, p < no -> q < no -> r < no -> s < no -> prints show rnd (file_V es p q r s)) -> prints show rnd (first_core es) ->
     exists f es', out_fcidump out = Some f /\ data_lines rnd (lines f) es' /\ (forall e, In e es' -> proper e) /\
       max_index es' = no /\ first_core es' = first_core es /\ same2 no (file_T es') (file_T es) /\ same4 no (file_V es') (file_V es)).
Proof. exact fcidump_written. Qed.
Print Assumptions C66_fcidump_out.
Example C66_fcidump_out_ex : d_fci_out dr_asci_o <> [] /\ (forall p q, p < 3 -> q < 3 -> prints ex_show exact (file_T dr_es p q)) /\
  (forall p q r s, p < 3 -> q < 3 -> r < 3 -> s < 3 -> prints ex_show exact (file_V dr_es p q r s)) /\ prints ex_show exact (first_core dr_es).
Proof. exact fcidump_example. Qed.

(** FCIDUMP_OUT with MP2_GUESS (or without): the file holds the integrals in the orbitals the job starts with, an
    orthogonal transformation of those read, and the core energy read. *)
Theorem C66_fcidump_out_orbitals : forall root syev syev_ld gelss expm rnd show dec dbg fs fsb name ne es o,
  asked rnd fs name ne es o -> (d_mp2 o = true -> orthonormal_vectors syev_ld) ->
  let no := max_index es in
  exists U T V, rotated no U (file_T es) (file_V es) T V /\ (d_mp2 o = false -> T = file_T es /\ V = file_V es) /\
  forall fuel out, driver root syev syev_ld gelss expm rnd show dec fuel dbg fs fsb (Some name) (Ok out) ->
  (d_fci_out o = [] -> out_fcidump out = None) /\
  (d_fci_out o <> [] -> (forall p q, p < no -> q < no -> prints show rnd (T p q)) ->
     (forall p q r s, p < no -> q < no -> r < no -> s < no -> prints show rnd (V p q r s)) -> prints show rnd (first_core es) ->
     exists f es', out_fcidump out = Some f /\ data_lines rnd (lines f) es' /\ (forall e, In e es' -> proper e) /\
       max_index es' = no /\ first_core es' = first_core es /\ same2 no (file_T es') T /\ same4 no (file_V es') V).
Proof. exact fcidump_orbitals. Qed.
Print Assumptions C66_fcidump_out_orbitals.
Example C66_fcidump_out_orbitals_ex : asked exact (dr_fs mp_in) (lit "in.ini") 1 dr_es mp_o /\ d_mp2 mp_o = true /\ orthonormal_vectors mp_syev /\ d_fci_out mp_o <> [] /\
  exists out f, driver ex_root dr_syev mp_syev no_gelss ex_expm exact ex_show dec1 5 true (dr_fs mp_in) no_fsb (Some (lit "in.ini")) (Ok out) /\ out_fcidump out = Some f /\ out_E out = Q2Qc (127 # 2).
Proof. exact mp2_example. Qed.

(** Refuted: a job that asks for more electrons than the active space holds is reported. Determinants are built outside
    the arrays. *)
Theorem C66_too_many_electrons_refuted : asked exact (dr_fs dr_bad_in) (lit "in.ini") 3 dr_es dr_bad_o /\ d_nactive dr_bad_o < 3 /\
  driver ex_root dr_syev no_syev_ld no_gelss ex_expm exact ex_show dec1 5 true (dr_fs dr_bad_in) no_fsb (Some (lit "in.ini")) (Err UB).
Proof. exact dr_bad_run. Qed.
Print Assumptions C66_too_many_electrons_refuted.

(** Refuted: the energy printed by an ASCI job is that of its wave function, also with E0_WFN. If the file holds
    NTDETS_MAX determinants and there is no refinement, whatever E0_WFN says is printed. *)
Theorem C66_given_energy_refuted : exists rnd fs name es o dets C E out, asked rnd fs name 1 es o /\ d_job o = JobCI /\ d_exp o = ExpASCI /\ k_rot (d_asci o) = false /\ (2 <= k_grow (d_asci o))%Z /\
  read_wavefunction rnd 64 (stream fs (k_wfn_in (d_asci o))) = Ok (dets, C) /\
  wave_function 64 (max_index es) (d_ninactive o) (d_nactive o) 1 (file_T es) (file_V es) dets C E /\
  driver ex_root dr_syev no_syev_ld no_gelss ex_expm rnd ex_show dec1 5 true fs no_fsb (Some name) (Ok out) /\
  (first_core es + E = Q2Qc (5 # 2))%Qc /\ out_E out = z (-1000).
Proof. exact given_energy. Qed.
Print Assumptions C66_given_energy_refuted.

(** Refuted: the same for a wave function file whose coefficients are not normalised (here twice a normalised one):
    the expectation value is not divided by the norm. *)
Theorem C66_scaled_wavefunction_refuted : exists rnd fs name es o dets C C1 E out, asked rnd fs name 1 es o /\ d_job o = JobCI /\ d_exp o = ExpASCI /\ k_rot (d_asci o) = false /\ (2 <= k_grow (d_asci o))%Z /\ k_E0 (d_asci o) = None /\
  read_wavefunction rnd 64 (stream fs (k_wfn_in (d_asci o))) = Ok (dets, C) /\ C = map (Qcmult (z 2)) C1 /\
  wave_function 64 (max_index es) (d_ninactive o) (d_nactive o) 1 (file_T es) (file_V es) dets C1 E /\
  driver ex_root dr_syev no_syev_ld no_gelss ex_expm rnd ex_show dec1 5 true fs no_fsb (Some name) (Ok out) /\
  (first_core es + E = Q2Qc (5 # 2))%Qc /\ out_E out = Q2Qc (47 # 2).
Proof. exact scaled_wfn. Qed.
Print Assumptions C66_scaled_wavefunction_refuted.

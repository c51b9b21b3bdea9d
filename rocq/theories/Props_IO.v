(** Theorems C23-C25: wavefunction, FCIDUMP and density-matrix files. *)
From Coq Require Import Ascii String QArith Qcanon ZArith NArith.
From Verif Require Import Base Bits SD Spec Ham Text IO IOSpec IOGlue IOProofs FcidumpProofs FcidumpProofs2 RdmIOProofs.
Local Open Scope nat_scope.

(** * C23 *)
(* a wavefunction file reads back as what was written; its header counts the
   determinants, the orbitals and the electrons of either spin *)
Theorem C23_round_trip : forall show rnd W norb states coeffs old,
  spin_width W -> List.length states = List.length coeffs -> states <> [] ->
  (forall s, In s states -> wf W s) -> (forall v, In v coeffs -> prints show rnd v) ->
  (N.of_nat (List.length states) < 2 ^ 31)%N -> (N.of_nat norb < 2 ^ 31)%N ->
  exists file, write_wavefunction show W norb states coeffs old = Ok file /\
    read_wavefunction rnd W file = Ok (states, coeffs) /\
    List.length (lines file) = 1 + List.length states /\
    words (nth 0 (lines file) []) = [show_nat (List.length states); show_nat norb;
      show_nat (bs_count (alpha W (nth 0 states 0%N))); show_nat (bs_count (beta W (nth 0 states 0%N)))].
Proof. exact c23. Qed.
Print Assumptions C23_round_trip.

Example C23_ex : prints show1 exact (Q2Qc 1) /\ prints show1 exact (Q2Qc (-1 # 4)).
Proof. exact c23_ex. Qed.

(* different numbers of determinants and coefficients are rejected *)
Theorem C23_mismatch : forall show W norb states coeffs old,
  List.length states <> List.length coeffs -> write_wavefunction show W norb states coeffs old = Err Throw.
Proof. exact c23_mismatch. Qed.
Print Assumptions C23_mismatch.

(* a file whose header announces a negative number of determinants is rejected *)
Theorem C23_negative_count : forall rnd W file n, stoi (nth 0 (words (nth 0 (lines file) [])) []) = Ok n -> (n < 0)%Z ->
  forall r, read_wavefunction rnd W file <> Ok r.
Proof. exact c23_negative. Qed.
Print Assumptions C23_negative_count.
Example C23_negative_ex : stoi (nth 0 (words (nth 0 (lines (file_of ["-1 2 1 1"]%string)) [])) []) = Ok (-1)%Z /\
  read_wavefunction exact 64 (file_of ["-1 2 1 1"]%string) = Err Throw.
Proof. exact c23_negative_ex. Qed.

(* writing the empty wavefunction leaves the file as it was: reading returns an
   older wavefunction *)
Theorem C23_empty_refuted : exists show rnd old states coeffs, states <> [] /\
  write_wavefunction show 64 2 states coeffs [] = Ok old /\
  exists file, write_wavefunction show 64 2 [] [] old = Ok file /\ read_wavefunction rnd 64 file = Ok (states, coeffs).
Proof. exact c23_empty. Qed.
Print Assumptions C23_empty_refuted.

(** * C24 *)
(* what a file of data lines means: orbital count and core energy *)
Theorem C24_norb_core : forall rnd file es,
  data_lines rnd (lines file) es ->
  read_fcidump_norb rnd file = Ok (max_index es) /\ read_fcidump_core rnd file = Ok (first_core es).
Proof. exact c24_read. Qed.
Print Assumptions C24_norb_core.

(* an element of the one-electron integrals is the last value given for its pair
   of indices in either order, or what the array held before *)
Theorem C24_one_body : forall rnd file es,
  data_lines rnd (lines file) es -> (forall e, In e es -> proper e) ->
  forall T, List.length T = max_index es * max_index es -> exists T',
    read_fcidump_1body_raw rnd file T (max_index es) = Ok T' /\ List.length T' = max_index es * max_index es /\
    forall p q d, p < max_index es -> q < max_index es ->
      nth (pos2 (max_index es) p q) T' d = last_value (fun e => one_at e p q) es (nth (pos2 (max_index es) p q) T d).
Proof. exact c24_one. Qed.
Print Assumptions C24_one_body.

(* an element of the two-electron integrals is the last value given for one of
   the eight permutations of its indices *)
Theorem C24_two_body : forall rnd file es,
  data_lines rnd (lines file) es ->
  forall V, List.length V = max_index es * (max_index es * (max_index es * max_index es)) -> exists V',
    read_fcidump_2body_raw rnd file V (max_index es) = Ok V' /\ List.length V' = List.length V /\
    forall p q r s d, p < max_index es -> q < max_index es -> r < max_index es -> s < max_index es ->
      nth (pos4 (max_index es) p q r s) V' d =
      last_value (fun e => two_at e p q r s) es (nth (pos4 (max_index es) p q r s) V d).
Proof. exact c24_two. Qed.
Print Assumptions C24_two_body.

Example C24_ex : data_lines exact (lines ex_file) ex_data /\ (forall e, In e ex_data -> proper e) /\
  max_index ex_data = 2 /\ first_core ex_data = Q2Qc (7 # 10) /\
  last_value (fun e => one_at e 0 1) ex_data 0%Qc = Q2Qc (-1 # 4) /\
  last_value (fun e => two_at e 0 1 1 0) ex_data 0%Qc = Q2Qc (1 # 2).
Proof. exact c24_ex. Qed.

(* integrals with the usual symmetries survive writing and reading *)
Theorem C24_round_trip : forall show rnd norb T LDT V LDV E_core,
  let t i j := nth (i + j * LDT) T 0%Qc in
  let v i j k l := nth (i + j * LDV + k * LDV * LDV + l * LDV * LDV * LDV) V 0%Qc in
  (N.of_nat norb < 2 ^ 31)%N ->
  (forall i j, i < norb -> j < norb -> i + j * LDT < List.length T) ->
  (forall i j k l, i < norb -> j < norb -> k < norb -> l < norb ->
     i + j * LDV + k * LDV * LDV + l * LDV * LDV * LDV < List.length V) ->
  (forall i j, i < norb -> j < norb -> prints show rnd (t i j)) ->
  (forall i j k l, i < norb -> j < norb -> k < norb -> l < norb -> prints show rnd (v i j k l)) ->
  prints show rnd E_core ->
  (forall i j, i < norb -> j < norb -> t i j = t j i) ->
  (forall i j k l, i < norb -> j < norb -> k < norb -> l < norb ->
     v i j k l = v j i k l /\ v i j k l = v i j l k /\ v i j k l = v k l i j) ->
  exists file,
    write_fcidump show false norb T LDT V LDV E_core = Ok file /\
    read_fcidump_norb rnd file = Ok norb /\
    read_fcidump_core rnd file = Ok E_core /\
    (forall T0, List.length T0 = norb * norb -> exists T', read_fcidump_1body_raw rnd file T0 norb = Ok T' /\
       List.length T' = norb * norb /\ forall p q, p < norb -> q < norb -> nth (pos2 norb p q) T' 0%Qc = t p q) /\
    (forall V0, List.length V0 = norb * (norb * (norb * norb)) -> exists V', read_fcidump_2body_raw rnd file V0 norb = Ok V' /\
       List.length V' = List.length V0 /\
       forall p q r s, p < norb -> q < norb -> r < norb -> s < norb -> nth (pos4 norb p q r s) V' 0%Qc = v p q r s).
Proof. exact c24_round_trip. Qed.
Print Assumptions C24_round_trip.

(* the orbital energies other programs put into these files ("i 0 0 0") make the
   reader store outside the matrix *)
Theorem C24_orbital_energies_refuted : exists file es, data_lines exact (lines file) es /\
  read_fcidump_norb exact file = Ok 1 /\ read_fcidump_1body_raw exact file [0%Qc] 1 = Err UB.
Proof. exact c24_energies. Qed.
Print Assumptions C24_orbital_energies_refuted.

(* a line with three indices counts as a one-electron integral of the first two *)
Theorem C24_three_indices_refuted : data_lines exact (lines three_file) three_data /\
  read_fcidump_norb exact three_file = Ok 1 /\ read_fcidump_1body_raw exact three_file [0%Qc] 1 = Ok [Q2Qc (1 # 4)] /\
  read_fcidump_2body_raw exact three_file [0%Qc] 1 = Ok [0%Qc].
Proof. exact c24_three. Qed.
Print Assumptions C24_three_indices_refuted.

(* a header line that happens to have five fields is rejected *)
Theorem C24_header_refuted :
  read_fcidump_norb exact (file_of ["&FCI NORB= 2, NELEC= 2,"; "1 1 0 0 -1.5"]%string) = Err Throw.
Proof. exact c24_header. Qed.
Print Assumptions C24_header_refuted.

(* an integral written without a decimal point is taken for an index *)
Theorem C24_integer_value_refuted :
  read_fcidump_norb exact (file_of ["2 2 2 2 5"; "0 0 0 0 0.5"]%string) = Ok 5 /\
  exists V, read_fcidump_2body_raw exact (file_of ["2 2 2 2 5"; "0 0 0 0 0.5"]%string) (repeat 0%Qc 625) 5 = Ok V /\
  nth (pos4 5 1 1 1 1) V 0%Qc = 0%Qc /\ nth (pos4 5 1 1 1 4) V 0%Qc = Q2Qc 2.
Proof. exact c24_integer. Qed.
Print Assumptions C24_integer_value_refuted.

(* Fortran exponents are ignored: 1.0D-01 reads as 1 *)
Theorem C24_fortran_exponent_refuted : read_fcidump_core exact (file_of ["0 0 0 0 1.0D-01"]%string) = Ok (Q2Qc 1).
Proof. exact c24_fortran. Qed.
Print Assumptions C24_fortran_exponent_refuted.

(* a second FCIDUMP file cannot be written by the same process *)
Theorem C24_second_write_refuted : forall show norb T LDT V LDV E, write_fcidump show true norb T LDT V LDV E = Err Throw.
Proof. exact c24_second. Qed.
Print Assumptions C24_second_write_refuted.

(* reading into an array with padding is undefined *)
Theorem C24_padded_refuted : forall rnd file n T L,
  read_fcidump_norb rnd file = Ok n -> L <> n -> read_fcidump_1body_raw rnd file T L = Err UB.
Proof. exact c24_padded. Qed.
Print Assumptions C24_padded_refuted.

(** * C25 *)
(* what is written is read back into arrays with any leading dimensions; other
   elements of the arrays stay as they are *)
Theorem C25_round_trip : forall enc dec norb D1 LD1 D2 LD2,
  (forall i j, i < norb -> j < norb -> i + j * LD1 < List.length D1) ->
  (forall i j k l, i < norb -> j < norb -> k < norb -> l < norb ->
     i + j * LD2 + k * LD2 * LD2 + l * LD2 * LD2 * LD2 < List.length D2) ->
  (forall v, In v D1 \/ In v D2 -> List.length (enc v) = 8 /\ dec (enc v) = v) ->
  forall O0 M1 T0 M2, norb <= M1 -> norb <= M2 ->
  (forall i j, i < norb -> j < norb -> i + j * M1 < List.length O0) ->
  (forall i j k l, i < norb -> j < norb -> k < norb -> l < norb ->
     i + j * M2 + k * M2 * M2 + l * M2 * M2 * M2 < List.length T0) ->
  exists file O1 T1, write_rdms_binary enc norb D1 LD1 D2 LD2 = Ok file /\
  read_rdms_binary dec (Some file) norb O0 M1 T0 M2 = Ok (O1, T1) /\
  List.length O1 = List.length O0 /\ List.length T1 = List.length T0 /\
  (forall i j, i < norb -> j < norb -> nth (i + j * M1) O1 0%Qc = nth (i + j * LD1) D1 0%Qc) /\
  (forall i j k l, i < norb -> j < norb -> k < norb -> l < norb ->
     nth (i + j * M2 + k * M2 * M2 + l * M2 * M2 * M2) T1 0%Qc =
     nth (i + j * LD2 + k * LD2 * LD2 + l * LD2 * LD2 * LD2) D2 0%Qc) /\
  (forall p, (forall i j, i < norb -> j < norb -> p <> i + j * M1) -> nth p O1 0%Qc = nth p O0 0%Qc) /\
  (forall p, (forall i j k l, i < norb -> j < norb -> k < norb -> l < norb ->
     p <> i + j * M2 + k * M2 * M2 + l * M2 * M2 * M2) -> nth p T1 0%Qc = nth p T0 0%Qc).
Proof. exact c25_round_trip. Qed.
Print Assumptions C25_round_trip.

(* a file for another number of orbitals, or no file, is rejected *)
Theorem C25_rejected : forall enc dec norb D1 LD1 D2 LD2 file n' O0 M1 T0 M2,
  write_rdms_binary enc norb D1 LD1 D2 LD2 = Ok file ->
  norb <> n' -> (N.of_nat norb < 2 ^ 32)%N -> (N.of_nat n' < 2 ^ 32)%N -> n' <= M1 -> n' <= M2 ->
  (forall i j, i < n' -> j < n' -> i + j * M1 < List.length O0) ->
  (forall i j k l, i < n' -> j < n' -> k < n' -> l < n' ->
     i + j * M2 + k * M2 * M2 + l * M2 * M2 * M2 < List.length T0) ->
  read_rdms_binary dec (Some file) n' O0 M1 T0 M2 = Err Throw /\
  read_rdms_binary dec None n' O0 M1 T0 M2 = Err Throw.
Proof. exact c25_reject. Qed.
Print Assumptions C25_rejected.

Example C25_ex : exists (enc : Qc -> list N) (dec : list N -> Qc), (forall v, In v [1%Qc; 0%Qc] -> List.length (enc v) = 8 /\ dec (enc v) = v).
Proof. exact c25_ex. Qed.

(* a truncated file is accepted; the missing part reads as zeros *)
Theorem C25_truncated_refuted : exists enc dec file,
  (forall v, In v [1%Qc; 0%Qc] -> List.length (enc v) = 8 /\ dec (enc v) = v) /\
  write_rdms_binary enc 1 [1%Qc] 1 [1%Qc] 1 = Ok file /\
  read_rdms_binary dec (Some (firstn 4 file)) 1 [1%Qc] 1 [1%Qc] 1 = Ok ([0%Qc], [0%Qc]).
Proof. exact c25_truncated. Qed.
Print Assumptions C25_truncated_refuted.

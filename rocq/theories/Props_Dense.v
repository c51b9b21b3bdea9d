(** Theorems about the dense-array code (C45-C48, C55), stated with DenseSpec. *)
From Coq Require Import QArith Qcanon Qcabs Bool Lia.
From Verif Require Import Base Sums Dense DenseSpec DenseProofs FockMatProofs RotProofs HessProofs ExpandProofs Mp2Proofs DenseGlue DenseEx ExpandUnique HessLinear.
Local Open Scope nat_scope.

(** * C45: integral transformations *)
Theorem C45_two_index : forall no nn X LDX C LDC Y LDY, 0 < no -> 0 < nn ->
  fits2 X LDX no no -> fits2 C LDC no nn -> fits2 Y LDY nn nn ->
  exists Y', two_index_transform no nn X LDX C LDC Y LDY = Ok Y' /\
    filled2 Y Y' LDY nn nn (congruence2 no (at2 C LDC) (at2 X LDX)).
Proof. exact two_index_ok. Qed.
Print Assumptions C45_two_index.
(* both four-index arrays packed *)
Theorem C45_four_index : forall no nn X C LDC Y LDY, 0 < no -> 0 < nn ->
  fits4 X no no -> fits2 C LDC no nn -> fits4 Y nn nn ->
  exists Y', four_index_transform no nn X no C LDC Y LDY = Ok Y' /\
    filled4 Y Y' nn nn (congruence4 no (at2 C LDC) (at4 X no)).
Proof. exact four_index_packed. Qed.
Print Assumptions C45_four_index.
(* with a larger leading dimension the input is not read, and the output not
   written, as an array with that leading dimension in every index *)
Theorem C45_four_index_strided_input_refuted : exists no nn X LDX C LDC Y Y',
  fits4 X LDX no /\ fits2 C LDC no nn /\ fits4 Y nn nn /\
  four_index_transform no nn X LDX C LDC Y nn = Ok Y' /\ ~ filled4 Y Y' nn nn (congruence4 no (at2 C LDC) (at4 X LDX)).
Proof. exact four_index_strided_ref. Qed.
Print Assumptions C45_four_index_strided_input_refuted.
Theorem C45_four_index_strided_output_refuted : exists no nn X LDX C LDC Y LDY Y',
  LDX = no /\ fits4 X LDX no /\ fits2 C LDC no nn /\ fits4 Y LDY nn /\
  four_index_transform no nn X LDX C LDC Y LDY = Ok Y' /\ ~ filled4 Y Y' LDY nn (congruence4 no (at2 C LDC) (at4 X LDX)).
Proof. exact four_index_ldy_ref. Qed.
Print Assumptions C45_four_index_strided_output_refuted.
(* what is read instead: only the first index is strided *)
Theorem C45_four_index_first_stride : forall no nn X LDX C LDC Y LDY, 0 < no -> 0 < nn -> no <= LDX ->
  (forall i m, i < no -> m < no * no * no -> i + m * LDX < length X) -> fits2 C LDC no nn -> fits4 Y nn nn ->
  exists Y', four_index_transform no nn X LDX C LDC Y LDY = Ok Y' /\
    filled4 Y Y' nn nn (congruence4 no (at2 C LDC) (fun i j k l => nth (i + (j + k * no + l * (no * no)) * LDX) X 0%Qc)).
Proof. exact four_index_ok. Qed.
Print Assumptions C45_four_index_first_stride.
(* transforming by C1 and then by C2 is transforming by C1 C2 *)
Theorem C45_composition2 : forall n m k X C1 C2 C12 Y Z Z', 0 < n -> 0 < m -> 0 < k ->
  fits2 X n n n -> fits2 C1 n n m -> fits2 C2 m m k -> fits2 C12 n n k -> fits2 Y m m m -> fits2 Z k k k -> fits2 Z' k k k ->
  (forall i j, i < n -> j < k -> at2 C12 n i j = product m (at2 C1 n) (at2 C2 m) i j) ->
  exists Y1 Z1 Z2, two_index_transform n m X n C1 n Y m = Ok Y1 /\ two_index_transform m k Y1 m C2 m Z k = Ok Z1 /\
    two_index_transform n k X n C12 n Z' k = Ok Z2 /\ forall p q, p < k -> q < k -> at2 Z1 k p q = at2 Z2 k p q.
Proof. exact compose2_ok. Qed.
Print Assumptions C45_composition2.
Theorem C45_composition4 : forall n m k X C1 C2 C12 Y Z Z', 0 < n -> 0 < m -> 0 < k ->
  fits4 X n n -> fits2 C1 n n m -> fits2 C2 m m k -> fits2 C12 n n k -> fits4 Y m m -> fits4 Z k k -> fits4 Z' k k ->
  (forall i j, i < n -> j < k -> at2 C12 n i j = product m (at2 C1 n) (at2 C2 m) i j) ->
  exists Y1 Z1 Z2, four_index_transform n m X n C1 n Y m = Ok Y1 /\ four_index_transform m k Y1 m C2 m Z k = Ok Z1 /\
    four_index_transform n k X n C12 n Z' k = Ok Z2 /\
    forall p q r s, p < k -> q < k -> r < k -> s < k -> at4 Z1 k p q r s = at4 Z2 k p q r s.
Proof. exact compose4_ok. Qed.
Print Assumptions C45_composition4.
(* a rectangular transform of a concrete matrix with padding *)
Example C45_ex : fits2 ex_T 3 3 3 /\ fits2 [1; 1; 1; 0; 1; 1]%Qc 3 3 2 /\ fits2 (repeat 0%Qc 6) 3 2 2 /\
  congruence2 3 (at2 [1; 1; 1; 0; 1; 1]%Qc 3) (at2 ex_T 3) 0 1 = inject 35 /\
  congruence2 3 (at2 [1; 1; 1; 0; 1; 1]%Qc 3) (at2 ex_T 3) 1 1 = inject 30.
Proof. exact c45_ex. Qed.

(** * C46: Fock matrices and energy *)
Theorem C46_inactive_fock : forall no ni T LDT V LDV Fi LDF, ni <= no -> fits2 T LDT no no -> fits4 V LDV no -> fits2 Fi LDF no no ->
  exists Fi', inactive_fock_matrix no ni T LDT V LDV Fi LDF = Ok Fi' /\
    filled2 Fi Fi' LDF no no (inactive_fock ni (at2 T LDT) (at4 V LDV)) /\
    inactive_energy ni T LDT Fi' LDF = Ok (core_energy ni (at2 T LDT) (at4 V LDV)).
Proof. exact inactive_both. Qed.
Print Assumptions C46_inactive_fock.
Theorem C46_active_hamiltonian : forall no na ni T LDT V LDV Fi LDF TA LDTA VA LDVA, ni + na <= no ->
  fits2 T LDT no no -> fits4 V LDV no -> fits2 Fi LDF no no -> fits2 TA LDTA na na -> fits4 VA LDVA na ->
  exists Fi' TA' VA', active_hamiltonian no na ni T LDT V LDV Fi LDF TA LDTA VA LDVA = Ok (Fi', TA', VA') /\
    filled2 Fi Fi' LDF no no (inactive_fock ni (at2 T LDT) (at4 V LDV)) /\
    filled2 TA TA' LDTA na na (shift2 ni (inactive_fock ni (at2 T LDT) (at4 V LDV))) /\
    filled4 VA VA' LDVA na (shift4 ni (at4 V LDV)).
Proof. exact active_hamiltonian_ok. Qed.
Print Assumptions C46_active_hamiltonian.
Theorem C46_active_fock : forall no ni na V LDV D LDD Fa LDF, ni + na <= no -> fits4 V LDV no -> fits2 D LDD na na -> fits2 Fa LDF no no ->
  exists Fa', active_fock_matrix no ni na V LDV D LDD Fa LDF = Ok Fa' /\
    filled2 Fa Fa' LDF no no (active_fock ni na (at4 V LDV) (at2 D LDD)).
Proof. exact active_fock_ok. Qed.
Print Assumptions C46_active_fock.
Theorem C46_q_matrix : forall na no ni V LDV D2 LDD Q LDQ, ni + na <= no -> fits4 V LDV no -> fits4 D2 LDD na -> fits2 Q LDQ na no ->
  exists Q', aux_q_matrix na no ni V LDV D2 LDD Q LDQ = Ok Q' /\
    filled2 Q Q' LDQ na no (q_matrix ni na (at4 V LDV) (at4 D2 LDD)).
Proof. exact aux_q_ok. Qed.
Print Assumptions C46_q_matrix.
(* the inactive and active rows; the virtual rows are left as they were *)
Theorem C46_generalized_fock : forall no ni na T LDT V LDV D LDD1 D2 LDD2 F LDF, 0 < no -> 0 < LDD1 -> ni + na <= no ->
  fits2 T LDT no no -> fits4 V LDV no -> fits2 D LDD1 na na -> fits4 D2 LDD2 na -> fits2 F LDF (ni + na) no ->
  exists F', generalized_fock_matrix_comp_mat2 no ni na T LDT V LDV D LDD1 D2 LDD2 F LDF = Ok F' /\
    filled2 F F' LDF (ni + na) no (generalized_fock ni na (at2 T LDT) (at4 V LDV) (at2 D LDD1) (at4 D2 LDD2)).
Proof. exact comp_mat2_ok. Qed.
Print Assumptions C46_generalized_fock.
(* the energy from the generalised Fock matrix is core energy plus the contraction
   of the density matrices with the active-space integrals *)
Theorem C46_energy : forall no ni na T LDT V LDV D LDD1 D2 LDD2 F LDF, 0 < no -> 0 < LDD1 -> ni + na <= no ->
  fits2 T LDT no no -> fits4 V LDV no -> fits2 D LDD1 na na -> fits4 D2 LDD2 na -> fits2 F LDF (ni + na) no ->
  pair_symmetric no (at4 V LDV) -> symmetric2 na (at2 D LDD1) ->
  exists F', generalized_fock_matrix_comp_mat2 no ni na T LDT V LDV D LDD1 D2 LDD2 F LDF = Ok F' /\
    energy_from_generalized_fock ni na T LDT D LDD1 F' LDF = Ok (total_energy ni na (at2 T LDT) (at4 V LDV) (at2 D LDD1) (at4 D2 LDD2)).
Proof. exact energy_generalized_ok. Qed.
Print Assumptions C46_energy.
(* without (pq|rs) = (rs|pq) the two differ *)
Theorem C46_energy_unsymmetric_refuted : exists no ni na T V D D2 F' e, ni + na <= no /\ fits2 T no no no /\ fits4 V no no /\
  symmetric2 na (at2 D na) /\
  generalized_fock_matrix_comp_mat2 no ni na T no V no D na D2 na (repeat 0%Qc (no * no)) no = Ok F' /\
  energy_from_generalized_fock ni na T no D na F' no = Ok e /\ e <> total_energy ni na (at2 T no) (at4 V no) (at2 D na) (at4 D2 na).
Proof. exact c46_unsym_ref. Qed.
Print Assumptions C46_energy_unsymmetric_refuted.
(* the energy in rotated orbitals is the energy with transformed integrals *)
Theorem C46_rotated_energy : forall no ni na T LDT V D LDD1 D2 LDD2 U LDU, 0 < no -> 0 < LDD1 -> ni + na <= no ->
  fits2 T LDT no no -> fits4 V no no -> fits2 D LDD1 na na -> fits4 D2 LDD2 na -> fits2 U LDU no no ->
  pair_symmetric no (at4 V no) -> symmetric2 na (at2 D LDD1) ->
  orbital_rotated_energy' no ni na T LDT V no D LDD1 D2 LDD2 U LDU =
    Ok (total_energy ni na (congruence2 no (at2 U LDU) (at2 T LDT)) (congruence4 no (at2 U LDU) (at4 V no)) (at2 D LDD1) (at4 D2 LDD2)).
Proof. exact rotated_energy'_ok. Qed.
Print Assumptions C46_rotated_energy.
Example C46_ex : fits2 ex_T 3 3 3 /\ fits4 ex_V 3 3 /\ fits2 ex_D 1 1 1 /\ fits4 ex_D2 1 1 /\
  symmetric2 3 (at2 ex_T 3) /\ eightfold 3 (at4 ex_V 3) /\ symmetric2 1 (at2 ex_D 1) /\ fourfold 1 (at4 ex_D2 1).
Proof. exact ex_ok. Qed.

(** * C47: orbital rotations *)
Theorem C47_unpack : forall ni na nv k, rot_size ni na nv <= length k -> let n := ni + na + nv in
  exists K, unpack_rotation ni na nv k (repeat 0%Qc (n * n)) n = Ok K /\ length K = n * n /\
    forall p q, p < n -> q < n -> at2 K n p q = rot_matrix ni na nv k p q.
Proof. exact unpack_zero. Qed.
Print Assumptions C47_unpack.
(* any leading dimension: only the blocks between different kinds of orbitals are assigned *)
Theorem C47_unpack_strided : forall ni na nv k K LDK, rot_size ni na nv <= length k -> fits2 K LDK (ni + na + nv) (ni + na + nv) ->
  exists K', unpack_rotation ni na nv k K LDK = Ok K' /\ length K' = length K /\
    (forall p q, rotates ni na nv p q -> at2 K' LDK p q = rot_matrix ni na nv k p q /\ at2 K' LDK q p = rot_matrix ni na nv k q p) /\
    (forall x, (forall p q, rotates ni na nv p q -> x <> p + q * LDK /\ x <> q + p * LDK) -> nth x K' 0%Qc = nth x K 0%Qc).
Proof. exact unpack_ok. Qed.
Print Assumptions C47_unpack_strided.
Theorem C47_antisymmetric : forall ni na nv k p q,
  rot_matrix ni na nv k q p = (- rot_matrix ni na nv k p q)%Qc /\
  (~ rotates ni na nv p q -> ~ rotates ni na nv q p -> rot_matrix ni na nv k p q = 0%Qc).
Proof. exact c47_anti. Qed.
Print Assumptions C47_antisymmetric.
(* the packed positions are in bijection with the pairs *)
Theorem C47_positions : forall ni na nv,
  (forall p q, rotates ni na nv p q -> rot_index ni na nv p q < rot_size ni na nv) /\
  (forall x, x < rot_size ni na nv -> exists p q, rotates ni na nv p q /\ rot_index ni na nv p q = x) /\
  (forall p q p' q', rotates ni na nv p q -> rotates ni na nv p' q' -> rot_index ni na nv p q = rot_index ni na nv p' q' -> p = p' /\ q = q').
Proof. exact c47_positions. Qed.
Print Assumptions C47_positions.
Theorem C47_pack_unpack : forall ni na nv k G, length k = rot_size ni na nv -> length G = rot_size ni na nv ->
  let n := ni + na + nv in
  exists K, unpack_rotation ni na nv k (repeat 0%Qc (n * n)) n = Ok K /\ pack_rotation ni na nv K n G = Ok k.
Proof. exact pack_unpack. Qed.
Print Assumptions C47_pack_unpack.
Theorem C47_unpack_pack : forall ni na nv K G, let n := ni + na + nv in length K = n * n -> length G = rot_size ni na nv ->
  (forall p q, p < n -> q < n -> at2 K n q p = (- at2 K n p q)%Qc) ->
  (forall p q, p < n -> q < n -> ~ rotates ni na nv p q -> ~ rotates ni na nv q p -> at2 K n p q = 0%Qc) ->
  exists k, pack_rotation ni na nv K n G = Ok k /\ unpack_rotation ni na nv k (repeat 0%Qc (n * n)) n = Ok K.
Proof. exact unpack_pack. Qed.
Print Assumptions C47_unpack_pack.
(* the gradient vector, the gradient matrix, and that one packs to the other *)
Theorem C47_gradient : forall ni na nv F LDF G, rot_size ni na nv <= length G -> fits2 F LDF (ni + na + nv) (ni + na + nv) ->
  exists G', pack_gradient ni na nv F LDF G = Ok G' /\ length G' = length G /\
    (forall p q, rotates ni na nv p q -> nth (rot_index ni na nv p q) G' 0%Qc = (two * (at2 F LDF p q - at2 F LDF q p))%Qc) /\
    (forall x, rot_size ni na nv <= x -> nth x G' 0%Qc = nth x G 0%Qc).
Proof. exact pack_gradient_ok. Qed.
Print Assumptions C47_gradient.
Theorem C47_gradient_matrix : forall ni na nv F LDF OG LDG,
  fits2 F LDF (ni + na + nv) (ni + na + nv) -> fits2 OG LDG (ni + na + nv) (ni + na + nv) ->
  exists OG', fock_to_gradient ni na nv F LDF OG LDG = Ok OG' /\ length OG' = length OG /\
    (forall p q, rotates ni na nv p q \/ rotates ni na nv q p -> at2 OG' LDG p q = (two * (at2 F LDF p q - at2 F LDF q p))%Qc) /\
    (forall x, (forall p q, rotates ni na nv p q -> x <> p + q * LDG /\ x <> q + p * LDG) -> nth x OG' 0%Qc = nth x OG 0%Qc).
Proof. exact gradient_matrix_ok. Qed.
Print Assumptions C47_gradient_matrix.
Theorem C47_gradient_packed : forall ni na nv F LDF G, let n := ni + na + nv in fits2 F LDF n n -> length G = rot_size ni na nv ->
  exists g OG, pack_gradient ni na nv F LDF G = Ok g /\ fock_to_gradient ni na nv F LDF (repeat 0%Qc (n * n)) n = Ok OG /\
    pack_rotation ni na nv OG n G = Ok g /\ unpack_rotation ni na nv g (repeat 0%Qc (n * n)) n = Ok OG.
Proof. exact pack_gradient_matrix. Qed.
Print Assumptions C47_gradient_packed.
(* one inactive, two active, one virtual orbital: five parameters *)
Example C47_ex : rot_size 1 2 1 = 5 /\ rotates 1 2 1 3 0 /\ rotates 1 2 1 3 2 /\ rotates 1 2 1 2 0 /\ ~ rotates 1 2 1 2 1 /\
  map (fun pq => rot_index 1 2 1 (fst pq) (snd pq)) [(3, 0); (3, 1); (3, 2); (1, 0); (2, 0)] = [0; 1; 2; 3; 4] /\
  rot_matrix 1 2 1 (map inject [7; 8; 9; 10; 11]) 2 0 = inject 11 /\ rot_matrix 1 2 1 (map inject [7; 8; 9; 10; 11]) 1 3 = (- inject 8)%Qc.
Proof. exact c47_ex. Qed.

(** * C48: second-order perturbation theory *)
Theorem C48_orbital_energies : forall no ni T LDT V LDV eps, ni <= no -> fits2 T LDT no no -> fits4 V LDV no -> no <= length eps ->
  exists e, canonical_orbital_energies no ni T LDT V LDV eps = Ok e /\ length e = length eps /\
    (forall p, p < no -> nth p e 0%Qc = orbital_energy ni (at2 T LDT) (at4 V LDV) p) /\ (forall p, no <= p -> nth p e 0%Qc = nth p eps 0%Qc).
Proof. exact canonical_ok. Qed.
Print Assumptions C48_orbital_energies.
Theorem C48_amplitudes : forall no nv V LDV eps T2, fits4 V LDV (no + nv) -> no + nv <= length eps -> no * no * nv * nv <= length T2 ->
  (forall i j a b, i < no -> j < no -> a < nv -> b < nv -> denominator no (fun p => nth p eps 0%Qc) i j a b <> 0%Qc) ->
  exists t, mp2_t2 no nv V LDV eps T2 = Ok t /\ length t = length T2 /\
    (forall i j a b, i < no -> j < no -> a < nv -> b < nv ->
       nth (i + j * no + a * (no * no) + b * (no * no * nv)) t 0%Qc = amplitude no (at4 V LDV) (fun p => nth p eps 0%Qc) i j a b) /\
    (forall x, no * no * nv * nv <= x -> nth x t 0%Qc = nth x T2 0%Qc).
Proof. exact mp2_t2_ok. Qed.
Print Assumptions C48_amplitudes.
(* degenerate orbitals: the result is not finite *)
Theorem C48_zero_denominator : forall no nv V LDV eps T2 i j a b,
  fits4 V LDV (no + nv) -> no + nv <= length eps -> no * no * nv * nv <= length T2 ->
  i < no -> j < no -> a < nv -> b < nv -> denominator no (fun p => nth p eps 0%Qc) i j a b = 0%Qc ->
  mp2_t2 no nv V LDV eps T2 = Err NonFinite.
Proof. exact mp2_t2_zero. Qed.
Print Assumptions C48_zero_denominator.
Theorem C48_density_matrix : forall norb no nv T LDT V LDV P LDD, norb = no + nv ->
  fits2 T LDT norb norb -> fits4 V LDV norb -> fits2 P LDD norb norb ->
  let eps := orbital_energy no (at2 T LDT) (at4 V LDV) in let t := amplitude no (at4 V LDV) eps in
  (forall i j a b, i < no -> j < no -> a < nv -> b < nv -> denominator no eps i j a b <> 0%Qc) ->
  exists E P', mp2_1rdm norb no nv T LDT V LDV P LDD = Ok (E, P') /\
    (LDV = norb -> E = correlation_energy no nv (at4 V LDV) t) /\ length P' = length P /\
    (forall i j, i < no -> j < no -> at2 P' LDD i j = occupied_block no nv t i j) /\
    (forall a b, a < nv -> b < nv -> at2 P' LDD (a + no) (b + no) = virtual_block no nv t a b) /\
    (forall x, (forall i j, i < no -> j < no -> x <> i + j * LDD) -> (forall a b, a < nv -> b < nv -> x <> a + no + (b + no) * LDD) ->
       nth x P' 0%Qc = nth x P 0%Qc).
Proof. exact mp2_1rdm_ok. Qed.
Print Assumptions C48_density_matrix.
(* trace and symmetry of that density matrix *)
Theorem C48_trace : forall no nv t,
  (Sigma no (fun i => occupied_block no nv t i i) + Sigma nv (fun a => virtual_block no nv t a a) = two * inject no)%Qc.
Proof. exact mp2_trace. Qed.
Print Assumptions C48_trace.
Theorem C48_symmetric : forall no nv V eps, let t := amplitude no V eps in
  (forall i j, occupied_block no nv t i j = occupied_block no nv t j i) /\
  (pair_symmetric (no + nv) V -> forall a b, a < nv -> b < nv -> virtual_block no nv t a b = virtual_block no nv t b a).
Proof. exact c48_sym. Qed.
Print Assumptions C48_symmetric.
(* block diagonal only if the caller's array was zero there *)
Theorem C48_block_diagonal_refuted : exists norb no nv T V P E P', norb = no + nv /\
  fits2 T norb norb norb /\ fits4 V norb norb /\ fits2 P norb norb norb /\
  (forall i j a b, i < no -> j < no -> a < nv -> b < nv -> denominator no (orbital_energy no (at2 T norb) (at4 V norb)) i j a b <> 0%Qc) /\
  mp2_1rdm norb no nv T norb V norb P norb = Ok (E, P') /\ exists i a, i < no /\ a < nv /\ at2 P' norb i (a + no) <> 0%Qc.
Proof. exact mp2_garbage_ref. Qed.
Print Assumptions C48_block_diagonal_refuted.
(* the printed energy is wrong when the leading dimension exceeds the number of orbitals *)
Theorem C48_printed_energy_refuted : exists norb no nv T LDT V LDV P LDD E P', norb = no + nv /\
  fits2 T LDT norb norb /\ fits4 V LDV norb /\ fits2 P LDD norb norb /\ eightfold norb (at4 V LDV) /\
  (forall i j a b, i < no -> j < no -> a < nv -> b < nv -> denominator no (orbital_energy no (at2 T LDT) (at4 V LDV)) i j a b <> 0%Qc) /\
  mp2_1rdm norb no nv T LDT V LDV P LDD = Ok (E, P') /\
  E <> correlation_energy no nv (at4 V LDV) (amplitude no (at4 V LDV) (orbital_energy no (at2 T LDT) (at4 V LDV))).
Proof. exact mp2_energy_ref. Qed.
Print Assumptions C48_printed_energy_refuted.
(* natural orbitals: the eigensolver gets the negated density matrix, and the
   occupation numbers are its negated eigenvalues *)
Theorem C48_natural_orbitals : forall syev norb no nv T LDT V LDV C LDC, norb = no + nv ->
  fits2 T LDT norb norb -> fits4 V LDV norb -> fits2 C LDC norb norb ->
  (forall p q, p < norb -> q < norb -> at2 C LDC p q = 0%Qc) ->
  let eps := orbital_energy no (at2 T LDT) (at4 V LDV) in let t := amplitude no (at4 V LDV) eps in
  (forall i j a b, i < no -> j < no -> a < nv -> b < nv -> denominator no eps i j a b <> 0%Qc) ->
  exists A, length A = length C /\
    (forall p q, p < norb -> q < norb -> at2 A LDC p q = (- mp2_density no nv t p q)%Qc) /\
    forall C' w, syev norb A LDC = Ok (C', w) -> norb <= length w ->
      exists ON, mp2_natural_orbitals syev norb no nv T LDT V LDV C LDC = Ok (ON, C') /\
        forall p, p < norb -> nth p ON 0%Qc = (- nth p w 0)%Qc.
Proof. exact natural_ok. Qed.
Print Assumptions C48_natural_orbitals.
Example C48_ex : fits2 mp_T 2 2 2 /\ fits4 mp_V 2 2 /\ eightfold 2 (at4 mp_V 2) /\
  amplitude 1 (at4 mp_V 2) (orbital_energy 1 (at2 mp_T 2) (at4 mp_V 2)) 0 0 0 0 = (- half)%Qc /\
  forall i j a b, i < 1 -> j < 1 -> a < 1 -> b < 1 -> denominator 1 (orbital_energy 1 (at2 mp_T 2) (at4 mp_V 2)) i j a b <> 0%Qc.
Proof. exact mp_ok. Qed.

(** * C55: orbital derivatives of the energy *)
(* U(t) = exp(-t K): the energy computed in the orbitals U(t) is
   E(0) + t (k . g) + t^2/2 (k . H k) + O(t^3) with the gradient g and the
   Hessian product H k the code returns *)
Theorem C55_derivatives : forall no ni na nv T V D LDD1 D2 LDD2 k HK (U : Qc -> list Qc), no = ni + na + nv -> 0 < no -> 0 < LDD1 ->
  fits2 T no no no -> fits4 V no no -> fits2 D LDD1 na na -> fits4 D2 LDD2 na ->
  rot_size ni na nv <= length k -> rot_size ni na nv <= length HK ->
  symmetric2 no (at2 T no) -> eightfold no (at4 V no) -> symmetric2 na (at2 D LDD1) -> fourfold na (at4 D2 LDD2) ->
  (forall t, fits2 (U t) no no no) -> rotation_family no (fun t => at2 (U t) no) (rot_matrix ni na nv k) ->
  exists F g h (E : Qc -> Qc),
    generalized_fock_matrix_comp_mat2 no ni na T no V no D LDD1 D2 LDD2 (repeat 0%Qc (no * no)) no = Ok F /\
    pack_gradient ni na nv F no (repeat 0%Qc (rot_size ni na nv)) = Ok g /\
    orb_orb_hessian_contract no ni na nv T no V no D LDD1 D2 LDD2 g k HK = Ok h /\
    (forall t, orbital_rotated_energy' no ni na T no V no D LDD1 D2 LDD2 (U t) no = Ok (E t)) /\
    energy_from_generalized_fock ni na T no D LDD1 F no = Ok (total_energy ni na (at2 T no) (at4 V no) (at2 D LDD1) (at4 D2 LDD2)) /\
    expands E (total_energy ni na (at2 T no) (at4 V no) (at2 D LDD1) (at4 D2 LDD2))
      (dot (rot_size ni na nv) k g) (half * dot (rot_size ni na nv) k h).
Proof. exact energy_derivatives. Qed.
Print Assumptions C55_derivatives.
(* such families exist for every antisymmetric matrix, and determine the coefficients *)
Theorem C55_families_exist : forall n K, exists U, (forall t, fits2 (U t) n n n) /\ rotation_family n (fun t => at2 (U t) n) K.
Proof. exact (fun n K => ex_intro _ (quadratic_family n K) (quadratic_rotation n K)). Qed.
Print Assumptions C55_families_exist.
Theorem C55_expansion_unique : forall f a b c a' b' c', expands f a b c -> expands f a' b' c' -> a = a' /\ b = b' /\ c = c'.
Proof. exact expands_unique. Qed.
Print Assumptions C55_expansion_unique.
(* the integrals transformed in one index *)
Theorem C55_one_index : forall no T LDT V LDV X LDX Tx LDTx Vx LDVx, LDX = LDT -> fits2 T LDT no no -> fits4 V LDV no -> fits2 X LDX no no ->
  fits2 Tx LDTx no no -> fits4 Vx LDVx no ->
  exists Tx' Vx', one_index_transformed_hamiltonian no T LDT V LDV X LDX Tx LDTx Vx LDVx = Ok (Tx', Vx') /\
    filled2 Tx Tx' LDTx no no (one_index2 no (at2 X LDX) (at2 T LDT)) /\ filled4 Vx Vx' LDVx no (one_index4 no (at2 X LDX) (at4 V LDV)).
Proof. exact one_index_ok. Qed.
Print Assumptions C55_one_index.
Theorem C55_one_index_leading_dimension_refuted : exists no T LDT V LDV X LDX Tx LDTx Vx LDVx Tx' Vx',
  fits2 T LDT no no /\ fits4 V LDV no /\ fits2 X LDX no no /\ fits2 Tx LDTx no no /\ fits4 Vx LDVx no /\
  one_index_transformed_hamiltonian no T LDT V LDV X LDX Tx LDTx Vx LDVx = Ok (Tx', Vx') /\
  ~ filled2 Tx Tx' LDTx no no (one_index2 no (at2 X LDX) (at2 T LDT)).
Proof. exact one_index_ld_ref. Qed.
Print Assumptions C55_one_index_leading_dimension_refuted.
(* the Hessian product is linear in the rotation *)
Theorem C55_hessian_linear : forall no ni na nv T V LDV D LDD1 D2 LDD2 OG c d k l m HK HL HM, no = ni + na + nv -> 0 < no -> 0 < LDD1 ->
  fits2 T no no no -> fits4 V LDV no -> fits2 D LDD1 na na -> fits4 D2 LDD2 na ->
  let N := rot_size ni na nv in
  N <= length OG -> N <= length k -> N <= length l -> N <= length m -> N <= length HK -> N <= length HL -> N <= length HM ->
  (forall x, x < N -> nth x k 0%Qc = (c * nth x l 0 + d * nth x m 0)%Qc) ->
  exists hk hl hm,
    orb_orb_hessian_contract no ni na nv T no V LDV D LDD1 D2 LDD2 OG k HK = Ok hk /\
    orb_orb_hessian_contract no ni na nv T no V LDV D LDD1 D2 LDD2 OG l HL = Ok hl /\
    orb_orb_hessian_contract no ni na nv T no V LDV D LDD1 D2 LDD2 OG m HM = Ok hm /\
    forall x, x < N -> nth x hk 0%Qc = (c * nth x hl 0 + d * nth x hm 0)%Qc.
Proof. exact hessian_linear. Qed.
Print Assumptions C55_hessian_linear.
(* second derivatives are symmetric, the Hessian products are not *)
Theorem C55_hessian_symmetric_refuted : exists no ni na nv T V D D2 l k F g hl hk, no = ni + na + nv /\
  symmetric2 no (at2 T no) /\ eightfold no (at4 V no) /\ symmetric2 na (at2 D na) /\ fourfold na (at4 D2 na) /\
  (let F := generalized_fock ni na (at2 T no) (at4 V no) (at2 D na) (at4 D2 na) in
   forall x y, x < na -> y < na -> F (x + ni) (y + ni) = F (y + ni) (x + ni)) /\
  generalized_fock_matrix_comp_mat2 no ni na T no V no D na D2 na (repeat 0%Qc (no * no)) no = Ok F /\
  pack_gradient ni na nv F no (repeat 0%Qc (rot_size ni na nv)) = Ok g /\
  orb_orb_hessian_contract no ni na nv T no V no D na D2 na g l (repeat 0%Qc (rot_size ni na nv)) = Ok hl /\
  orb_orb_hessian_contract no ni na nv T no V no D na D2 na g k (repeat 0%Qc (rot_size ni na nv)) = Ok hk /\
  dot (rot_size ni na nv) l hk <> dot (rot_size ni na nv) k hl.
Proof. exact c55_asym_ref. Qed.
Print Assumptions C55_hessian_symmetric_refuted.
(* by how much: half the gradient contracted with the commutator of the rotations *)
Theorem C55_hessian_asymmetry : forall no ni na nv T V D LDD1 D2 LDD2 l k HL HK, no = ni + na + nv -> 0 < no -> 0 < LDD1 ->
  fits2 T no no no -> fits4 V no no -> fits2 D LDD1 na na -> fits4 D2 LDD2 na ->
  rot_size ni na nv <= length l -> rot_size ni na nv <= length k -> rot_size ni na nv <= length HL -> rot_size ni na nv <= length HK ->
  symmetric2 no (at2 T no) -> eightfold no (at4 V no) -> symmetric2 na (at2 D LDD1) -> fourfold na (at4 D2 LDD2) ->
  (let F := generalized_fock ni na (at2 T no) (at4 V no) (at2 D LDD1) (at4 D2 LDD2) in
   forall x y, x < na -> y < na -> F (x + ni) (y + ni) = F (y + ni) (x + ni)) ->
  exists F g hl hk,
    generalized_fock_matrix_comp_mat2 no ni na T no V no D LDD1 D2 LDD2 (repeat 0%Qc (no * no)) no = Ok F /\
    pack_gradient ni na nv F no (repeat 0%Qc (rot_size ni na nv)) = Ok g /\
    orb_orb_hessian_contract no ni na nv T no V no D LDD1 D2 LDD2 g l HL = Ok hl /\
    orb_orb_hessian_contract no ni na nv T no V no D LDD1 D2 LDD2 g k HK = Ok hk /\
    let L := rot_matrix ni na nv l in let K := rot_matrix ni na nv k in let G := rot_matrix ni na nv g in
    (dot (rot_size ni na nv) l hk - dot (rot_size ni na nv) k hl =
     - (half * Sigma no (fun p => Sigma no (fun q => G p q * (product no L K p q - product no K L p q)))))%Qc.
Proof. exact hessian_product_asymmetry. Qed.
Print Assumptions C55_hessian_asymmetry.
(* so they are symmetric at stationary points *)
Theorem C55_hessian_symmetric_at_stationary_points : forall no ni na nv T V D LDD1 D2 LDD2 l k HL HK, no = ni + na + nv -> 0 < no -> 0 < LDD1 ->
  fits2 T no no no -> fits4 V no no -> fits2 D LDD1 na na -> fits4 D2 LDD2 na ->
  rot_size ni na nv <= length l -> rot_size ni na nv <= length k -> rot_size ni na nv <= length HL -> rot_size ni na nv <= length HK ->
  symmetric2 no (at2 T no) -> eightfold no (at4 V no) -> symmetric2 na (at2 D LDD1) -> fourfold na (at4 D2 LDD2) ->
  (let F := generalized_fock ni na (at2 T no) (at4 V no) (at2 D LDD1) (at4 D2 LDD2) in
   forall x y, x < na -> y < na -> F (x + ni) (y + ni) = F (y + ni) (x + ni)) ->
  exists F g hl hk,
    generalized_fock_matrix_comp_mat2 no ni na T no V no D LDD1 D2 LDD2 (repeat 0%Qc (no * no)) no = Ok F /\
    pack_gradient ni na nv F no (repeat 0%Qc (rot_size ni na nv)) = Ok g /\
    orb_orb_hessian_contract no ni na nv T no V no D LDD1 D2 LDD2 g l HL = Ok hl /\
    orb_orb_hessian_contract no ni na nv T no V no D LDD1 D2 LDD2 g k HK = Ok hk /\
    ((forall x, x < rot_size ni na nv -> nth x g 0%Qc = 0%Qc) -> dot (rot_size ni na nv) l hk = dot (rot_size ni na nv) k hl).
Proof. exact hessian_symmetric_stationary. Qed.
Print Assumptions C55_hessian_symmetric_at_stationary_points.
(* the diagonal approximation from the integrals, and the preconditioned step *)
Theorem C55_diagonal_hessian : forall no ni na nv T LDT V LDV D LDD1 D2 LDD2 H, no = ni + na + nv -> 0 < no -> 0 < LDD1 ->
  fits2 T LDT no no -> fits4 V LDV no -> fits2 D LDD1 na na -> fits4 D2 LDD2 na -> rot_size ni na nv <= length H ->
  exists H', approx_diag_hessian_integrals no ni na nv T LDT V LDV D LDD1 D2 LDD2 H = Ok H' /\ length H' = length H /\
    (forall p q, rotates ni na nv p q -> nth (rot_index ni na nv p q) H' 0%Qc =
       diagonal_hessian ni na (inactive_fock ni (at2 T LDT) (at4 V LDV)) (active_fock ni na (at4 V LDV) (at2 D LDD1))
         (generalized_fock ni na (at2 T LDT) (at4 V LDV) (at2 D LDD1) (at4 D2 LDD2)) (at2 D LDD1) p q) /\
    (forall x, rot_size ni na nv <= x -> nth x H' 0%Qc = nth x H 0%Qc).
Proof. exact diag_hessian_integrals_ok. Qed.
Print Assumptions C55_diagonal_hessian.
Theorem C55_step : forall no ni na nv Fi LDFi Fa LDFa F LDF D LDD G K, let n := ni + na + nv in
  fits2 Fi LDFi n n -> fits2 Fa LDFa n n -> fits2 D LDD na na -> fits2 F LDF n n -> rot_size ni na nv <= length G -> rot_size ni na nv <= length K ->
  let dh := diagonal_hessian ni na (at2 Fi LDFi) (at2 Fa LDFa) (at2 F LDF) (at2 D LDD) in
  (forall p q, rotates ni na nv p q -> dh p q <> 0%Qc) ->
  exists K', precond_cg_orbital_step no ni na nv Fi LDFi Fa LDFa F LDF D LDD G K = Ok K' /\ length K' = length K /\
    (forall p q, rotates ni na nv p q -> nth (rot_index ni na nv p q) K' 0%Qc = (- nth (rot_index ni na nv p q) G 0 / dh p q)%Qc) /\
    (forall x, rot_size ni na nv <= x -> nth x K' 0%Qc = nth x K 0%Qc).
Proof. exact precond_ok. Qed.
Print Assumptions C55_step.
(* with a positive diagonal Hessian the step goes downhill unless the gradient is zero *)
Theorem C55_step_descends : forall no ni na nv Fi LDFi Fa LDFa F LDF D LDD G K, let n := ni + na + nv in
  fits2 Fi LDFi n n -> fits2 Fa LDFa n n -> fits2 D LDD na na -> fits2 F LDF n n -> rot_size ni na nv <= length G -> rot_size ni na nv <= length K ->
  (forall p q, rotates ni na nv p q -> (0 < diagonal_hessian ni na (at2 Fi LDFi) (at2 Fa LDFa) (at2 F LDF) (at2 D LDD) p q)%Qc) ->
  exists K', precond_cg_orbital_step no ni na nv Fi LDFi Fa LDFa F LDF D LDD G K = Ok K' /\ (dot (rot_size ni na nv) K' G <= 0)%Qc /\
    ((exists x, x < rot_size ni na nv /\ nth x G 0%Qc <> 0%Qc) -> (dot (rot_size ni na nv) K' G < 0)%Qc).
Proof. exact precond_descent. Qed.
Print Assumptions C55_step_descends.
Example C55_ex : fits2 st_F 3 3 3 /\ fits2 (repeat 0%Qc 9) 3 3 3 /\ fits2 ex_D 1 1 1 /\ rot_size 1 1 1 = 3 /\
  forall p q, rotates 1 1 1 p q -> (0 < diagonal_hessian 1 1 (at2 st_F 3) (at2 (repeat 0%Qc 9) 3) (at2 (repeat 0%Qc 9) 3) (at2 ex_D 1) p q)%Qc.
Proof. exact st_ok. Qed.

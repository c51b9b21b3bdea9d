(** Properties C11-C21: phases, Hamiltonian, density matrices, CSR. *)
From Coq Require Import QArith Qcanon.
From Verif Require Import Base Bits SD Spec Sums FockSpec Ham SparseSpec CsrView Dist
  HamProofs4 HamProofs5 HamProofs6 HamProofs7 HamProofs8 CsrProofs DistProofs PropsHamGlue.
Local Open Scope nat_scope.

(** * C11 *)
(* the single excitation from [ket] to [bra] empties o, fills v, and the sign
   is that of a+_v a_o; the reverse excitation has the same sign *)
Theorem C11_single_phase : forall W bra ket, wf W bra -> wf W ket -> moves 1 ket bra ->
  exists o v sg,
    single_excitation_sign_indices W bra ket (N.lxor bra ket) = Ok (o, v, sg) /\
    (forall k, tb ket k = true /\ tb bra k = false <-> k = o) /\
    (forall k, tb bra k = true /\ tb ket k = false <-> k = v) /\
    apply [Cre v; Ann o] ket = Some (sg, bra) /\
    single_excitation_sign_indices W ket bra (N.lxor ket bra) = Ok (v, o, sg) /\
    apply [Cre o; Ann v] bra = Some (sg, ket).
Proof. exact single_phase. Qed.
Print Assumptions C11_single_phase.
Example C11_single_phase_ex : moves 1 11 26 /\
  single_excitation_sign_indices 8 26 11 (N.lxor 26 11) = Ok (0, 4, false) /\
  moves 1 3 6 /\ single_excitation_sign_indices 8 6 3 (N.lxor 6 3) = Ok (0, 2, true).
Proof. exact c11_ex. Qed.

(** * C12 *)
Theorem C12_double_phase_same_spin : forall W bra ket, wf W bra -> wf W ket -> moves 2 ket bra ->
  exists o1 v1 o2 v2 sg,
    doubles_sign_indices W bra ket (N.lxor bra ket) = Ok (o1, v1, o2, v2, sg) /\
    doubles_sign W bra ket (N.lxor bra ket) = Ok sg /\
    o1 < o2 /\ v1 < v2 /\
    (forall k, tb ket k = true /\ tb bra k = false <-> k = o1 \/ k = o2) /\
    (forall k, tb bra k = true /\ tb ket k = false <-> k = v1 \/ k = v2) /\
    apply [Cre v1; Cre v2; Ann o2; Ann o1] ket = Some (sg, bra).
Proof. exact double_phase. Qed.
Print Assumptions C12_double_phase_same_spin.
Example C12_double_phase_same_spin_ex : moves 2 7 26 /\
  doubles_sign_indices 8 26 7 (N.lxor 26 7) = Ok (0, 3, 2, 4, true).
Proof. exact c12_ex. Qed.

Theorem C12_double_phase_opposite_spin : forall W bra ket,
  spin_width W -> wf W bra -> wf W ket ->
  moves 1 (alpha W ket) (alpha W bra) -> moves 1 (beta W ket) (beta W bra) ->
  exists o1 v1 s1 o2 v2 s2,
    single_excitation_sign_indices (W / 2) (alpha W bra) (alpha W ket)
      (N.lxor (alpha W bra) (alpha W ket)) = Ok (o1, v1, s1) /\
    single_excitation_sign_indices (W / 2) (beta W bra) (beta W ket)
      (N.lxor (beta W bra) (beta W ket)) = Ok (o2, v2, s2) /\
    apply [Cre (so W false v1); Cre (so W true v2); Ann (so W true o2); Ann (so W false o1)] ket
      = Some (xorb s1 s2, bra).
Proof. exact mixed_phase. Qed.
Print Assumptions C12_double_phase_opposite_spin.
Example C12_double_phase_opposite_spin_ex :
  spin_width 64 /\ wf 64 (3 + 3 * 2 ^ 32) /\ wf 64 (6 + 5 * 2 ^ 32) /\
  moves 1 (alpha 64 (3 + 3 * 2 ^ 32)) (alpha 64 (6 + 5 * 2 ^ 32)) /\
  moves 1 (beta 64 (3 + 3 * 2 ^ 32)) (beta 64 (6 + 5 * 2 ^ 32)).
Proof. exact c12_mixed_ex. Qed.

(** * C13 *)
(* T needs no symmetry at all, V only (pq|rs) = (rs|pq) *)
Theorem C13_matrix_element : forall W h bra ket na nb,
  spin_width W -> norb h <= W / 2 ->
  (forall p q r s, p < norb h -> q < norb h -> r < norb h -> s < norb h ->
     V_pqrs h p q r s = V_pqrs h r s p q) ->
  in_space W (norb h) bra -> in_space W (norb h) ket ->
  size_is (alpha W bra) na -> size_is (alpha W ket) na ->
  size_is (beta W bra) nb -> size_is (beta W ket) nb ->
  matrix_element W h bra ket = Ok (ham W (norb h) (T_pq h) (V_pqrs h) bra ket).
Proof. exact c13. Qed.
Print Assumptions C13_matrix_element.
Example C13_matrix_element_ex :
  in_space 64 4 (3 + 5 * 2 ^ 32) /\ in_space 64 4 (6 + 3 * 2 ^ 32) /\
  size_is (alpha 64 (3 + 5 * 2 ^ 32)) 2 /\ size_is (alpha 64 (6 + 3 * 2 ^ 32)) 2 /\
  size_is (beta 64 (3 + 5 * 2 ^ 32)) 2 /\ size_is (beta 64 (6 + 3 * 2 ^ 32)) 2 /\
  exists x, matrix_element 64 ex_ints (3 + 5 * 2 ^ 32) (6 + 3 * 2 ^ 32) = Ok x /\ x <> 0%Qc.
Proof. exact c13_ex. Qed.

(** * C14 *)
Theorem C14_hermitian : forall W h bra ket na nb,
  spin_width W -> norb h <= W / 2 ->
  (forall p q, p < norb h -> q < norb h -> T_pq h p q = T_pq h q p) ->
  (forall p q r s, p < norb h -> q < norb h -> r < norb h -> s < norb h ->
     V_pqrs h p q r s = V_pqrs h r s p q /\ V_pqrs h p q r s = V_pqrs h q p s r) ->
  in_space W (norb h) bra -> in_space W (norb h) ket ->
  size_is (alpha W bra) na -> size_is (alpha W ket) na ->
  size_is (beta W bra) nb -> size_is (beta W ket) nb ->
  exists x, matrix_element W h bra ket = Ok x /\ matrix_element W h ket bra = Ok x.
Proof. exact c14. Qed.
Print Assumptions C14_hermitian.
Example C14_hermitian_ex :
  (forall p q, T_pq ex_ints p q = T_pq ex_ints q p) /\
  (forall p q r s, V_pqrs ex_ints p q r s = V_pqrs ex_ints r s p q /\
                   V_pqrs ex_ints p q r s = V_pqrs ex_ints q p s r) /\
  (exists x, matrix_element 64 ex_ints (3 + 2 ^ 32) (6 + 2 ^ 32) = Ok x /\ x <> 0%Qc /\
             matrix_element 64 ex_ints (6 + 2 ^ 32) (3 + 2 ^ 32) = Ok x).
Proof. exact c14_ex. Qed.

(** * C15 *)
(* more than two electron moves, i.e. more than four differing spin orbitals *)
Theorem C15_far_is_zero : forall W h bra ket k,
  spin_width W -> wf W bra -> wf W ket ->
  size_is (N.lxor bra ket) k -> 4 < k -> matrix_element W h bra ket = Ok 0%Qc.
Proof. exact me_far. Qed.
Print Assumptions C15_far_is_zero.
Example C15_far_is_zero_ex : size_is (N.lxor 7 56) 6 /\ matrix_element 64 ex_ints 7 56 = Ok 0%Qc.
Proof. exact c15_ex. Qed.

(* within the same particle numbers: three or more moves *)
Theorem C15_three_moves_zero : forall W h bra ket k,
  spin_width W -> wf W bra -> wf W ket ->
  spin_moves W k ket bra -> 3 <= k -> matrix_element W h bra ket = Ok 0%Qc.
Proof. exact c15_moves. Qed.
Print Assumptions C15_three_moves_zero.

(* Different numbers of alpha or beta electrons are NOT rejected: two
   determinants differing by one spin flip get the diagonal energy (while the
   true element is zero), and one electron pair more in one spin is undefined. *)
Theorem C15_spin_flip_refuted :
  exists W h bra ket, spin_width W /\ norb h <= W / 2 /\
    in_space W (norb h) bra /\ in_space W (norb h) ket /\
    size_is (alpha W bra) 1 /\ size_is (beta W bra) 0 /\
    size_is (alpha W ket) 0 /\ size_is (beta W ket) 1 /\
    ham W (norb h) (T_pq h) (V_pqrs h) bra ket = 0%Qc /\
    exists x, matrix_element W h bra ket = Ok x /\ x <> 0%Qc.
Proof. exact c15_flip. Qed.
Print Assumptions C15_spin_flip_refuted.
Theorem C15_electron_pair_refuted :
  exists W h bra ket, spin_width W /\ norb h <= W / 2 /\
    in_space W (norb h) bra /\ in_space W (norb h) ket /\
    size_is (alpha W bra) 3 /\ size_is (alpha W ket) 1 /\
    beta W bra = beta W ket /\ matrix_element W h bra ket = Err UB.
Proof. exact c15_pair. Qed.
Print Assumptions C15_electron_pair_refuted.

(** * C16 *)
Theorem C16_fast_single : forall W h D s o p,
  spin_width W -> norb h <= W / 2 ->
  (forall p q r s, p < norb h -> q < norb h -> r < norb h -> s < norb h ->
     V_pqrs h p q r s = V_pqrs h r s p q) ->
  in_space W (norb h) D -> o < norb h -> p < norb h ->
  tb (str W s D) o = true -> tb (str W s D) p = false ->
  let E X := ham W (norb h) (T_pq h) (V_pqrs h) X X in
  fast_diag_single h (positions (norb h) (str W s D)) (positions (norb h) (str W (negb s) D)) o p (E D)
  = Ok (E (moved W D s o p)).
Proof. exact c16_single. Qed.
Print Assumptions C16_fast_single.

Theorem C16_fast_same_spin_double : forall W h D s o1 o2 p1 p2,
  spin_width W -> norb h <= W / 2 ->
  (forall p q r s, p < norb h -> q < norb h -> r < norb h -> s < norb h ->
     V_pqrs h p q r s = V_pqrs h r s p q) ->
  in_space W (norb h) D -> o1 < norb h -> o2 < norb h -> p1 < norb h -> p2 < norb h ->
  o1 <> o2 -> p1 <> p2 ->
  tb (str W s D) o1 = true -> tb (str W s D) o2 = true ->
  tb (str W s D) p1 = false -> tb (str W s D) p2 = false ->
  let E X := ham W (norb h) (T_pq h) (V_pqrs h) X X in
  fast_diag_ss_double h (positions (norb h) (str W s D)) (positions (norb h) (str W (negb s) D))
    o1 o2 p1 p2 (E D)
  = Ok (E (moved W (moved W D s o1 p1) s o2 p2)).
Proof. exact c16_ss. Qed.
Print Assumptions C16_fast_same_spin_double.

Theorem C16_fast_opposite_spin_double : forall W h D s o1 o2 p1 p2,
  spin_width W -> norb h <= W / 2 ->
  (forall p q r s, p < norb h -> q < norb h -> r < norb h -> s < norb h ->
     V_pqrs h p q r s = V_pqrs h r s p q) ->
  in_space W (norb h) D -> o1 < norb h -> o2 < norb h -> p1 < norb h -> p2 < norb h ->
  tb (str W s D) o1 = true -> tb (str W (negb s) D) o2 = true ->
  tb (str W s D) p1 = false -> tb (str W (negb s) D) p2 = false ->
  let E X := ham W (norb h) (T_pq h) (V_pqrs h) X X in
  fast_diag_os_double h (positions (norb h) (str W s D)) (positions (norb h) (str W (negb s) D))
    o1 o2 p1 p2 (E D)
  = Ok (E (moved W (moved W D s o1 p1) (negb s) o2 p2)).
Proof. exact c16_os. Qed.
Print Assumptions C16_fast_opposite_spin_double.

(* the variants that take precomputed single-orbital energies agree *)
Theorem C16_precomputed_energies : forall h n ss os ens,
  single_orbital_ens h n ss os = Ok ens -> length ens = n /\
  forall i, i < n -> single_orbital_en h i ss os = Ok (nth i ens 0%Qc).
Proof. exact c16_ens. Qed.
Print Assumptions C16_precomputed_energies.
Example C16_ex : in_space 64 4 (3 + 5 * 2 ^ 32) /\
  exists x y, fast_diag_single ex_ints [0;1] [0;2] 1 3 x = Ok y /\ y <> x /\
    x = ham 64 4 (T_pq ex_ints) (V_pqrs ex_ints) (3 + 5 * 2 ^ 32) (3 + 5 * 2 ^ 32).
Proof. exact c16_ex. Qed.

(** * C17 *)
Theorem C17_csr_content : forall W h thr bras kets na nb,
  spin_width W -> norb h <= W / 2 ->
  (forall p q r s, p < norb h -> q < norb h -> r < norb h -> s < norb h ->
     V_pqrs h p q r s = V_pqrs h r s p q) ->
  (forall b, In b bras -> det_or_empty W (norb h) na nb b) ->
  (forall k, In k kets -> det_or_empty W (norb h) na nb k) ->
  exists A, make_csr_block W h thr bras kets = Ok A /\
    csr_m A = length bras /\ csr_n A = length kets /\
    csr_ind A = 0 /\ csr_wf A /\
    forall i, i < length bras ->
      sorted_line (csr_line A i) /\
      forall j v, In (j, v) (csr_line A i) <->
        j < length kets /\ nth i bras 0%N <> 0%N /\ nth j kets 0%N <> 0%N /\
        (exists d, size_is (N.lxor (nth i bras 0%N) (nth j kets 0%N)) d /\ d <= 4) /\
        v = ham W (norb h) (T_pq h) (V_pqrs h) (nth i bras 0%N) (nth j kets 0%N) /\
        (thr < Qcabs v)%Qc.
Proof. exact c17. Qed.
Print Assumptions C17_csr_content.
Example C17_csr_content_ex : exists A,
  make_csr_hamiltonian 64 ex_ints (Q2Qc 0) [(1 + 2 ^ 32)%N; (2 + 2 ^ 33)%N; 0%N; (1 + 2 ^ 33)%N] = Ok A /\
  rowptr A = [0; 3; 6; 6; 9] /\ colind A = [0; 1; 3; 0; 1; 3; 0; 1; 3].
Proof. exact c17_ex. Qed.

(* with a non-negative threshold the excitation-distance test never matters *)
Theorem C17_no_entry_lost : forall W h thr bras kets na nb,
  spin_width W -> norb h <= W / 2 ->
  (forall p q r s, p < norb h -> q < norb h -> r < norb h -> s < norb h ->
     V_pqrs h p q r s = V_pqrs h r s p q) ->
  (forall b, In b bras -> in_space W (norb h) b /\ size_is (alpha W b) na /\ size_is (beta W b) nb) ->
  (forall k, In k kets -> in_space W (norb h) k /\ size_is (alpha W k) na /\ size_is (beta W k) nb) ->
  (0 <= thr)%Qc ->
  exists A, make_csr_block W h thr bras kets = Ok A /\
    forall i j, i < length bras -> j < length kets ->
      let x := ham W (norb h) (T_pq h) (V_pqrs h) (nth i bras 0%N) (nth j kets 0%N) in
      csr_entry A i j = if qlt thr (Qcabs x) then x else 0%Qc.
Proof. exact c17_entry. Qed.
Print Assumptions C17_no_entry_lost.

(** * C18 *)
Theorem C18_distributed_equals_serial : forall W h thr sds na nb P r,
  spin_width W -> norb h <= W / 2 ->
  (forall p q r s, p < norb h -> q < norb h -> r < norb h -> s < norb h ->
     V_pqrs h p q r s = V_pqrs h r s p q) ->
  (forall b, In b sds -> in_space W (norb h) b /\ size_is (alpha W b) na /\ size_is (beta W b) nb) ->
  0 < P -> r < P ->
  exists t st en A D O,
    default_tiles (length sds) P = Ok t /\ nth_error t r = Some (st, en) /\ st <= en <= length sds /\
    make_csr_hamiltonian W h thr sds = Ok A /\
    make_dist_csr_hamiltonian W h thr sds P r = Ok (D, O) /\
    csr_wf D /\ csr_m D = en - st /\ csr_n D = en - st /\
    (* the diagonal tile holds the entries with a column in [st, en), counted from st *)
    (forall i, i < en - st ->
        map (fun cv => (fst cv + st, snd cv)) (csr_line D i) = filter (inside st en) (csr_line A (st + i))) /\
    (* the off-diagonal tile holds the others, with global columns *)
    (1 < P -> exists B, O = Some B /\ csr_wf B /\ csr_m B = en - st /\ csr_n B = length sds /\
        forall i, i < en - st ->
          csr_line B i = filter (fun cv => negb (inside st en cv)) (csr_line A (st + i))) /\
    (P <= 1 -> O = None /\ st = 0 /\ en = length sds).
Proof. exact dist_csr_ok. Qed.
Print Assumptions C18_distributed_equals_serial.
Theorem C18_row_blocks_partition : forall M P, 0 < P ->
  exists t, default_tiles M P = Ok t /\ length t = P /\
    forall i, i < M -> exists r x y, nth_error t r = Some (x, y) /\ x <= i < y /\
      forall r' x' y', nth_error t r' = Some (x', y') -> x' <= i < y' -> r' = r.
Proof. exact c18_tiles. Qed.
Print Assumptions C18_row_blocks_partition.
Example C18_ex : default_tiles 7 3 = Ok [(0, 2); (2, 4); (4, 7)].
Proof. reflexivity. Qed.

(** * C19 *)
(* Every pair (bra, ket) of the two lists contributes c_bra c_ket <bra|H|ket>,
   except pairs whose coefficient product is at most 1e-16 in magnitude. *)
Theorem C19_energy_identity : forall W n bras kets na nb T V,
  spin_width W -> n <= W / 2 -> eri_symmetric n V ->
  (forall b, In b (bras ++ kets) ->
     in_space W n (fst b) /\ size_is (alpha W (fst b)) na /\ size_is (beta W (fst b)) nb) ->
  exists g G,
    form_rdms W n bras kets (fun _ _ => 0%Qc, Some (fun _ _ _ _ => 0%Qc)) = Ok (g, Some G) /\
    contract n T g V G =
      sum bras (fun b => sum kets (fun k =>
        if qlt (Q2Qc (1 # 10000000000000000)) (Qcabs (snd b * snd k))
        then (snd b * snd k * ham W n T V (fst b) (fst k))%Qc else 0%Qc)).
Proof. exact c19. Qed.
Print Assumptions C19_energy_identity.

(* accumulation: the matrices are added to, not overwritten, and one result
   serves all integrals *)
Theorem C19_accumulates : forall W n bras kets na nb g0 G0,
  spin_width W -> n <= W / 2 ->
  (forall b, In b (bras ++ kets) ->
     in_space W n (fst b) /\ size_is (alpha W (fst b)) na /\ size_is (beta W (fst b)) nb) ->
  exists g G, form_rdms W n bras kets (g0, Some G0) = Ok (g, Some G) /\
    forall T V, eri_symmetric n V ->
    contract n T g V G = (contract n T g0 V G0 +
      sum bras (fun b => sum kets (fun k =>
        if qlt (Q2Qc (1 # 10000000000000000)) (Qcabs (snd b * snd k))
        then snd b * snd k * ham W n T V (fst b) (fst k) else 0)))%Qc.
Proof. exact c19_acc. Qed.
Print Assumptions C19_accumulates.
Example C19_ex : rdm_cutoff <> 0%Qc /\ eri_symmetric 4 (V_pqrs ex_ints) /\
  exists g G, form_rdms 64 2 ex_wfn ex_wfn (fun _ _ => 0%Qc, Some (fun _ _ _ _ => 0%Qc)) = Ok (g, Some G) /\
    g 0 0 <> 0%Qc /\ G 0 1 0 1 <> 0%Qc.
Proof. exact c19_ex. Qed.

(* entry by entry the two-body matrix is not <a+ a+ a a>/2: the exchange part
   of the diagonal pairs is stored at (p,q,p,q) instead of (p,q,q,p) *)
Theorem C19_two_body_entries_refuted :
  exists W n b c p q g G, spin_width W /\ n <= W / 2 /\ in_space W n b /\ p < n /\ q < n /\
    form_rdms W n [(b, c)] [(b, c)] (fun _ _ => 0%Qc, Some (fun _ _ _ _ => 0%Qc)) = Ok (g, Some G) /\
    G p q q p <> (c * c * half * sum spins (fun s => sum spins (fun t =>
      braket b [Cre (so W s p); Cre (so W t q); Ann (so W t p); Ann (so W s q)] b)))%Qc.
Proof. exact c19_entries. Qed.
Print Assumptions C19_two_body_entries_refuted.

(** * C20 *)
Theorem C20_one_body_rdm : forall W n bras kets na nb,
  spin_width W -> n <= W / 2 ->
  (forall b, In b (bras ++ kets) ->
     in_space W n (fst b) /\ size_is (alpha W (fst b)) na /\ size_is (beta W (fst b)) nb) ->
  exists g G,
    form_rdms W n bras kets (fun _ _ => 0%Qc, Some (fun _ _ _ _ => 0%Qc)) = Ok (g, Some G) /\
    forall p q, p < n -> q < n ->
    g p q = sum bras (fun b => sum kets (fun k =>
      if qlt (Q2Qc (1 # 10000000000000000)) (Qcabs (snd b * snd k))
      then (snd b * snd k *
        sum spins (fun s => braket (fst b) [Cre (so W s p); Ann (so W s q)] (fst k)))%Qc
      else 0%Qc)).
Proof. exact c20. Qed.
Print Assumptions C20_one_body_rdm.

Theorem C20_trace : forall W n wfn na nb,
  spin_width W -> n <= W / 2 -> NoDup (map fst wfn) ->
  (forall b, In b wfn ->
     in_space W n (fst b) /\ size_is (alpha W (fst b)) na /\ size_is (beta W (fst b)) nb) ->
  exists g G,
    form_rdms W n wfn wfn (fun _ _ => 0%Qc, Some (fun _ _ _ _ => 0%Qc)) = Ok (g, Some G) /\
    sum (seq 0 n) (fun p => g p p) =
    (inject (na + nb) * sum wfn (fun b =>
       if qlt (Q2Qc (1 # 10000000000000000)) (Qcabs (snd b * snd b)) then (snd b * snd b)%Qc else 0%Qc))%Qc.
Proof. exact c20_trace. Qed.
Print Assumptions C20_trace.

(** * C21 *)
(* false in general: without a 2-RDM, pairs two moves apart are treated as
   diagonal or single excitations *)
Theorem C21_null_trdm_refuted :
  exists W n wfn, spin_width W /\ n <= W / 2 /\
    (forall b, In b wfn -> in_space W n (fst b) /\ size_is (alpha W (fst b)) 1 /\ size_is (beta W (fst b)) 1) /\
    exists g1 G g2,
      form_rdms W n wfn wfn (fun _ _ => 0%Qc, Some (fun _ _ _ _ => 0%Qc)) = Ok (g1, Some G) /\
      form_rdms W n wfn wfn (fun _ _ => 0%Qc, None) = Ok (g2, None) /\
      g1 0 1 <> g2 0 1.
Proof. exact c21_ref. Qed.
Print Assumptions C21_null_trdm_refuted.

(* true for lists without pairs exactly two moves apart *)
Theorem C21_no_double_pairs_partial : forall W n bras kets na nb g0 G0,
  spin_width W -> n <= W / 2 ->
  (forall b, In b (bras ++ kets) ->
     in_space W n (fst b) /\ size_is (alpha W (fst b)) na /\ size_is (beta W (fst b)) nb) ->
  (forall b k, In b bras -> In k kets -> ~ size_is (N.lxor (fst b) (fst k)) 4) ->
  exists g G, form_rdms W n bras kets (g0, Some G0) = Ok (g, Some G) /\
              form_rdms W n bras kets (g0, None) = Ok (g, None).
Proof. exact c21_part. Qed.
Print Assumptions C21_no_double_pairs_partial.

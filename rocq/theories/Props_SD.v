(** Properties C04-C10 and C22: Slater determinant operations. *)
From Coq Require Import QArith Qcanon Ascii.
From Verif Require Import Base Bits BitsProofs SD Spec SDProofs5 SDProofs4 SDProofs3 SDProofs2.
Local Open Scope nat_scope.

(** * C04 *)
Theorem C04_hf_lowest : forall W na nb, Nat.even W = true -> na <= W / 2 -> nb <= W / 2 ->
  exists r, canonical_hf W na nb = Ok r /\ wf W r /\
    (forall p, p < W / 2 -> (tb r p = true <-> p < na)) /\
    (forall p, p < W / 2 -> (tb r (p + W / 2) = true <-> p < nb)).
Proof. exact canonical_hf_ok. Qed.
Print Assumptions C04_hf_lowest.
Example C04_hf_lowest_ex : canonical_hf 64 3 2 = Ok (7 + 3 * 2 ^ 32)%N.
Proof. vm_compute. reflexivity. Qed.

Theorem C04_hf_energy_order : forall W na nb ens,
  Nat.even W = true -> length ens <= W / 2 -> na <= length ens -> nb <= length ens ->
  exists r, canonical_hf_ens W na nb ens = Ok r /\ in_space W (length ens) r /\
    (forall p, p < length ens ->
       (tb r p = true <-> among_first (fun i => nth i ens 0%Qc) (length ens) na p)) /\
    (forall p, p < length ens ->
       (tb r (p + W / 2) = true <-> among_first (fun i => nth i ens 0%Qc) (length ens) nb p)).
Proof. exact hf_ens_spec. Qed.
Print Assumptions C04_hf_energy_order.
Example C04_hf_energy_order_ex :
  canonical_hf_ens 64 2 1 [Q2Qc 3; Q2Qc 1; Q2Qc 2; Q2Qc 1] = Ok (10 + 2 * 2 ^ 32)%N.
Proof. vm_compute. reflexivity. Qed.

(** More electrons than listed energies: the code reads past the index list. *)
Theorem C04_too_many_electrons_refuted :
  exists W na nb ens, length ens < na /\ canonical_hf_ens W na nb ens = Err UB.
Proof. exists 64, 1, 0, []. split; [cbn; lia|reflexivity]. Qed.
Print Assumptions C04_too_many_electrons_refuted.

(** * C05 *)
(* [dbg] = assertions compiled in. *)
Theorem C05_partition : forall dbg W norb s,
  norb <= W -> wf norb s -> (dbg = true -> bs_count s < norb) ->
  exists occ vir, bitset_to_occ_vir dbg W norb s = Ok (occ, vir) /\
    increasing occ /\ increasing vir /\
    (forall p, In p occ <-> tb s p = true) /\
    (forall p, In p vir <-> p < norb /\ tb s p = false) /\
    length occ + length vir = norb.
Proof. exact occ_vir_spec. Qed.
Print Assumptions C05_partition.
Example C05_partition_ex : 6 <= 64 /\ wf 6 11 /\ bs_count 11 < 6 /\
  bitset_to_occ_vir true 64 6 11 = Ok ([0;1;3], [2;4;5]).
Proof.
  split; [lia|]. split; [apply wf_lt; reflexivity|]. split; [vm_compute; lia|reflexivity].
Qed.

Theorem C05_active_space : forall dbg W norb s l,
  (forall i, In i l -> i < W) -> (dbg = true -> bs_count s <= norb) -> NoDup l ->
  bitset_to_occ_vir_as dbg W norb s l =
    Ok (filter (tb s) l, filter (fun i => negb (tb s i)) l).
Proof. exact occ_vir_as_spec. Qed.
Print Assumptions C05_active_space.
Example C05_active_space_ex :
  bitset_to_occ_vir_as true 64 6 11 [5;3;0] = Ok ([3;0], [5]).
Proof. reflexivity. Qed.

(** A fully occupied orbital space is a legal input (it has an empty virtual
    list) but the assertion rejects it when compiled in. *)
Theorem C05_full_occupation_refuted : exists W norb s,
  norb <= W /\ wf norb s /\ bitset_to_occ_vir true W norb s = Err AssertFail /\
  bitset_to_occ_vir false W norb s = Ok (seq 0 norb, []).
Proof.
  exists 64, 3, 7%N. split; [lia|]. split; [apply wf_lt; reflexivity|]. split; reflexivity.
Qed.
Print Assumptions C05_full_occupation_refuted.

(** A state with a bit at or beyond norb: the virtual list is silently
    incomplete. *)
Theorem C05_bits_beyond_norb_refuted : exists W norb s occ vir p,
  bitset_to_occ_vir false W norb s = Ok (occ, vir) /\ p < norb /\ ~ In p occ /\ ~ In p vir.
Proof.
  exists 64, 2, 4%N, [2], [0], 1. split; [reflexivity|]. split; [lia|].
  split; intros [H|[]]; discriminate.
Qed.
Print Assumptions C05_bits_beyond_norb_refuted.

(** * C06 *)
Theorem C06_singles : forall dbg W norb s,
  norb <= W -> wf norb s -> (dbg = true -> bs_count s < norb) ->
  exists l, generate_singles dbg W norb s = Ok l /\ NoDup l /\
    length l = bs_count s * (norb - bs_count s) /\
    (forall t, In t l <-> wf norb t /\ moves 1 s t).
Proof. exact singles_spec. Qed.
Print Assumptions C06_singles.

Theorem C06_doubles : forall dbg W norb s,
  norb <= W -> wf norb s -> (dbg = true -> bs_count s < norb) ->
  exists l, generate_doubles dbg W norb s = Ok l /\ NoDup l /\
    length l = binom (bs_count s) 2 * binom (norb - bs_count s) 2 /\
    (forall t, In t l <-> wf norb t /\ moves 2 s t).
Proof. exact doubles_spec. Qed.
Print Assumptions C06_doubles.

Theorem C06_singles_and_doubles : forall dbg W norb s,
  norb <= W -> wf norb s -> (dbg = true -> bs_count s < norb) ->
  exists l d, generate_singles_doubles dbg W norb s = Ok (l, d) /\
    generate_singles dbg W norb s = Ok l /\ generate_doubles dbg W norb s = Ok d.
Proof. exact singles_doubles_spec. Qed.
Print Assumptions C06_singles_and_doubles.

Theorem C06_active_space : forall dbg W norb s l,
  NoDup l -> (forall i, In i l -> i < W) -> (dbg = true -> bs_count s <= norb) ->
  exists a d, generate_singles_doubles_as dbg W norb s l = Ok (a, d) /\
    generate_singles_as dbg W norb s l = Ok a /\
    NoDup a /\ (forall t, In t a <-> moves 1 s t /\ changes_in l s t) /\
    NoDup d /\ (forall t, In t d <-> moves 2 s t /\ changes_in l s t).
Proof. exact as_spec. Qed.
Print Assumptions C06_active_space.

(** moving electrons conserves their number (so "same number of electrons" is
    part of [moves]) *)
Theorem C06_electrons_conserved : forall k s t n, moves k s t -> size_is s n -> size_is t n.
Proof. exact size_moves. Qed.
Print Assumptions C06_electrons_conserved.

Example C06_ex : wf 4 3 /\ generate_singles true 64 4 3 = Ok [6; 5; 10; 9]%N /\
  generate_doubles true 64 4 3 = Ok [12]%N /\ moves 2 3 12.
Proof.
  split; [apply wf_lt; reflexivity|]. split; [reflexivity|]. split; [reflexivity|].
  split; [exists [0;1]|exists [2;3]]; (split; [repeat constructor; cbn; intuition discriminate|]);
  (split; [|reflexivity]); intros i; do 5 (destruct i as [|i]; [vm_compute; intuition discriminate|]);
  unfold tb; rewrite N.bits_above_log2 by (cbn; lia); cbn [In]; split; try discriminate; lia.
Qed.

(** * C07 *)
(* [spin_width W]: W = 64 or W = 128, the widths whose halves the code
   extracts by 32- and 64-bit words. *)
Theorem C07_spin_excitations : forall dbg W norb s,
  spin_width W -> norb <= W / 2 -> in_space W norb s ->
  (dbg = true -> bs_count (alpha W s) < norb /\ bs_count (beta W s) < norb) ->
  exists l d, generate_singles_doubles_spin dbg W norb s = Ok (l, d) /\
    generate_singles_spin dbg W norb s = Ok l /\
    NoDup l /\ (forall t, In t l <-> in_space W norb t /\ spin_moves W 1 s t) /\
    NoDup d /\ (forall t, In t d <-> in_space W norb t /\ spin_moves W 2 s t).
Proof. exact spin_spec. Qed.
Print Assumptions C07_spin_excitations.

Theorem C07_spin_excitations_active_space : forall dbg W norb s l, spin_width W ->
  NoDup l -> (forall i, In i l -> i < W / 2) -> wf W s ->
  (dbg = true -> bs_count (alpha W s) <= norb /\ bs_count (beta W s) <= norb) ->
  exists a d, generate_singles_doubles_spin_as dbg W norb s l = Ok (a, d) /\
    generate_singles_spin_as dbg W norb s l = Ok a /\
    NoDup a /\ (forall t, In t a <-> wf W t /\ spin_moves W 1 s t /\ spin_changes_in W l s t) /\
    NoDup d /\ (forall t, In t d <-> wf W t /\ spin_moves W 2 s t /\ spin_changes_in W l s t).
Proof. exact spin_as_spec. Qed.
Print Assumptions C07_spin_excitations_active_space.

Theorem C07_spin_counts_conserved : forall W k s t na nb, spin_moves W k s t ->
  size_is (alpha W s) na -> size_is (beta W s) nb ->
  size_is (alpha W t) na /\ size_is (beta W t) nb.
Proof. exact spin_moves_counts. Qed.
Print Assumptions C07_spin_counts_conserved.

Example C07_ex : let s := (1 + 2 * 2 ^ 32)%N in
  spin_width 64 /\ 2 <= 64 / 2 /\ in_space 64 2 s /\
  bs_count (alpha 64 s) < 2 /\ bs_count (beta 64 s) < 2 /\
  generate_singles_doubles_spin true 64 2 s =
    Ok ([2 + 2 * 2 ^ 32; 1 + 1 * 2 ^ 32]%N, [2 + 1 * 2 ^ 32]%N).
Proof.
  cbv zeta. split; [left; reflexivity|]. split; [apply (proj1 (Nat.leb_le 2 (64/2))); reflexivity|].
  split; [split; apply wf_lt; vm_compute; reflexivity|].
  split; [vm_compute; lia|]. split; [vm_compute; lia|]. vm_compute. reflexivity.
Qed.

(** * C08 *)
Theorem C08_cis_cisd : forall dbg W norb s, spin_width W -> norb <= W / 2 -> in_space W norb s ->
  (dbg = true -> bs_count (alpha W s) < norb /\ bs_count (beta W s) < norb) ->
  (exists l, generate_cis dbg W norb s = Ok l /\ NoDup l /\
    forall t, In t l <-> in_space W norb t /\ exists k, k <= 1 /\ spin_moves W k s t) /\
  (exists l, generate_cisd dbg W norb s = Ok l /\ NoDup l /\
    forall t, In t l <-> in_space W norb t /\ exists k, k <= 2 /\ spin_moves W k s t).
Proof. exact cis_cisd_spec. Qed.
Print Assumptions C08_cis_cisd.
Example C08_ex : generate_cisd true 64 2 (1 + 2 * 2 ^ 32) =
  Ok [1 + 2 * 2 ^ 32; 2 + 2 * 2 ^ 32; 1 + 1 * 2 ^ 32; 2 + 1 * 2 ^ 32]%N.
Proof. vm_compute. reflexivity. Qed.

(** * C09 *)
(* The do/while loop is modelled with fuel; "exists f0" says it terminates and
   its result does not depend on the fuel. *)
Theorem C09_full_ci_space : forall W n na nb,
  Nat.even W = true -> n <= W / 2 -> na <= n -> nb <= n ->
  exists l, (exists f0, forall fuel, f0 <= fuel -> generate_hilbert_space fuel W n na nb = Ok l) /\
    NoDup l /\ length l = binom n na * binom n nb /\
    (forall t, In t l <-> in_space W n t /\ size_is (alpha W t) na /\ size_is (beta W t) nb).
Proof. exact hilbert_spec. Qed.
Print Assumptions C09_full_ci_space.
Theorem C09_combinations : forall W n k, n <= W -> k <= n ->
  exists l, (exists f0, forall fuel, f0 <= fuel -> generate_combs fuel W n k = Ok l) /\
    NoDup l /\ length l = binom n k /\ forall x, In x l <-> wf n x /\ size_is x k.
Proof. exact combs_spec. Qed.
Print Assumptions C09_combinations.
(** More electrons than orbitals: the fill runs past the end of the vector
    instead of yielding the empty space. *)
Theorem C09_too_many_electrons_refuted : exists fuel W n na nb, n < na /\
  generate_hilbert_space fuel W n na nb = Err UB.
Proof. exists 10, 64, 2, 3, 0. split; [lia|reflexivity]. Qed.
Print Assumptions C09_too_many_electrons_refuted.
Example C09_ex : generate_hilbert_space 10 64 2 1 1 =
  Ok [1 + 2 ^ 32; 1 + 2 * 2 ^ 32; 2 + 2 ^ 32; 2 + 2 * 2 ^ 32]%N.
Proof. vm_compute. reflexivity. Qed.

(** * C10 *)
(* the residues are appended to the caller's vector *)
Theorem C10_residues : forall W s res0, spin_width W -> wf W s ->
  exists l, generate_residues W s res0 = Ok (res0 ++ l) /\ NoDup l /\
    length l = binom (bs_count (alpha W s) + bs_count (beta W s)) 2 /\
    (forall t, In t l <-> two_removed s t).
Proof. exact residues_spec. Qed.
Print Assumptions C10_residues.
Example C10_ex : generate_residues 64 (3 + 1 * 2 ^ 32) [] = Ok [1 * 2 ^ 32; 2; 1]%N.
Proof. vm_compute. reflexivity. Qed.

(** * C22 *)
Theorem C22_parse_print : forall W s, spin_width W -> wf W s ->
  length (to_canonical_string W s) = W / 2 /\
  from_canonical_string W (to_canonical_string W s) = Ok s.
Proof. intros W s HW Hs. split; [apply to_string_length|apply from_to_string; auto]. Qed.
Print Assumptions C22_parse_print.

Theorem C22_print_parse : forall W str r, spin_width W -> length str <= W / 2 ->
  (forall c, In c str -> c = "0"%char \/ c = "u"%char \/ c = "d"%char \/ c = "2"%char) ->
  from_canonical_string W str = Ok r ->
  to_canonical_string W r = str ++ repeat "0"%char (W / 2 - length str).
Proof. exact to_from_string. Qed.
Print Assumptions C22_print_parse.

Theorem C22_parse_meaning : forall W str, Nat.even W = true -> length str <= W / 2 ->
  exists r, from_canonical_string W str = Ok r /\ wf W r /\
    (forall p, p < W / 2 -> tb r p =
       ((nth p str "0" =? "2") || (nth p str "0" =? "u"))%char) /\
    (forall p, p < W / 2 -> tb r (p + W / 2) =
       ((nth p str "0" =? "2") || (nth p str "0" =? "d"))%char).
Proof. exact from_string_ok. Qed.
Print Assumptions C22_parse_meaning.
Example C22_ex : from_canonical_string 64 ["2"; "u"; "0"; "d"]%char = Ok (3 + 9 * 2 ^ 32)%N.
Proof. vm_compute. reflexivity. Qed.

(** A string longer than the number of spatial orbitals is accepted and
    its tail is folded into the beta string. *)
Theorem C22_overlong_string_refuted : exists W str r,
  spin_width W /\ length str = W / 2 + 1 /\ from_canonical_string W str = Ok r /\
  to_canonical_string W r <> firstn (W / 2) str.
Proof.
  exists 64, (repeat "0"%char 32 ++ ["u"%char]), (2 ^ 32)%N.
  split; [left; reflexivity|]. split; [reflexivity|]. split; [vm_compute; reflexivity|].
  vm_compute. discriminate.
Qed.
Print Assumptions C22_overlong_string_refuted.

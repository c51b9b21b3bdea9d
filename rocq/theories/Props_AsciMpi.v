(** Property C54: the search on several ranks. *)
From Coq Require Import QArith Qcanon Sorting.Permutation.
From Verif Require Import Base Nondet Bits SD Spec Sums FockSpec Ham Asci AsciSpec Constraint ConstraintSpec
  Collective AsciMpi AsciMpiSpec PropsHamGlue AsciGlue ConstraintGlue2 AsciMpiGlue AsciMpiGlue2.
Local Open Scope nat_scope.

(** For every number of ranks, pivot sequence and outcome of the library's
    unstable algorithms: the result is the core preceded by ndets_max - |core|
    distinct new determinants; all have a score of at least some candidate's
    score [v], fewer than that many candidates have a larger score, and if
    some candidate of at least that score was left out, there were too many. *)
Theorem C54_parallel_search : forall W h dbg st E0 C cdets level world fuel g ndets_max,
  spin_width W -> norb h <= W / 2 ->
  (forall p q r s, p < norb h -> q < norb h -> r < norb h -> s < norb h ->
     V_pqrs h p q r s = V_pqrs h r s p q) ->
  length cdets <= length C ->
  (forall D, In D cdets -> in_space W (norb h) D /\
     (dbg = true -> bs_count (alpha W D) < norb h /\ bs_count (beta W D) < norb h)) ->
  0 < world -> cdets <> [] -> (forall D, In D cdets -> 3 + level <= bs_count (alpha W D)) ->
  length cdets < ndets_max -> (Z.of_nat (ndets_max - length cdets) < 2 ^ 31)%Z ->
  (N.of_nat ndets_max < 2 ^ 64)%N -> (Z.of_nat (pair_size_max st) < 2 ^ 31)%Z -> pair_size_max st < fuel ->
  no_resonance_c W h (h_el_tol st) E0 cdets C -> at_most_pairs_c W h (h_el_tol st) cdets C (pair_size_max st) ->
  at_least (ndets_max - length cdets) (fun t => exists x, candidate W h (h_el_tol st) E0 cdets C t x) ->
  always (asci_search_mpi fuel g dbg W st level h ndets_max cdets E0 C world) (fun out =>
    exists sel v, out = sel ++ cdets /\ NoDup sel /\ length sel = ndets_max - length cdets /\
      (forall t, In t sel -> exists x, candidate W h (h_el_tol st) E0 cdets C t x /\ (v <= Qcabs x)%Qc) /\
      (exists t x, candidate W h (h_el_tol st) E0 cdets C t x /\ Qcabs x = v) /\
      ~ at_least (ndets_max - length cdets)
          (fun t => exists x, candidate W h (h_el_tol st) E0 cdets C t x /\ (v < Qcabs x)%Qc) /\
      ((exists t x, candidate W h (h_el_tol st) E0 cdets C t x /\ (v <= Qcabs x)%Qc /\ ~ In t sel) ->
       at_least (S (ndets_max - length cdets))
          (fun t => exists x, candidate W h (h_el_tol st) E0 cdets C t x /\ (v <= Qcabs x)%Qc))).
Proof.
  intros W h dbg st E0 C cdets level world fuel g ndets_max HW Hn Vs HC Hsp Hw Hne Hel.
  exact (c54_search W HW h Hn Vs dbg st E0 C cdets HC Hsp level world Hw Hne Hel fuel g ndets_max).
Qed.
Print Assumptions C54_parallel_search.
(** Without ties the selected determinants are the best ones. *)
Theorem C54_best_without_ties : forall W h dbg st E0 C cdets level world fuel g ndets_max,
  spin_width W -> norb h <= W / 2 ->
  (forall p q r s, p < norb h -> q < norb h -> r < norb h -> s < norb h ->
     V_pqrs h p q r s = V_pqrs h r s p q) ->
  length cdets <= length C ->
  (forall D, In D cdets -> in_space W (norb h) D /\
     (dbg = true -> bs_count (alpha W D) < norb h /\ bs_count (beta W D) < norb h)) ->
  0 < world -> cdets <> [] -> (forall D, In D cdets -> 3 + level <= bs_count (alpha W D)) ->
  length cdets < ndets_max -> (Z.of_nat (ndets_max - length cdets) < 2 ^ 31)%Z ->
  (N.of_nat ndets_max < 2 ^ 64)%N -> (Z.of_nat (pair_size_max st) < 2 ^ 31)%Z -> pair_size_max st < fuel ->
  no_resonance_c W h (h_el_tol st) E0 cdets C -> at_most_pairs_c W h (h_el_tol st) cdets C (pair_size_max st) ->
  (forall s x t y, candidate W h (h_el_tol st) E0 cdets C s x -> candidate W h (h_el_tol st) E0 cdets C t y ->
     s <> t -> Qcabs x <> Qcabs y) ->
  at_least (ndets_max - length cdets) (fun t => exists x, candidate W h (h_el_tol st) E0 cdets C t x) ->
  always (asci_search_mpi fuel g dbg W st level h ndets_max cdets E0 C world) (fun out =>
    exists sel, out = sel ++ cdets /\ NoDup sel /\ length sel = ndets_max - length cdets /\
      (forall t, In t sel -> exists x, candidate W h (h_el_tol st) E0 cdets C t x) /\
      (forall t x u y, In t sel -> candidate W h (h_el_tol st) E0 cdets C t x ->
         candidate W h (h_el_tol st) E0 cdets C u y -> ~ In u sel -> (Qcabs y <= Qcabs x)%Qc)).
Proof.
  intros W h dbg st E0 C cdets level world fuel g ndets_max HW Hn Vs HC Hsp Hw Hne Hel.
  exact (c54_best W HW h Hn Vs dbg st E0 C cdets HC Hsp level world Hw Hne Hel fuel g ndets_max).
Qed.
Print Assumptions C54_best_without_ties.
(** Then, if both screenings keep the same pairs, every number of ranks returns
    the determinants of the serial search. *)
Theorem C54_agrees_with_serial : forall W h dbg st E0 C cdets level world fuel g ndets_max,
  spin_width W -> norb h <= W / 2 ->
  (forall p q r s, p < norb h -> q < norb h -> r < norb h -> s < norb h ->
     V_pqrs h p q r s = V_pqrs h r s p q) ->
  length cdets <= length C ->
  (forall D, In D cdets -> in_space W (norb h) D /\
     (dbg = true -> bs_count (alpha W D) < norb h /\ bs_count (beta W D) < norb h)) ->
  0 < world -> cdets <> [] -> (forall D, In D cdets -> 3 + level <= bs_count (alpha W D)) ->
  length cdets < ndets_max -> (Z.of_nat (ndets_max - length cdets) < 2 ^ 31)%Z ->
  (N.of_nat ndets_max < 2 ^ 64)%N -> (Z.of_nat (pair_size_max st) < 2 ^ 31)%Z -> pair_size_max st < fuel ->
  just_singles st = false ->
  (forall i t, i < length cdets -> linked W h false (nth i cdets 0%N) t ->
     (contributes W h (h_el_tol st) false (nth i cdets 0%N) t <->
      contributes_c W h (h_el_tol st) (nth i C 0%Qc) (nth i cdets 0%N) t)) ->
  no_resonance W h (h_el_tol st) (just_singles st) E0 cdets ->
  at_most_pairs W h (h_el_tol st) (just_singles st) cdets (pair_size_max st) ->
  (forall s x t y, candidate W h (h_el_tol st) E0 cdets C s x -> candidate W h (h_el_tol st) E0 cdets C t y ->
     s <> t -> Qcabs x <> Qcabs y) ->
  at_least (ndets_max - length cdets) (fun t => exists x, candidate W h (h_el_tol st) E0 cdets C t x) ->
  always (asci_search dbg W st h ndets_max cdets E0 C) (fun d1 =>
    always (asci_search_mpi fuel g dbg W st level h ndets_max cdets E0 C world) (fun d2 => Permutation d1 d2)).
Proof.
  intros W h dbg st E0 C cdets level world fuel g ndets_max HW Hn Vs HC Hsp Hw Hne Hel.
  exact (c54_agree W HW h Hn Vs dbg st E0 C cdets HC Hsp level world Hw Hne Hel fuel g ndets_max).
Qed.
Print Assumptions C54_agrees_with_serial.
(** With fewer candidates than requested, where the serial search returns them
    all, the parallel one runs past the end of a buffer. *)
Theorem C54_few_candidates_refuted : forall W h dbg st E0 C cdets level world fuel g ndets_max,
  spin_width W -> norb h <= W / 2 ->
  (forall p q r s, p < norb h -> q < norb h -> r < norb h -> s < norb h ->
     V_pqrs h p q r s = V_pqrs h r s p q) ->
  length cdets <= length C ->
  (forall D, In D cdets -> in_space W (norb h) D /\
     (dbg = true -> bs_count (alpha W D) < norb h /\ bs_count (beta W D) < norb h)) ->
  0 < world -> cdets <> [] -> (forall D, In D cdets -> 3 + level <= bs_count (alpha W D)) ->
  length cdets < ndets_max -> (Z.of_nat (ndets_max - length cdets) < 2 ^ 31)%Z ->
  (N.of_nat ndets_max < 2 ^ 64)%N -> (Z.of_nat (pair_size_max st) < 2 ^ 31)%Z -> pair_size_max st < fuel ->
  no_resonance_c W h (h_el_tol st) E0 cdets C -> at_most_pairs_c W h (h_el_tol st) cdets C (pair_size_max st) ->
  ~ at_least (ndets_max - length cdets) (fun t => exists x, candidate W h (h_el_tol st) E0 cdets C t x) ->
  forall r, asci_search_mpi fuel g dbg W st level h ndets_max cdets E0 C world r -> r = Err UB.
Proof.
  intros W h dbg st E0 C cdets level world fuel g ndets_max HW Hn Vs HC Hsp Hw Hne Hel.
  exact (c54_short W HW h Hn Vs dbg st E0 C cdets HC Hsp level world Hw Hne Hel fuel g ndets_max).
Qed.
Print Assumptions C54_few_candidates_refuted.
(** With ties the strictly best determinant can be dropped: rank 0 found 1 and 2
    with score 1, rank 1 found 4 with score 2; two are requested, and every run
    selects 1 and 2. *)
Theorem C54_ties_drop_best_refuted : forall fuel g, 4 <= fuel ->
  always (select_dets_mpi fuel g 64 3 [8%N] [1%Qc] [[(1%N, 1%Qc); (2%N, 1%Qc)]; [(4%N, Q2Qc 2)]])
    (fun out => Permutation [1; 2; 8]%N out).
Proof. exact c54_ties. Qed.
Print Assumptions C54_ties_drop_best_refuted.
Example C54_ex :
  (length c_core < 4 /\ just_singles m_st = false /\ pair_size_max m_st = 1000 /\
   (forall D, In D c_core -> 3 + 0 <= bs_count (alpha 64 D))) /\
  at_least (4 - length c_core) (fun t => exists x, candidate 64 ex_ints (h_el_tol m_st) ex_E0 c_core ex_C t x) /\
  (forall s x t y, candidate 64 ex_ints (h_el_tol m_st) ex_E0 c_core ex_C s x ->
     candidate 64 ex_ints (h_el_tol m_st) ex_E0 c_core ex_C t y -> s <> t -> Qcabs x <> Qcabs y).
Proof. exact c54_ex. Qed.

(** Property C52: the search constraint by constraint, over all ranks. *)
From Coq Require Import QArith Qcanon Sorting.Permutation.
From Verif Require Import Base Nondet Bits SD Spec Sums FockSpec Ham Asci AsciSpec Constraint ConstraintSpec
  PropsHamGlue AsciGlue ConstraintGlue2.
Local Open Scope nat_scope.

(** Over all ranks, every state is reported once, with the sum of the
    contributions of the core determinants linked to it; every state whose
    alpha string has at least 3 + level electrons is reported. *)
Theorem C52_constraint_search : forall W h dbg st E0 C cdets level world,
  spin_width W -> norb h <= W / 2 ->
  (forall p q r s, p < norb h -> q < norb h -> r < norb h -> s < norb h ->
     V_pqrs h p q r s = V_pqrs h r s p q) ->
  length cdets <= length C ->
  (forall D, In D cdets -> in_space W (norb h) D /\
     (dbg = true -> bs_count (alpha W D) < norb h /\ bs_count (beta W D) < norb h)) ->
  0 < world -> cdets <> [] ->
  no_resonance_c W h (h_el_tol st) E0 cdets C -> at_most_pairs_c W h (h_el_tol st) cdets C (pair_size_max st) ->
  always (asci_contributions_constraint dbg W st level h E0 C cdets world) (fun outs =>
    length outs = world /\ NoDup (map fst (concat outs)) /\
    (forall t x, In (t, x) (concat outs) -> is_score_c W h (h_el_tol st) E0 cdets C t x /\
       (exists j, contributes_at W h (h_el_tol st) cdets C j t) /\ 3 <= bs_count (alpha W t)) /\
    (forall t j, contributes_at W h (h_el_tol st) cdets C j t -> 3 + level <= bs_count (alpha W t) ->
       In t (map fst (concat outs)))).
Proof. intros W h dbg st E0 C cdets level world HW Hn Vs HC Hsp Hw Hne. exact (c52_search W HW h Hn Vs dbg st E0 C cdets HC Hsp level world Hw Hne). Qed.
Print Assumptions C52_constraint_search.
(** When both screenings keep the same pairs, the merged contributions of all
    ranks are those of the serial search. *)
Theorem C52_agrees_with_serial : forall W h dbg st E0 C cdets level world,
  spin_width W -> norb h <= W / 2 ->
  (forall p q r s, p < norb h -> q < norb h -> r < norb h -> s < norb h ->
     V_pqrs h p q r s = V_pqrs h r s p q) ->
  length cdets <= length C ->
  (forall D, In D cdets -> in_space W (norb h) D /\
     (dbg = true -> bs_count (alpha W D) < norb h /\ bs_count (beta W D) < norb h)) ->
  0 < world -> cdets <> [] ->
  just_singles st = false -> (forall D, In D cdets -> 3 + level <= bs_count (alpha W D)) ->
  (forall i t, i < length cdets -> linked W h false (nth i cdets 0%N) t ->
     (contributes W h (h_el_tol st) false (nth i cdets 0%N) t <->
      contributes_c W h (h_el_tol st) (nth i C 0%Qc) (nth i cdets 0%N) t)) ->
  no_resonance W h (h_el_tol st) (just_singles st) E0 cdets ->
  at_most_pairs W h (h_el_tol st) (just_singles st) cdets (pair_size_max st) ->
  always (any l <- asci_contributions_standard dbg W st h E0 C cdets; sort_and_accumulate W l) (fun s =>
    always (asci_contributions_constraint dbg W st level h E0 C cdets world) (fun outs =>
      Permutation (concat outs) s)).
Proof. intros W h dbg st E0 C cdets level world HW Hn Vs HC Hsp Hw Hne. exact (c52_agree W HW h Hn Vs dbg st E0 C cdets HC Hsp level world Hw Hne). Qed.
Print Assumptions C52_agrees_with_serial.
(** they do without screening *)
Theorem C52_no_screening : forall W h st, (h_el_tol st <= 0)%Qc -> forall c D t, linked W h false D t ->
  (contributes W h (h_el_tol st) false D t <-> contributes_c W h (h_el_tol st) c D t).
Proof. exact c52_tol0. Qed.
Print Assumptions C52_no_screening.
Example C52_ex : norb ex_ints <= 64 / 2 /\ length c_core <= length ex_C /\
  (forall D, In D c_core -> in_space 64 (norb ex_ints) D /\
     (true = true -> bs_count (alpha 64 D) < norb ex_ints /\ bs_count (beta 64 D) < norb ex_ints)) /\
  (forall D, In D c_core -> 3 + 0 <= bs_count (alpha 64 D)) /\
  no_resonance_c 64 ex_ints 0 ex_E0 c_core ex_C /\ at_most_pairs_c 64 ex_ints 0 c_core ex_C 1000 /\
  no_resonance 64 ex_ints 0 false ex_E0 c_core /\ at_most_pairs 64 ex_ints 0 false c_core 1000 /\
  contributes_at 64 ex_ints 0 c_core ex_C 0 c_d.
Proof. exact c52_ex. Qed.

(** ** where the English claim fails *)
(** the ranks screen |c h| where the serial search screens |h| *)
Theorem C52_screening_refuted :
  always (any l <- asci_contributions_standard true 64 (c_st (Q2Qc (1 # 100)) false) ex_ints ex_E0 c_small c_core;
          sort_and_accumulate 64 l) (fun s => In c_t (map fst s)) /\
  always (asci_contributions_constraint true 64 (c_st (Q2Qc (1 # 100)) false) 0 ex_ints ex_E0 c_small c_core 2)
    (fun outs => ~ In c_t (map fst (concat outs))).
Proof. exact c52_screen. Qed.
Print Assumptions C52_screening_refuted.
(** the option just_singles is ignored by the ranks *)
Theorem C52_just_singles_refuted :
  always (any l <- asci_contributions_standard true 64 (c_st 0 true) ex_ints ex_E0 ex_C c_core;
          sort_and_accumulate 64 l) (fun s => ~ In c_d (map fst s)) /\
  always (asci_contributions_constraint true 64 (c_st 0 true) 0 ex_ints ex_E0 ex_C c_core 2)
    (fun outs => In c_d (map fst (concat outs))).
Proof. exact c52_singles. Qed.
Print Assumptions C52_just_singles_refuted.
(** with fewer than three alpha electrons the ranks find nothing *)
Theorem C52_few_electrons_refuted : forall W h dbg st E0 C cdets level world,
  spin_width W -> norb h <= W / 2 ->
  (forall p q r s, p < norb h -> q < norb h -> r < norb h -> s < norb h ->
     V_pqrs h p q r s = V_pqrs h r s p q) ->
  length cdets <= length C ->
  (forall D, In D cdets -> in_space W (norb h) D /\
     (dbg = true -> bs_count (alpha W D) < norb h /\ bs_count (beta W D) < norb h)) ->
  0 < world -> cdets <> [] ->
  no_resonance_c W h (h_el_tol st) E0 cdets C -> at_most_pairs_c W h (h_el_tol st) cdets C (pair_size_max st) ->
  (forall D, In D cdets -> bs_count (alpha W D) < 3) ->
  always (asci_contributions_constraint dbg W st level h E0 C cdets world) (fun outs => concat outs = []).
Proof. intros W h dbg st E0 C cdets level world HW Hn Vs HC Hsp Hw Hne. exact (c52_few W HW h Hn Vs dbg st E0 C cdets HC Hsp level world Hw Hne). Qed.
Print Assumptions C52_few_electrons_refuted.
(** pruning within a constraint can erase pairs merged earlier; the merge after
    it then starts beyond the end of the list *)
Theorem C52_pruning_refuted : forall new, Qclt 1 (Qcabs (snd new)) ->
  (any l <- con_prune 64 p_st (length p_acc) (p_acc ++ [new]); accumulate_from 64 (length p_acc) l) (Err UB).
Proof. exact c52_prune. Qed.
Print Assumptions C52_pruning_refuted.

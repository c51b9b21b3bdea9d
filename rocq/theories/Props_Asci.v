(** Properties C26-C28, C36, C37, C51, C53: the ASCI search on one rank. *)
From Coq Require Import QArith Qcanon Sorting.Permutation Sorting.Sorted.
From Verif Require Import Base Nondet Bits SD Spec Sums FockSpec Ham Asci AsciSpec
  AsciSort AsciSearch AsciIter AsciGlue PropsHamGlue Constraint PruneProofs.
Local Open Scope nat_scope.

(** * C26 *)
Theorem C26_accumulate : forall W (l : list (N * Qc)), (forall s, In s (map fst l) -> wf W s) ->
  always (sort_and_accumulate W l) (fun out =>
    StronglySorted N.lt (map fst out) /\
    (forall s, In s (map fst out) <-> In s (map fst l)) /\
    forall s v, In (s, v) out -> v = score l s).
Proof. exact sort_acc_ok. Qed.
Print Assumptions C26_accumulate.
Example C26_accumulate_ex :
  (forall s, In s (map fst [(5%N, 1%Qc); (3%N, Q2Qc 2); (5%N, Q2Qc (-4))]) -> wf 64 s) /\
  score [(5%N, 1%Qc); (3%N, Q2Qc 2); (5%N, Q2Qc (-4))] 5 = Q2Qc (-3).
Proof. exact c26_ex. Qed.

(** * C27 *)
Theorem C27_keep_largest_copy : forall W (l : list (N * Qc)), (forall s, In s (map fst l) -> wf W s) ->
  always (keep_only_largest_copy W l) (fun out =>
    StronglySorted N.lt (map fst out) /\
    (forall s, In s (map fst out) <-> In s (map fst l)) /\
    forall s v, In (s, v) out -> In (s, v) l /\ forall w, In (s, w) l -> (w <= v)%Qc).
Proof. exact keep_largest_ok. Qed.
Print Assumptions C27_keep_largest_copy.
Example C27_keep_largest_copy_ex :
  forall s, In s (map fst [(5%N, 1%Qc); (3%N, Q2Qc 2); (5%N, Q2Qc (-4))]) -> wf 64 s.
Proof. exact (proj1 c26_ex). Qed.

(** * C51 *)
Theorem C51_contributions : forall dbg W h tol singles_only E0 c D,
  spin_width W -> norb h <= W / 2 ->
  (forall p q r s, p < norb h -> q < norb h -> r < norb h -> s < norb h ->
     V_pqrs h p q r s = V_pqrs h r s p q) ->
  in_space W (norb h) D ->
  (dbg = true -> bs_count (alpha W D) < norb h /\ bs_count (beta W D) < norb h) ->
  (forall t, contributes W h tol singles_only D t -> E0 <> ham W (norb h) (T_pq h) (V_pqrs h) t t) ->
  exists l, det_contributions dbg W h tol singles_only E0 c D = Ok l /\ NoDup (map fst l) /\
    forall t x, In (t, x) l <-> contributes W h tol singles_only D t /\ x = pt_coeff W h E0 c D t.
Proof. exact c51. Qed.
Print Assumptions C51_contributions.
(* with an exact resonance the score is not a number *)
Theorem C51_resonance : forall dbg W h tol singles_only E0 c D t,
  spin_width W -> norb h <= W / 2 ->
  (forall p q r s, p < norb h -> q < norb h -> r < norb h -> s < norb h ->
     V_pqrs h p q r s = V_pqrs h r s p q) ->
  in_space W (norb h) D ->
  (dbg = true -> bs_count (alpha W D) < norb h /\ bs_count (beta W D) < norb h) ->
  contributes W h tol singles_only D t -> E0 = ham W (norb h) (T_pq h) (V_pqrs h) t t ->
  det_contributions dbg W h tol singles_only E0 c D = Err NonFinite.
Proof. exact c51_resonance. Qed.
Print Assumptions C51_resonance.
Example C51_contributions_ex :
  in_space 64 (norb ex_ints) (1 + 2 ^ 32) /\
  (forall t, contributes 64 ex_ints (Q2Qc (1 # 100)) false (1 + 2 ^ 32) t ->
     ex_E0 <> ham 64 (norb ex_ints) (T_pq ex_ints) (V_pqrs ex_ints) t t) /\
  (exists l, det_contributions true 64 ex_ints (Q2Qc (1 # 100)) false ex_E0 1 (1 + 2 ^ 32) = Ok l /\
     length l =? 15 = true) /\
  contributes 64 ex_ints (Q2Qc (1 # 100)) false (1 + 2 ^ 32) (2 + 2 ^ 32) /\
  ham 64 (norb ex_ints) (T_pq ex_ints) (V_pqrs ex_ints) (2 + 2 ^ 32) (2 + 2 ^ 32) = Q2Qc 7.
Proof. exact c51_ex. Qed.

(* the intermediate pruning keeps exactly the contributions above the pruning
   threshold and, if they are still too many, sums those of equal determinants *)
Theorem C51_pruning : forall W st (l : list (N * Qc)), (forall s, In s (map fst l) -> wf W s) ->
  always (prune W st l) (fun out =>
    (length l <= pair_size_max st -> out = l) /\
    (pair_size_max st < length l -> exists big small, Permutation l (big ++ small) /\
      (forall x, In x big -> (rv_prune_tol st < Qcabs (snd x))%Qc) /\
      (forall x, In x small -> (Qcabs (snd x) <= rv_prune_tol st)%Qc) /\
      (length big <= pair_size_max st -> out = big) /\
      (pair_size_max st < length big ->
         StronglySorted N.lt (map fst out) /\
         (forall s, In s (map fst out) <-> In s (map fst big)) /\
         forall s v, In (s, v) out -> v = score big s))).
Proof. exact c51_pruning. Qed.
Print Assumptions C51_pruning.
(* the same in the constraint-by-constraint search, where only the contributions
   after the first [size_before] are summed *)
Theorem C51_constraint_pruning : forall W st (l : list (N * Qc)), (forall s, In s (map fst l) -> wf W s) ->
  forall size_before, size_before <= pair_size_max st ->
  always (con_prune W st size_before l) (fun out =>
    (length l <= pair_size_max st -> out = l) /\
    (pair_size_max st < length l -> exists big small, Permutation l (big ++ small) /\
      (forall x, In x big -> (rv_prune_tol st < Qcabs (snd x))%Qc) /\
      (forall x, In x small -> (Qcabs (snd x) <= rv_prune_tol st)%Qc) /\
      (length big <= pair_size_max st -> out = big) /\
      (pair_size_max st < length big -> exists acc,
         out = firstn size_before big ++ acc /\
         StronglySorted N.lt (map fst acc) /\
         (forall s, In s (map fst acc) <-> In s (map fst (skipn size_before big))) /\
         forall s v, In (s, v) acc -> v = score (skipn size_before big) s))).
Proof. exact c52_con_pruning. Qed.
Print Assumptions C51_constraint_pruning.
Example C51_pruning_ex : exists l, (forall s, In s (map fst l) -> wf 64 s) /\
  1 < length l /\ 1 < length (filter (fun x => qlt (Q2Qc (1#2)) (Qcabs (snd x))) l) /\
  exists x, In x l /\ (Qcabs (snd x) <= Q2Qc (1 # 2))%Qc.
Proof. exact c51_pruning_ex. Qed.

(** * C28 *)
Theorem C28_search : forall dbg W st h ndets_max cdets E0 C,
  spin_width W -> norb h <= W / 2 ->
  (forall p q r s, p < norb h -> q < norb h -> r < norb h -> s < norb h ->
     V_pqrs h p q r s = V_pqrs h r s p q) ->
  (forall D, In D cdets -> in_space W (norb h) D /\
     (dbg = true -> bs_count (alpha W D) < norb h /\ bs_count (beta W D) < norb h)) ->
  NoDup cdets -> length cdets <= length C -> length cdets <= ndets_max ->
  (N.of_nat ndets_max < 2 ^ 64)%N ->
  no_resonance W h (h_el_tol st) (just_singles st) E0 cdets ->
  at_most_pairs W h (h_el_tol st) (just_singles st) cdets (pair_size_max st) ->
  always (asci_search dbg W st h ndets_max cdets E0 C) (fun out =>
    exists sel, out = sel ++ cdets /\ NoDup out /\ length out <= ndets_max /\
      (forall t, In t sel -> in_space W (norb h) t /\
         exists x, is_score W h (h_el_tol st) (just_singles st) E0 cdets C t x /\ x <> 0%Qc) /\
      (forall t x u y, In t sel -> ~ In u out ->
         is_score W h (h_el_tol st) (just_singles st) E0 cdets C t x ->
         is_score W h (h_el_tol st) (just_singles st) E0 cdets C u y -> (Qcabs y <= Qcabs x)%Qc) /\
      (length out < ndets_max -> forall u y,
         is_score W h (h_el_tol st) (just_singles st) E0 cdets C u y -> y <> 0%Qc -> In u out)).
Proof. exact c28. Qed.
Print Assumptions C28_search.
Example C28_search_ex :
  (forall D, In D ex_core -> in_space 64 (norb ex_ints) D /\
     (true = true -> bs_count (alpha 64 D) < norb ex_ints /\ bs_count (beta 64 D) < norb ex_ints)) /\
  NoDup ex_core /\ length ex_core <= length ex_C /\
  no_resonance 64 ex_ints (h_el_tol ex_st) (just_singles ex_st) ex_E0 ex_core /\
  at_most_pairs 64 ex_ints (h_el_tol ex_st) (just_singles ex_st) ex_core (pair_size_max ex_st) /\
  exists t x, is_score 64 ex_ints (h_el_tol ex_st) (just_singles ex_st) ex_E0 ex_core ex_C t x /\ x <> 0%Qc.
Proof. exact c28_ex. Qed.
(* whatever pair_size_max, hence with intermediate pruning *)
Theorem C28_search_with_pruning : forall dbg W st h ndets_max cdets E0 C,
  spin_width W -> norb h <= W / 2 ->
  (forall p q r s, p < norb h -> q < norb h -> r < norb h -> s < norb h ->
     V_pqrs h p q r s = V_pqrs h r s p q) ->
  (forall D, In D cdets -> in_space W (norb h) D /\
     (dbg = true -> bs_count (alpha W D) < norb h /\ bs_count (beta W D) < norb h)) ->
  NoDup cdets -> length cdets <= length C -> length cdets <= ndets_max ->
  (N.of_nat ndets_max < 2 ^ 64)%N ->
  no_resonance W h (h_el_tol st) (just_singles st) E0 cdets ->
  always (asci_search dbg W st h ndets_max cdets E0 C) (fun out =>
    exists sel, out = sel ++ cdets /\ NoDup out /\ length out <= ndets_max /\
      (forall t, In t sel -> exists D, In D cdets /\ contributes W h (h_el_tol st) (just_singles st) D t)).
Proof. exact c28_any. Qed.
Print Assumptions C28_search_with_pruning.
(* a limit below the number of core determinants is no limit: ndets_max - ncdets wraps around *)
Theorem C28_small_limit_refuted : forall dbg W st h ndets_max cdets E0 C,
  spin_width W -> norb h <= W / 2 ->
  (forall p q r s, p < norb h -> q < norb h -> r < norb h -> s < norb h ->
     V_pqrs h p q r s = V_pqrs h r s p q) ->
  (forall D, In D cdets -> in_space W (norb h) D /\
     (dbg = true -> bs_count (alpha W D) < norb h /\ bs_count (beta W D) < norb h)) ->
  NoDup cdets -> length cdets <= length C -> ndets_max < length cdets ->
  (N.of_nat (length cdets) < 2 ^ 32)%N -> (N.of_nat (pair_size_max st) < 2 ^ 32)%N ->
  no_resonance W h (h_el_tol st) (just_singles st) E0 cdets ->
  at_most_pairs W h (h_el_tol st) (just_singles st) cdets (pair_size_max st) ->
  always (asci_search dbg W st h ndets_max cdets E0 C) (fun out =>
    ndets_max < length out /\
    forall t x, is_score W h (h_el_tol st) (just_singles st) E0 cdets C t x -> x <> 0%Qc -> In t out).
Proof. exact c28_wrap. Qed.
Print Assumptions C28_small_limit_refuted.

(** * C37 *)
Theorem C37_reorder : forall dets C, length dets = length C ->
  always (reorder_ci_on_coeff dets C) (fun dC =>
    length (fst dC) = length (snd dC) /\
    Permutation (combine dets C) (combine (fst dC) (snd dC)) /\
    StronglySorted (fun x y => (Qcabs y <= Qcabs x)%Qc) (snd dC)).
Proof. exact reorder_ok. Qed.
Print Assumptions C37_reorder.
Theorem C37_reorder_size_mismatch : forall dets C r, length dets <> length C ->
  reorder_ci_on_coeff dets C r -> r = Err AssertFail.
Proof. exact reorder_size_mismatch. Qed.
Print Assumptions C37_reorder_size_mismatch.
Example C37_reorder_ex : length ex_core = length ex_C.
Proof. reflexivity. Qed.

(** * C36 *)
(* every diagonaliser; the sizes strictly increase along the iterations *)
Theorem C36_grow : forall fuel W h dbg st dg s,
  (N.of_nat (ntdets_max st) < 2 ^ 64)%N -> 2 <= grow_factor st ->
  1 <= wfn_size s -> wfn_size s <= ntdets_max st ->
  if_returns (asci_grow fuel dbg W st h dg s) (fun s' => wfn_size s' = ntdets_max st /\
    exists l, last (s :: l) s = s' /\
      path (fun a b =>
        let target := Nat.min (Nat.max (ntdets_min st) (wfn_size a * grow_factor st)) (ntdets_max st) in
        asci_iter dbg W st h dg target a (Ok b) /\ wfn_size b = target /\
        wfn_size a < wfn_size b /\ dg (wfn_dets b) (Ok (wfn_energy b, snd b))) (s :: l)).
Proof. exact c36_grow. Qed.
Print Assumptions C36_grow.
(* it never runs out of iterations: the possible outcomes are the same for every fuel *)
Theorem C36_grow_terminates : forall W h dbg st dg, 2 <= grow_factor st ->
  forall f f' s, 1 <= wfn_size s ->
    ntdets_max st - wfn_size s <= f -> ntdets_max st - wfn_size s <= f' ->
    forall r, asci_grow f dbg W st h dg s r <-> asci_grow f' dbg W st h dg s r.
Proof. exact c36_term. Qed.
Print Assumptions C36_grow_terminates.
Example C36_grow_ex : 2 <= grow_factor grow_st /\ (N.of_nat (ntdets_max grow_st) < 2 ^ 64)%N /\
  wfn_size (ex_E0, [ex_D], [1%Qc]) = 1 /\
  forall fuel, 1 <= fuel -> always (asci_grow fuel true 64 grow_st ex_ints ex_dg (ex_E0, [ex_D], [1%Qc]))
    (fun s' => wfn_size s' = 3).
Proof. exact c36_ex. Qed.
(* grow_factor = 1: the loop neither returns nor throws *)
Theorem C36_grow_terminates_refuted : exists h st (dg : diag) s,
  grow_factor st = 1 /\ wfn_size s = 1 /\ forall fuel,
  (exists r, asci_grow fuel false 64 st h dg s r) /\
  forall r, asci_grow fuel false 64 st h dg s r -> r = Err Hang.
Proof. exact c36_hang. Qed.
Print Assumptions C36_grow_terminates_refuted.

Theorem C36_refine : forall W h dbg st dg s,
  if_returns (asci_refine dbg W st h dg s) (fun s' => wfn_size s' = wfn_size s /\
    exists l, 1 <= length l <= max_refine_iter st /\
      path (fun a b => asci_iter dbg W st h dg (wfn_size s) a (Ok b) /\ wfn_size b = wfn_size s) (s :: l) /\
      last (s :: l) s = s' /\
      (Qcabs (wfn_energy s' - wfn_energy (last (removelast (s :: l)) s)) < refine_energy_tol st)%Qc).
Proof. exact c36_refine. Qed.
Print Assumptions C36_refine.
Example C36_refine_ex : always (asci_refine true 64 grow_st ex_ints ex_dg (ex_E0, [ex_D], [1%Qc]))
  (fun s' => s' = (ex_E0, [ex_D], [1%Qc])).
Proof. exact c36_refine_ex. Qed.

(** * C53 *)
Theorem C53_electrons_preserved : forall W h dbg st na nb dg s,
  spin_width W -> norb h <= W / 2 ->
  (forall p q r s, p < norb h -> q < norb h -> r < norb h -> s < norb h ->
     V_pqrs h p q r s = V_pqrs h r s p q) ->
  (dbg = true -> na < norb h /\ nb < norb h) ->
  valid_dets W (norb h) na nb (wfn_dets s) ->
  (forall ndets_max, if_returns (asci_iter dbg W st h dg ndets_max s)
     (fun s' => valid_dets W (norb h) na nb (wfn_dets s'))) /\
  (forall fuel, if_returns (asci_grow fuel dbg W st h dg s)
     (fun s' => valid_dets W (norb h) na nb (wfn_dets s'))) /\
  if_returns (asci_refine dbg W st h dg s) (fun s' => valid_dets W (norb h) na nb (wfn_dets s')).
Proof. exact c53. Qed.
Print Assumptions C53_electrons_preserved.
Example C53_electrons_preserved_ex :
  valid_dets 64 (norb ex_ints) 1 1 (wfn_dets (ex_E0, ex_core, ex_C)).
Proof. exact c53_ex. Qed.

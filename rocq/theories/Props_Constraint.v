(** Properties C29-C33: constraints used to distribute the search. *)
From Coq Require Import Sorting.Permutation.
From Verif Require Import Base Nondet Bits SD Spec Constraint ConstraintSpec ConstraintGlue.
Local Open Scope nat_scope.

(** * C29 *)
Theorem C29_satisfies_constraint : forall norb c x, valid_con norb c ->
  (satisfies_constraint x (con_C c) (con_min c) = true <-> meets c x).
Proof. exact ConstraintProofs.satisfies_ok. Qed.
Print Assumptions C29_satisfies_constraint.
Theorem C29_make_triplet : forall W norb i j k, k < j -> j < i -> i < norb -> norb <= W -> k < 64 ->
  exists c, make_triplet W i j k = Ok c /\ valid_con norb c /\
    forall x, meets c x <-> forall z, k <= z -> (tb x z = true <-> z = i \/ z = j \/ z = k).
Proof. exact c29_triplet. Qed.
Print Assumptions C29_make_triplet.
Theorem C29_make_quad : forall W norb i j k l, l < k -> k < j -> j < i -> i < norb -> norb <= W -> l < 64 ->
  exists c, make_quad W i j k l = Ok c /\ valid_con norb c /\
    forall x, meets c x <-> forall z, l <= z -> (tb x z = true <-> z = i \/ z = j \/ z = k \/ z = l).
Proof. exact c29_quad. Qed.
Print Assumptions C29_make_quad.
Example C29_ex : valid_con 6 con543 /\ meets con543 57 /\ ~ meets con543 43.
Proof. exact c29_ex. Qed.
(** with more than 64 orbitals below the lowest one, building the constraint throws *)
Theorem C29_make_triplet_wide_refuted : make_triplet 256 67 66 65 = Err Throw.
Proof. exact c29_wide. Qed.
Print Assumptions C29_make_triplet_wide_refuted.

(** * C30 *)
Theorem C30_constraint_singles : forall W norb c det,
  norb <= W -> (N.of_nat W < 2 ^ 64)%N -> valid_con norb c -> wf norb det ->
  exists Om l, full_mask W norb = Ok Om /\
    generate_constraint_singles W det (con_C c) Om (con_B c) [] = Ok l /\ NoDup l /\
    (forall t, In t l <-> wf norb t /\ moves 1 det t /\ meets c t).
Proof. exact c30_singles. Qed.
Print Assumptions C30_constraint_singles.
Theorem C30_constraint_doubles : forall W norb c det,
  norb <= W -> (N.of_nat W < 2 ^ 64)%N -> valid_con norb c -> wf norb det ->
  exists Om l, full_mask W norb = Ok Om /\
    generate_constraint_doubles W det (con_C c) Om (con_B c) = Ok l /\ NoDup l /\
    (forall t, In t l <-> wf norb t /\ moves 2 det t /\ meets c t).
Proof. exact c30_doubles. Qed.
Print Assumptions C30_constraint_doubles.
Example C30_ex : valid_con 6 con543 /\ wf 6 43 /\ moves 1 43 57 /\ meets con543 57 /\ moves 2 43 60 /\ meets con543 60.
Proof. exact c30_ex. Qed.
(** with a non-empty output vector and no excitation, the old contents stay *)
Theorem C30_stale_output_refuted : exists Om, full_mask 64 6 = Ok Om /\ valid_con 6 con543 /\
  generate_constraint_singles 64 7 (con_C con543) Om (con_B con543) [0%N] = Ok [0%N] /\ ~ moves 1 7 0.
Proof. exact c30_stale. Qed.
Print Assumptions C30_stale_output_refuted.

(** * C31 *)
Theorem C31_counts : forall W norb c det,
  norb <= W -> (N.of_nat W < 2 ^ 64)%N -> valid_con norb c -> wf norb det ->
  exists Om l1 l2, full_mask W norb = Ok Om /\
    generate_constraint_singles W det (con_C c) Om (con_B c) [] = Ok l1 /\
    generate_constraint_doubles W det (con_C c) Om (con_B c) = Ok l2 /\
    count_constraint_singles W det (con_C c) Om (con_B c) = length l1 /\
    count_constraint_doubles W det (con_C c) Om (con_B c) = length l2.
Proof. exact c31_counts. Qed.
Print Assumptions C31_counts.
Theorem C31_histogram : forall W norb c det,
  norb <= W -> (N.of_nat W < 2 ^ 64)%N -> valid_con norb c -> wf norb det -> forall ns nd,
  exists l1 l2 w, NoDup l1 /\ NoDup l2 /\
    (forall t, In t l1 <-> wf norb t /\ moves 1 det t /\ meets c t) /\
    (forall t, In t l2 <-> wf norb t /\ moves 2 det t /\ meets c t) /\
    (do Om <- full_mask W norb; constraint_histogram W det ns nd (con_C c) Om (con_B c)) = Ok w /\
    ((meets c det -> w = length l1 + length l2 + length l1 * ns + ns + nd + 1) /\
     (~ meets c det -> w = length l1 + length l2 + length l1 * ns)).
Proof. exact c31_histogram. Qed.
Print Assumptions C31_histogram.
Example C31_ex : valid_con 6 con543 /\ wf 6 43 /\ moves 1 43 57 /\ meets con543 57 /\ moves 2 43 60 /\ meets con543 60.
Proof. exact c30_ex. Qed.

(** * C32 *)
Theorem C32_partition : forall W norb ns nd alphas nlevels n,
  norb <= W -> norb <= 66 -> (N.of_nat W < 2 ^ 64)%N -> (forall al, In al alphas -> wf norb al) -> 0 < n ->
  always (dist_constraint_general W nlevels norb ns nd alphas n) (fun ranks =>
    length ranks = n /\
    (forall c, In c (concat ranks) -> valid_con norb c) /\
    (forall x, wf norb x -> near alphas x -> 3 + nlevels <= bs_count x -> meets_once (concat ranks) x) /\
    (forall x l1 c l2, concat ranks = l1 ++ c :: l2 -> meets c x -> forall c', In c' (l1 ++ l2) -> ~ meets c' x)).
Proof. exact c32. Qed.
Print Assumptions C32_partition.
Example C32_ex : (forall al, In al [15%N; 39%N] -> wf 6 al) /\ near [15%N; 39%N] 57 /\ 3 + 1 <= bs_count 57.
Proof. exact c32_ex. Qed.
Theorem C32_split : forall norb W c, norb <= W -> valid_con norb c ->
  exists l, con_children W c = Ok l /\ (forall c', In c' l -> valid_con norb c') /\
    (forall c' x, In c' l -> meets c' x -> meets c x) /\
    forall x, meets c x -> (exists z, z < con_min c /\ tb x z = true) -> meets_once l x.
Proof. exact c32_split. Qed.
Print Assumptions C32_split.
(** a string whose electrons are all in the constraint belongs to no part of it *)
Theorem C32_split_refuted : forall norb W c x l, valid_con norb c -> norb <= W -> con_children W c = Ok l ->
  (forall z, z < con_min c -> tb x z = false) -> forall c', In c' l -> ~ meets c' x.
Proof. exact c32_split_lost. Qed.
Print Assumptions C32_split_refuted.
(** with fewer than three electrons there are no constraints at all *)
Theorem C32_few_electrons_refuted : forall W norb ns nd alphas nlevels n,
  norb <= W -> norb <= 66 -> (N.of_nat W < 2 ^ 64)%N ->
  (forall al, In al alphas -> wf norb al /\ bs_count al < 3) -> 0 < n ->
  always (dist_constraint_general W nlevels norb ns nd alphas n) (fun ranks => forall r, In r ranks -> r = []).
Proof. exact c32_few. Qed.
Print Assumptions C32_few_electrons_refuted.
Example C32_few_electrons_ex : (forall al, In al [3%N] -> wf 6 al /\ bs_count al < 3) /\ near [3%N] 5.
Proof. exact c32_few_ex. Qed.

(** * C33 *)
Theorem C33_distribution : forall W norb ns nd alphas nlevels n,
  norb <= W -> norb <= 66 -> (N.of_nat W < 2 ^ 64)%N -> (forall al, In al alphas -> wf norb al) -> 0 < n ->
  always (dist_constraint_general W nlevels norb ns nd alphas n) (fun ranks =>
    length ranks = n /\ NoDup (concat ranks) /\
    exists wk, (forall c, In c (concat ranks) -> con_work W norb ns nd alphas c = Ok (wk c) /\ wk c <> 0) /\
      forall r s c, r < n -> s < n -> In c (nth r ranks []) ->
        list_sum (map wk (nth r ranks [])) <= list_sum (map wk (nth s ranks [])) + wk c).
Proof. exact c33. Qed.
Print Assumptions C33_distribution.
Theorem C33_assignment : forall (l : list (constraint * nat)) n, 0 < n ->
  Permutation (concat (map (fun r => map snd (filter (fun p => fst p =? r) (assign_work (repeat 0 n) l))) (seq 0 n)))
    (map fst l).
Proof. exact c33_assign. Qed.
Print Assumptions C33_assignment.
Example C33_ex : (forall al, In al [15%N; 39%N] -> wf 6 al) /\ near [15%N; 39%N] 57 /\ 3 + 1 <= bs_count 57.
Proof. exact c32_ex. Qed.

(** Model of asci_search on several ranks: determinant_search.hpp:394-663 with
    world_size > 1. No proofs in this file. *)
From Coq Require Import QArith Qcanon.
From Verif Require Import Base Nondet Bits SD Sums Ham Asci Constraint Collective.
Local Open Scope nat_scope.

(* determinant_search.hpp:528-544 on one rank: scores made negative, core
   determinants added as positive seeds, only the largest copy of each state
   kept, non-negative entries erased (as in [select_dets]) *)
Definition finalize_pairs (W : nat) (cdets : list N) (C : list Qc) (pairs : list contrib)
  : nd (list contrib) :=
  let scored := map (fun x => (fst x, (- Qcabs (snd x))%Qc)) pairs in
  any seeds <- det (mapM (fun i => do c <- at_ C i; Ok (nth i cdets 0%N, Qcabs c))
                         (seq 0 (length cdets)));
  any kept <- keep_only_largest_copy W (scored ++ seeds);
  any pr <- std_partition (fun p => qlt (snd p) 0) kept;
  ret (fst pr).

(* std::greater<double>, std::equal_to<double> *)
Definition qgreater (x y : Qc) : bool := qlt y x.
Definition qequal (x y : Qc) : bool := if Qc_eq_dec x y then true else false.

(* determinant_search.hpp:528-657 on world_size > 1 ranks. [pairs]: asci_pairs of
   every rank; [fuel], [g]: iterations and random numbers of dist_quickselect.
   The result is new_dets, which the gathered strings make the same on every
   rank. *)
Definition select_dets_mpi (fuel : nat) (g : nat -> nat) (W ndets_max : nat) (cdets : list N)
  (C : list Qc) (pairs : list (list contrib)) : nd (list N) :=
  (* :528-544 *)
  any kept <- mapND (finalize_pairs W cdets C) pairs;
  (* :547 *)
  let top_k := size_sub ndets_max (length cdets) in
  (* :571-574 *)
  let scores := map (map (fun p : contrib => Qcabs (snd p))) kept in
  (* :576-579; the parameter k has type int. A negative k ends with begin + k
     before the beginning. *)
  let k := to_int (Z.of_N top_k) in
  any kths <- (if (k <? 0)%Z then det (Err UB)
               else dist_quickselect 0%Qc qgreater qequal fuel g (Z.to_nat k) scores);
  (* :581-591 *)
  any parts <- mapND (fun lk : list contrib * Qc =>
      leg_partition (fun p => qlt (snd lk) (Qcabs (snd p))) (fun p => qequal (Qcabs (snd p)) (snd lk))
                    (fst lk)) (combine kept kths);
  (* :594-596 *)
  let keep_strings_local := map (fun t : list contrib * list contrib * list contrib =>
      map fst (fst (fst t) ++ snd (fst t))) parts in
  (* :599-607 *)
  any tgs <- det (total_gather_and_exclusive_scan IInt
                    (map (fun l : list N => to_int (Z.of_nat (length l))) keep_strings_local));
  let '(n_geq_global, _, displ) := tgs in
  any keep_strings_global <-
    det (MPI_Allgatherv keep_strings_local displ (repeat 0%N (Z.to_nat n_geq_global)));
  (* :609-613 *)
  let sel := if (top_k <? Z.to_N n_geq_global)%N
             then firstn (N.to_nat top_k) keep_strings_global else keep_strings_global in
  (* :616-620, :648-654 *)
  ret (sel ++ cdets).

(* determinant_search.hpp:394-663 asci_search, world_size > 1 *)
Definition asci_search_mpi (fuel : nat) (g : nat -> nat) (dbg : bool) (W : nat) (st : settings) (level : nat)
  (h : ints) (ndets_max : nat) (cdets : list N) (E0 : Qc) (C : list Qc) (world_size : nat) : nd (list N) :=
  any pairs <- asci_contributions_constraint dbg W st level h E0 C cdets world_size;
  select_dets_mpi fuel g W ndets_max cdets C pairs.

(** C70: adjacency graph of a sparse matrix. *)
From Coq Require Import QArith Qcanon.
From Verif Require Import Base Ham SparseSpec CsrView Graph GraphSpec GraphProofs.
Local Open Scope nat_scope.

(** Every well-formed matrix without repeated entries gives adjacency lists: the neighbours of
    vertex i are the columns stored in row i, in order, except i. *)
Theorem C70_adjacency : forall A ret, csr_wf A -> no_repeats A -> exists xadj adjncy,
  extract_adjacency A ret = Ok (xadj, adjncy) /\ adjacency_lists ret (csr_m A) (csr_n A) xadj adjncy /\
  forall i, i < csr_m A -> neighbours ret xadj adjncy i = filter (fun c => negb (c =? i)) (stored A i).
Proof. exact adjacency. Qed.
(** Its length is the number of entries off the diagonal. *)
Theorem C70_size : forall A ret, csr_wf A -> no_repeats A -> exists xadj adjncy, extract_adjacency A ret = Ok (xadj, adjncy) /\
  length adjncy + length (filter (fun i => existsb (Nat.eqb i) (stored A i)) (seq 0 (csr_m A))) = length (colind A).
Proof. exact adjacency_size. Qed.
(** The graph of a matrix with symmetric pattern is undirected, without loops and repeated edges. *)
Theorem C70_undirected : forall A ret, csr_wf A -> no_repeats A -> symmetric_pattern A -> exists xadj adjncy, extract_adjacency A ret = Ok (xadj, adjncy) /\
  (forall i, i < csr_m A -> ~ In i (neighbours ret xadj adjncy i) /\ NoDup (neighbours ret xadj adjncy i)) /\
  (forall i j, i < csr_m A -> j < csr_m A -> (In j (neighbours ret xadj adjncy i) <-> In i (neighbours ret xadj adjncy j))).
Proof. exact graph_symmetric. Qed.
(** Fewer than two parts are refused; otherwise METIS gets the graph of the matrix, counted from 0. *)
Theorem C70_partition : forall metis npart A, csr_wf A -> no_repeats A -> ((npart < 2)%Z -> kway_partition metis npart A = Err Throw) /\
  ((2 <= npart)%Z -> exists xadj adjncy, kway_partition metis npart A = metis (csr_m A) npart xadj adjncy /\ adjacency_lists 0 (csr_m A) (csr_n A) xadj adjncy /\
    forall i, i < csr_m A -> neighbours 0 xadj adjncy i = filter (fun c => negb (c =? i)) (stored A i)).
Proof. exact kway. Qed.
Example C70_case : csr_wf gx /\ no_repeats gx /\ symmetric_pattern gx /\ extract_adjacency gx 0 = Ok ([0; 1; 3; 4], [1; 0; 2; 1]).
Proof. exact gx_ok. Qed.
(** A diagonal element stored twice leaves a loop. *)
Theorem C70_repeated_refuted : exists A xadj adjncy, csr_wf A /\ extract_adjacency A 0 = Ok (xadj, adjncy) /\ In 0 (neighbours 0 xadj adjncy 0).
Proof. exact repeated_diagonal. Qed.
Print Assumptions C70_adjacency. Print Assumptions C70_size. Print Assumptions C70_undirected. Print Assumptions C70_partition. Print Assumptions C70_repeated_refuted.

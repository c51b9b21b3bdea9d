(** Model of src/sparsexx/include/sparsexx/util/graph.hpp and src/sparsexx/src/metis_wrapper.cxx.
    METIS is a parameter. No proofs in this file. *)
From Coq Require Import QArith Qcanon.
From Verif Require Import Base Ham Asci Mem Sparse.
Local Open Scope nat_scope.

(* graph.hpp:35-83. [ci] is what has been copied to colind so far; an index that would become
   negative is an error *)
Definition extract_adjacency (A : csr) (ret_indexing : nat) : res (list nat * list nat) :=
  let M := csr_m A in
  let ind := csr_ind A in
  let nnz := length (colind A) in
  do rp <- put (repeat 0 (M + 1)) 0 ret_indexing;
  do s <- foldM (seq 0 M) (fun s i =>
    let '(rp, ci, ndiag) := s in
    do r <- row_range A i;
    let '(j_st, j_en) := r in
    do row <- slice_ (colind A) j_st j_en;
    let diag_it := find_ (i + ind) row in
    let ci := ci ++ firstn diag_it row in                             (* :64 *)
    let nrow := length row in
    do x <- at_ rp i;
    if negb (diag_it =? nrow) then                                    (* :67-73 *)
      do rp <- put rp (i + 1) (x + nrow - 1);
      Ok (rp, ci ++ skipn (diag_it + 1) row, S ndiag)
    else
      do rp <- put rp (i + 1) (x + nrow);
      Ok (rp, ci, ndiag)) (rp, [], 0);
  let '(rp, ci, ndiag) := s in
  if nnz <? length ci then Err UB
  else
    let colind := firstn (nnz - ndiag) (ci ++ repeat 0 nnz) in        (* :79 *)
    do colind <- mapM (fun c => minus_ (c + ret_indexing) ind) colind;  (* :80 *)
    Ok (rp, colind).

(* graph.hpp:85-108 with metis_wrapper.cxx:18-54 *)
Definition kway_partition (metis : nat -> Z -> list nat -> list nat -> res (list nat)) (npart : Z) (A : csr) : res (list nat) :=
  do adj <- extract_adjacency A 0;
  let '(adj_rp, adj_ci) := adj in
  if (npart <? 2)%Z then Err Throw
  else metis (csr_m A) npart adj_rp adj_ci.
(* metis_wrapper.cxx:50-52: built without METIS *)
Definition no_metis (nvert : nat) (npart : Z) (xadj adjncy : list nat) : res (list nat) := Err Throw.

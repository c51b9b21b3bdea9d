(** Model of the Rutherford-Boeing reader of sparsexx, src/sparsexx/include/sparsexx/io/read_rb.hpp.
    Text as in SparseIO.v. No proofs in this file. *)
From Coq Require Import Ascii String QArith Qcanon ZArith NArith Bool.
From Verif Require Import Base Ham Asci Mem Sparse Text SparseIO.
Local Open Scope nat_scope.

(* read_rb.hpp:53-58, :61-66, :69-74: one array is read line by line; the loop is left after a line
   that completes it, or at the end of the file. Writing past the end of the array is undefined.
   Returns the array and the lines that follow. *)
Fixpoint read_block {A} (conv : text -> res A) (total : nat) (ls : list text) (arr : list A) (curcount : nat) : res (list A * list text) :=
  match ls with
  | [] => Ok (arr, [])
  | l :: ls =>
    do s <- foldM (tokenize l) (fun s t =>
      let '(arr, curcount) := s in
      do v <- conv t;
      do arr <- put arr curcount v;
      Ok (arr, curcount + 1)) (arr, curcount);
    let '(arr, curcount) := s in
    if curcount =? total then Ok (arr, ls) else read_block conv total ls arr curcount
  end.
(* :55, :63: std::stoi stored in an index; negative ones (accepted by the code) are not representable *)
Definition stoi_index (t : text) : res nat := do z <- stoi t; index_ z.

(* read_rb.hpp:20-78. A file of fewer than three lines has no five tokens; (the code may find the
   tokens of its last line again). m * n does not overflow. *)
Definition read_rb_as_csc (rnd : Q -> res Qc) (file : text) : res csc :=
  let ls := skipn 2 (lines file) in                                   (* :26-27 *)
  let tokens := tokenize (nth 0 ls []) in                             (* :33-34 *)
  if negb (List.length tokens =? 5) then Err AssertFail
  else
    do t1 <- at_ tokens 1; do m <- stoll t1;
    do t2 <- at_ tokens 2; do n <- stoll t2;
    do t3 <- at_ tokens 3; do nnz <- stoll t3;
    if negb (nnz <=? m * n)%Z then Err AssertFail                     (* :44 *)
    else
      do m <- index_ m; do n <- index_ n; do nnz <- index_ nnz;
      let ls := skipn 2 ls in                                         (* :48 the format line *)
      let A := csc_alloc m n nnz 1 in                                 (* :50 *)
      do s <- read_block stoi_index (n + 1) ls (colptr A) 0;
      let '(cp, ls) := s in
      do s <- read_block stoi_index nnz ls (rowind A) 0;
      let '(ri, ls) := s in
      do s <- read_block (stod rnd) nnz ls (csc_val A) 0;
      let '(nz, ls) := s in
      match ls with
      | [] => Ok (mk_csc m n (csc_ind A) cp ri nz)
      | _ => Err AssertFail                                           (* :76 *)
      end.

(* read_rb.hpp:80-92 for a CSC and for a CSR matrix *)
Definition read_rb_csc (rnd : Q -> res Qc) (file : text) : res csc := read_rb_as_csc rnd file.
Definition read_rb_csr (rnd : Q -> res Qc) (file : text) : res csr :=
  do A <- read_rb_as_csc rnd file; csr_of_csc A.

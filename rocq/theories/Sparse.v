(** Model of the format conversions, submatrix extraction and permutations of
    sparsexx. Paths are relative to src/sparsexx/include/sparsexx. Index types
    are unbounded naturals (no overflow of 32-bit indices). No proofs here. *)
From Coq Require Import QArith Qcanon Sorting.Permutation.
From Verif Require Import Base Nondet Ham Asci Constraint Dist Mem Spmv.
Local Open Scope nat_scope.

(** ** matrix_types *)

(* matrix_types/csr_matrix.hpp:66-73 csr_matrix(m, n, nnz, indexing): arrays of
   the right size, value-initialised *)
Definition csr_alloc (m n nnz ind : nat) : csr :=
  mk_csr m n ind (repeat 0 (m + 1)) (repeat 0 nnz) (repeat 0%Qc nnz).

(* matrix_types/csc_matrix.hpp:42-50 the data of a CSC matrix *)
Record csc := mk_csc {
  csc_m : nat; csc_n : nat; csc_ind : nat;
  colptr : list nat; rowind : list nat; csc_val : list Qc
}.
(* matrix_types/csc_matrix.hpp:65-72 csc_matrix(m, n, nnz, indexing) *)
Definition csc_alloc (m n nnz ind : nat) : csc :=
  mk_csc m n ind (repeat 0 (n + 1)) (repeat 0 nnz) (repeat 0%Qc nnz).

(* std::vector::at *)
Definition put_at {A} (l : list A) (i : nat) (x : A) : res (list A) :=
  if i <? length l then put l i x else Err Throw.

(* matrix_types/csr_matrix.hpp:189-194 set_indexing. The subtraction
   i -= indexing_ - idx is an error here if it goes below zero. *)
Definition set_indexing (A : csr) (idx : nat) : res csr :=
  if idx =? csr_ind A then Ok A
  else do ci <- mapM (fun i => minus_ (i + idx) (csr_ind A)) (colind A);
       do rp <- mapM (fun i => minus_ (i + idx) (csr_ind A)) (rowptr A);
       Ok (mk_csr (csr_m A) (csr_n A) idx rp ci (nzval A)).

(* matrix_types/coo_matrix.hpp:196-201 determine_indexing_from_adj *)
Definition determine_indexing_from_adj (A : coo) : coo :=
  let eq_zero x := x =? 0 in
  let zero_based := existsb eq_zero (coo_row A) || existsb eq_zero (coo_col A) in
  mk_coo (coo_m A) (coo_n A) (if zero_based then 0 else 1) (coo_row A) (coo_col A) (coo_val A).

(* std::is_sorted *)
Fixpoint is_sorted_ (l : list nat) : bool :=
  match l with
  | [] => true
  | x :: r => match r with [] => true | y :: _ => negb (y <? x) && is_sorted_ r end
  end.
(* matrix_types/coo_matrix.hpp:206-211 *)
Definition is_sorted_by_row_index (A : coo) : bool := is_sorted_ (coo_row A).
Definition is_sorted_by_col_index (A : coo) : bool := is_sorted_ (coo_col A).

(* matrix_types/coo_matrix_ops.hpp:42-66 (without ranges-v3): sort the positions,
   then gather *)
Definition sort_coo (A : coo) (lt : nat -> nat -> bool) : nd coo :=
  let nnz := length (coo_val A) in
  any indx <- std_sort lt (seq 0 nnz);
  det (do r <- mapM (at_ (coo_row A)) indx;
       do c <- mapM (at_ (coo_col A)) indx;
       do v <- mapM (at_ (coo_val A)) indx;
       Ok (mk_coo (coo_m A) (coo_n A) (coo_ind A) r c v)).
(* the comparison functions read inside the arrays only, since the positions
   are those of the stored elements *)
(* coo_matrix_ops.hpp:23-71 *)
Definition sort_by_row_index (A : coo) : nd coo :=
  sort_coo A (fun i j =>
    let ri := nth i (coo_row A) 0 in let rj := nth j (coo_row A) 0 in
    if ri <? rj then true else if rj <? ri then false
    else nth i (coo_col A) 0 <? nth j (coo_col A) 0).
(* coo_matrix_ops.hpp:133-181 *)
Definition sort_by_col_index (A : coo) : nd coo :=
  sort_coo A (fun i j =>
    let ci := nth i (coo_col A) 0 in let cj := nth j (coo_col A) 0 in
    if ci <? cj then true else if cj <? ci then false
    else nth i (coo_row A) 0 <? nth j (coo_row A) 0).

(* coo_matrix_ops.hpp:73-131 expand_from_triangle (the text output is not
   modelled). The assertions :126-128 compare the new sizes with 2 * nnz - n;
   with NDEBUG a wrong nnz is stored instead. *)
Definition expand_from_triangle (A : coo) : res coo :=
  let rc := combine (coo_row A) (coo_col A) in
  let lower_triangle := forallb (fun p => fst p <=? snd p) rc in
  let upper_triangle := forallb (fun p => snd p <=? fst p) rc in
  let diagonal := lower_triangle && upper_triangle in
  let full_matrix := negb lower_triangle && negb upper_triangle in
  if diagonal || full_matrix then Ok A
  else
    let nnz := length (coo_val A) in
    (* :114-117 a negative difference wraps around and reserve throws *)
    do new_nnz <- (if 2 * nnz <? coo_n A then Err Throw else Ok (2 * nnz - coo_n A));
    do s <- foldM (seq 0 nnz) (fun s i =>
      let '(ri, ci, nz) := s in
      do r <- at_ ri i; do c <- at_ ci i; do v <- at_ nz i;
      if negb (r =? c) then Ok (ri ++ [c], ci ++ [r], nz ++ [v]) else Ok s)
      (coo_row A, coo_col A, coo_val A);
    let '(ri, ci, nz) := s in
    if (length ri =? new_nnz) && (length ci =? new_nnz) && (length nz =? new_nnz)
    then Ok (mk_coo (coo_m A) (coo_n A) (coo_ind A) ri ci nz)
    else Err AssertFail.

(* matrix_types/coo_conversions.hpp:18-31 coo_matrix(csr_matrix) *)
Definition coo_of_csr (A : csr) : res coo :=
  let nnz := length (nzval A) in
  do s <- foldM (seq 0 (csr_m A)) (fun s i =>
    let '(ri, it) := s in
    do rp1 <- at_ (rowptr A) (i + 1);
    do rp0 <- at_ (rowptr A) i;
    let row_count := rp1 - rp0 in
    do ri' <- put_all ri it (repeat (i + csr_ind A) row_count);
    Ok (ri', it + row_count)) (repeat 0 nnz, 0);
  let '(ri, it) := s in
  if it =? length ri then
    do ci <- put_all (repeat 0 nnz) 0 (colind A);
    do nz <- put_all (repeat 0%Qc nnz) 0 (nzval A);
    Ok (mk_coo (csr_m A) (csr_n A) (csr_ind A) ri ci nz)
  else Err AssertFail.

(* matrix_types/conversions.hpp:77-85 and :104-112: the pointer array of a sorted
   index array [idx], built in [ptr]; [last] is the position set last (:85, :112) *)
Definition coo_ptr (ind nnz last : nat) (idx ptr : list nat) : res (list nat) :=
  do ptr <- put_at ptr 0 ind;
  do s <- foldM (seq 0 nnz) (fun s i =>
    let '(ptr, cur) := s in
    do x <- at_ idx i;
    if negb (x =? cur + ind) then do ptr' <- put_at ptr (cur + 1) (i + ind); Ok (ptr', cur + 1)
    else Ok s) (ptr, 0);
  put_at (fst s) last (nnz + ind).
(* matrix_types/conversions.hpp:64-89 csr_matrix(coo_matrix) *)
Definition csr_of_coo (A : coo) : res csr :=
  if is_sorted_by_row_index A then
    let nnz := length (coo_val A) in
    let B := csr_alloc (coo_m A) (coo_n A) nnz (coo_ind A) in
    do rp <- coo_ptr (coo_ind A) nnz (coo_m A) (coo_row A) (rowptr B);
    do ci <- put_all (colind B) 0 (coo_col A);
    do nz <- put_all (nzval B) 0 (coo_val A);
    Ok (mk_csr (coo_m A) (coo_n A) (coo_ind A) rp ci nz)
  else Err Throw.
(* matrix_types/conversions.hpp:91-116 csc_matrix(coo_matrix); the last pointer
   is set at position m (:112) *)
Definition csc_of_coo (A : coo) : res csc :=
  if is_sorted_by_col_index A then
    let nnz := length (coo_val A) in
    let B := csc_alloc (coo_m A) (coo_n A) nnz (coo_ind A) in
    do cp <- coo_ptr (coo_ind A) nnz (coo_m A) (coo_col A) (colptr B);
    do ri <- put_all (rowind B) 0 (coo_row A);
    do nz <- put_all (csc_val B) 0 (coo_val A);
    Ok (mk_csc (coo_m A) (coo_n A) (coo_ind A) cp ri nz)
  else Err Throw.

(* matrix_types/conversions.hpp:21-60 detail::csr_to_csc *)
Definition csr_to_csc (M N : nat) (Ap Ai : list nat) (Az : list Qc)
  (Bp Bi : list nat) (Bz : list Qc) (ind : nat) : res (list nat * list nat * list Qc) :=
  do apM <- at_ Ap M;
  do nnz <- minus_ apM ind;
  do Bp <- put_all Bp 0 (repeat 0 N);
  do Bp <- foldM (seq 0 nnz) (fun Bp i =>
    do a <- at_ Ai i; do c <- minus_ a ind; do x <- at_ Bp c; put Bp c (x + 1)) Bp;
  do s <- foldM (seq 0 N) (fun s j =>
    let '(Bp, csum) := s in
    do tmp <- at_ Bp j; do Bp' <- put Bp j csum; Ok (Bp', csum + tmp)) (Bp, 0);
  do Bp <- put (fst s) N nnz;
  do s <- foldM (seq 0 M) (fun s i =>
    do ap0 <- at_ Ap i; do ap1 <- at_ Ap (i + 1);
    do j_st <- minus_ ap0 ind; do j_en <- minus_ ap1 ind;
    foldM (seq j_st (j_en - j_st)) (fun s j =>
      let '(Bp, Bi, Bz) := s in
      do a <- at_ Ai j; do col_idx <- minus_ a ind;
      do dest <- at_ Bp col_idx;
      do Bi <- put Bi dest i;
      do z <- at_ Az j;
      do Bz <- put Bz dest z;
      do Bp <- put Bp col_idx (dest + 1);
      Ok (Bp, Bi, Bz)) s) (Bp, Bi, Bz);
  let '(Bp, Bi, Bz) := s in
  do s <- foldM (seq 0 N) (fun s j =>
    let '(Bp, last) := s in
    do tmp <- at_ Bp j; do Bp' <- put Bp j last; Ok (Bp', tmp)) (Bp, 0);
  let Bp := fst s in
  if negb (ind =? 0) then
    do Bp <- foldM (seq 0 (N + 1)) (fun Bp j => do x <- at_ Bp j; put Bp j (x + ind)) Bp;
    do Bi <- foldM (seq 0 nnz) (fun Bi i => do x <- at_ Bi i; put Bi i (x + ind)) Bi;
    Ok (Bp, Bi, Bz)
  else Ok (Bp, Bi, Bz).
(* matrix_types/conversions.hpp:118-125 csr_matrix(csc_matrix) *)
Definition csr_of_csc (A : csc) : res csr :=
  let B := csr_alloc (csc_m A) (csc_n A) (length (csc_val A)) (csc_ind A) in
  do s <- csr_to_csc (csc_n A) (csc_m A) (colptr A) (rowind A) (csc_val A)
            (rowptr B) (colind B) (nzval B) (csc_ind A);
  let '(rp, ci, nz) := s in
  Ok (mk_csr (csc_m A) (csc_n A) (csc_ind A) rp ci nz).

(* matrix_types/dense_conversions.hpp:18-43 convert_to_dense(csr): the dense
   array is column-major with leading dimension LDAD and only the stored
   positions are written *)
Definition dense_of_csr (A : csr) (D : list Qc) (LDAD : nat) : res (list Qc) :=
  if LDAD <? csr_m A then Err Throw
  else foldM (seq 0 (csr_m A)) (fun D i =>
    do rp0 <- at_ (rowptr A) i;
    do rp1 <- at_ (rowptr A) (i + 1);
    do j_st <- minus_ rp0 (csr_ind A);
    do j_en <- minus_ rp1 (csr_ind A);
    foldM (seq 0 (j_en - j_st)) (fun D j =>
      do c <- at_ (colind A) (j_st + j);
      do v <- at_ (nzval A) (j_st + j);
      do p <- minus_ (i + c * LDAD) (csr_ind A * LDAD);
      put D p v) D) D.
(* matrix_types/dense_conversions.hpp:45-64 convert_to_dense(coo); indexing is
   read (:57) but not used *)
Definition dense_of_coo (A : coo) (D : list Qc) (LDAD : nat) : nd (list Qc) :=
  if LDAD <? coo_m A then det (Err Throw)
  else parallel_for (seq 0 (length (coo_val A))) (fun D i =>
    do r <- at_ (coo_row A) i;
    do c <- at_ (coo_col A) i;
    do v <- at_ (coo_val A) i;
    put D (r + c * LDAD) v) D.

(** ** util/submatrix.hpp *)

(* the column indices of row [i], as [Aci + j_st, Aci + j_en) *)
Definition row_range (A : csr) (i : nat) : res (nat * nat) :=
  do rp0 <- at_ (rowptr A) i;
  do rp1 <- at_ (rowptr A) (i + 1);
  do j_st <- minus_ rp0 (csr_ind A);
  do j_en <- minus_ rp1 (csr_ind A);
  Ok (j_st, j_en).
(* std::count_if *)
Definition count_if {A} (p : A -> bool) (l : list A) : nat := length (filter p l).
(* :17-31 count_row_nzval_submat; [r0] is the offset of the row pointer passed *)
Definition count_row_nzval_submat (A : csr) (r0 nrow : nat) (p : nat -> bool) : res (list nat) :=
  mapM (fun i =>
    do r <- row_range A (r0 + i);
    do l <- slice_ (colind A) (fst r) (snd r);
    Ok (count_if p l)) (seq 0 nrow).
(* :33-38 rowptr_from_rowcnts, in the array [rp] *)
Definition rowptr_from_rowcnts (nrow : nat) (cnts rp : list nat) (ind : nat) : res (list nat) :=
  do rp <- put rp 0 ind;
  foldM (seq 0 nrow) (fun rp i =>
    do x <- at_ rp i; do c <- at_ cnts i; put rp (i + 1) (x + c)) rp.
(* std::partition_point (C++ standard 27.8.5): undefined unless the elements
   satisfying [p] come first *)
Fixpoint prefix_length {A} (p : A -> bool) (l : list A) : nat :=
  match l with [] => 0 | x :: r => if p x then S (prefix_length p r) else 0 end.
Definition partition_point {A} (p : A -> bool) (l : list A) : res nat :=
  let k := prefix_length p l in
  if forallb (fun x => negb (p x)) (skipn k l) then Ok k else Err UB.
(* std::find_if, std::find: position of the first match, or the length *)
Definition find_if {A} (p : A -> bool) (l : list A) : nat := prefix_length (fun x => negb (p x)) l.
Definition find_ (x : nat) (l : list nat) : nat := find_if (fun y => y =? x) l.

(* :42-118 extract_submatrix; lo = (row_lo, col_lo), up = (row_up, col_up) *)
Definition extract_submatrix (A : csr) (lo up : nat * nat) : res csr :=
  let ind := csr_ind A in
  let '(row_lo, col_lo) := lo in
  let '(row_up, col_up) := up in
  do M_sub <- minus_ row_up row_lo;
  do N_sub <- minus_ col_up col_lo;
  do row_counts <- count_row_nzval_submat A row_lo M_sub (fun j => (col_lo <=? j - ind) && (j - ind <? col_up));
  let nnz_sub := list_sum row_counts in
  let sub := csr_alloc M_sub N_sub nnz_sub ind in
  do sub_rp <- rowptr_from_rowcnts M_sub row_counts (rowptr sub) ind;
  do s <- foldM (seq 0 M_sub) (fun s i =>
    let '(sub_ci, sub_nz) := s in
    do r <- row_range A (row_lo + i);
    let '(Aj_st, Aj_en) := r in
    do rp <- at_ sub_rp i;
    do sub_j_st <- minus_ rp ind;
    do Aci <- slice_ (colind A) Aj_st Aj_en;
    do ioff_st <- partition_point (fun j => j - ind <? col_lo) Aci;
    do ioff_en <- partition_point (fun j => j - ind <? col_up) Aci;
    if ioff_st <=? ioff_en then
      do ci <- slice_ (colind A) (Aj_st + ioff_st) (Aj_st + ioff_en);
      do nz <- slice_ (nzval A) (Aj_st + ioff_st) (Aj_st + ioff_en);
      do sub_ci <- put_all sub_ci sub_j_st ci;
      do sub_nz <- put_all sub_nz sub_j_st nz;
      Ok (sub_ci, sub_nz)
    else Err AssertFail) (colind sub, nzval sub);
  let '(sub_ci, sub_nz) := s in
  do sub_ci <- mapM (fun i => minus_ i col_lo) sub_ci;
  Ok (mk_csr M_sub N_sub ind sub_rp sub_ci sub_nz).

(* :120-201 extract_submatrix_inclrow_exclcol *)
Definition extract_submatrix_inclrow_exclcol (A : csr) (lo up : nat * nat) : res csr :=
  let ind := csr_ind A in
  let '(row_lo, col_lo) := lo in
  let '(row_up, col_up) := up in
  do M_sub <- minus_ row_up row_lo;
  let N_sub := csr_n A in
  do row_counts <- count_row_nzval_submat A row_lo M_sub (fun j => (j - ind <? col_lo) || (col_up <=? j - ind));
  let nnz_sub := list_sum row_counts in
  let sub := csr_alloc M_sub N_sub nnz_sub ind in
  do sub_rp <- rowptr_from_rowcnts M_sub row_counts (rowptr sub) ind;
  do s <- foldM (seq 0 M_sub) (fun s i =>
    let '(sub_ci, sub_nz) := s in
    do r <- row_range A (row_lo + i);
    let '(Aj_st, Aj_en) := r in
    do rp <- at_ sub_rp i;
    do sub_j_st <- minus_ rp ind;
    do Aci <- slice_ (colind A) Aj_st Aj_en;
    do ioff_st <- partition_point (fun j => j - ind <? col_lo) Aci;
    do ioff_en <- partition_point (fun j => j - ind <? col_up) Aci;
    if ioff_st <=? ioff_en then
      do ci1 <- slice_ (colind A) Aj_st (Aj_st + ioff_st);
      do sub_ci <- put_all sub_ci sub_j_st ci1;
      do ci2 <- slice_ (colind A) (Aj_st + ioff_en) Aj_en;
      do sub_ci <- put_all sub_ci (sub_j_st + length ci1) ci2;
      do nz1 <- slice_ (nzval A) Aj_st (Aj_st + ioff_st);
      do sub_nz <- put_all sub_nz sub_j_st nz1;
      do nz2 <- slice_ (nzval A) (Aj_st + ioff_en) Aj_en;
      do sub_nz <- put_all sub_nz (sub_j_st + length nz1) nz2;
      Ok (sub_ci, sub_nz)
    else Err AssertFail) (colind sub, nzval sub);
  let '(sub_ci, sub_nz) := s in
  Ok (mk_csr M_sub N_sub ind sub_rp sub_ci sub_nz).

(* :203-262 extract_upper_triangle *)
Definition extract_upper_triangle (A : csr) : res csr :=
  let ind := csr_ind A in
  let M := csr_m A in
  do s <- foldM (seq 0 M) (fun s i =>
    let '(nnz_ut, rp) := s in
    do r <- row_range A i;
    do l <- slice_ (colind A) (fst r) (snd r);
    let nnz_row := count_if (fun j => i <=? j - ind) l in
    do x <- at_ rp i;
    do rp <- put rp (i + 1) (x + nnz_row);
    Ok (nnz_ut + nnz_row, rp)) (0, ind :: repeat 0 M);
  let '(nnz_ut, Urp) := s in
  let U := csr_alloc M (csr_n A) nnz_ut ind in
  do s <- foldM (seq 0 M) (fun s i =>
    let '(Uci, Unz) := s in
    do r <- row_range A i;
    let '(Aj_st, Aj_en) := r in
    do rp <- at_ Urp i;
    do Uj_st <- minus_ rp ind;
    do Aci <- slice_ (colind A) Aj_st Aj_en;
    let ioff := find_if (fun x => i <=? x - ind) Aci in
    do ci <- slice_ (colind A) (Aj_st + ioff) Aj_en;
    do nz <- slice_ (nzval A) (Aj_st + ioff) Aj_en;
    do Uci <- put_all Uci Uj_st ci;
    do Unz <- put_all Unz Uj_st nz;
    Ok (Uci, Unz)) (colind U, nzval U);
  let '(Uci, Unz) := s in
  Ok (mk_csr M (csr_n A) ind Urp Uci Unz).

(* :264-296 extract_diagonal_elements *)
Definition extract_diagonal_elements (A : csr) : res (list Qc) :=
  foldM (seq 0 (csr_m A)) (fun D i =>
    do r <- row_range A i;
    let '(j_st, j_en) := r in
    do l <- slice_ (colind A) j_st j_en;
    let diag_off := find_ (i + csr_ind A) l in
    if negb (diag_off =? length l) then
      do v <- at_ (nzval A) (j_st + diag_off);
      put D i v
    else put D i 0%Qc) (repeat 0%Qc (csr_m A)).

(* :298-328 trace *)
Definition trace (A : csr) : res Qc :=
  foldM (seq 0 (csr_m A)) (fun tr i =>
    do r <- row_range A i;
    let '(j_st, j_en) := r in
    do l <- slice_ (colind A) j_st j_en;
    let diag_off := find_ (i + csr_ind A) l in
    if negb (diag_off =? length l) then
      do v <- at_ (nzval A) (j_st + diag_off);
      Ok (tr + v)%Qc
    else Ok tr) 0%Qc.

(** ** matrix_types/dist_sparse_matrix.hpp *)

(* dist_sparse_matrix.hpp:93-107 and :109-122: the constructors distributing a
   replicated matrix, as seen by [rank]; [tiles] is the partitioning computed
   (Dist.default_tiles) or validated (Dist.custom_tiles) before *)
Definition dist_of_csr (A : csr) (tiles : list (nat * nat)) (rank : nat) : res dist_csr :=
  match nth_error tiles rank with
  | None => Err UB
  | Some (st, en) =>
    do diag <- extract_submatrix A (st, st) (en, en);
    do off <- extract_submatrix_inclrow_exclcol A (st, st) (en, en);
    do diag <- set_indexing diag 0;
    do off <- set_indexing off 0;
    Ok (mk_dist (csr_n A) tiles diag (Some off))
  end.
Definition dist_of_csr_default (A : csr) (P rank : nat) : res dist_csr :=
  do t <- default_tiles (csr_m A) P; dist_of_csr A t rank.
Definition dist_of_csr_tiles (A : csr) (P rank : nat) (row_tiles : list (nat * nat)) : res dist_csr :=
  do t <- custom_tiles (csr_m A) P row_tiles; dist_of_csr A t rank.

(** ** util/permute.hpp *)

(* :26-50 perm_from_part; std::stable_partition keeps the order in both parts *)
Definition perm_from_part (npart : nat) (part : list nat) : res (list nat * list nat) :=
  let perm := seq 0 (length part) in
  let partptr := repeat 0 (npart + 1) in
  do partptr <- put_at partptr 0 0;
  do s <- foldM (seq 0 (npart - 1)) (fun s p =>
    let '(perm, cur, partptr) := s in
    let rest := skipn cur perm in
    let is_p i := nth i part 0 =? p in
    let front := filter is_p rest in
    let perm := firstn cur perm ++ front ++ filter (fun i => negb (is_p i)) rest in
    let cur := cur + length front in
    do partptr <- put_at partptr (p + 1) cur;
    Ok (perm, cur, partptr)) (perm, 0, partptr);
  let '(perm, _, partptr) := s in
  do partptr <- put_at partptr npart (length perm);
  do _ <- mapM (fun p =>
    do a <- at_ partptr p;
    do b <- at_ partptr (p + 1);
    do l <- slice_ perm a b;
    if existsb (fun i => negb (nth i part 0 =? p)) l then Err Throw else Ok tt) (seq 0 npart);
  Ok (perm, partptr).

(* :52-62 invert_perm *)
Definition invert_perm (perm : list nat) : res (list nat) :=
  foldM (seq 0 (length perm)) (fun iperm i =>
    do p <- at_ perm i; put iperm p i) (repeat 0 (length perm)).

(* :88-93 permute_vector in place; the temporary is value-initialised *)
Inductive permute_direction := Forward | Backward.
Definition permute_vector_inplace (n : nat) (V : list Qc) (P : list nat) (dir : permute_direction)
  : res (list Qc) :=
  let Vp := repeat (Some 0%Qc) n in
  do Vp <- match dir with
           | Forward => permute_forward n V P Vp
           | Backward => permute_backward n V P Vp
           end;
  do vs <- mapM (load Vp) (seq 0 n);
  put_all V 0 vs.

(* :111-118, :213-220: row pointers of the matrix whose row i is row perm[i] *)
Definition permuted_rowptr (A : csr) (perm Aprp : list nat) : res (list nat) :=
  do Aprp <- put Aprp 0 (csr_ind A);
  foldM (seq 0 (csr_m A)) (fun Aprp i =>
    do p <- at_ perm i;
    do r <- row_range A p;
    do j_ext <- minus_ (snd r) (fst r);
    do x <- at_ Aprp i;
    put Aprp (i + 1) (x + j_ext)) Aprp.

(* :95-142 permute_rows; the copy loop is parallel (:120) *)
Definition permute_rows (A : csr) (perm : list nat) : nd csr :=
  let ind := csr_ind A in
  let Ap := csr_alloc (csr_m A) (csr_n A) (length (nzval A)) ind in
  any Aprp <- det (permuted_rowptr A perm (rowptr Ap));
  any s <- parallel_for (seq 0 (csr_m A)) (fun s i =>
    let '(Apci, Apnz) := s in
    do p <- at_ perm i;
    do r <- row_range A p;
    let '(A_j_st, A_j_en) := r in
    do rp <- at_ Aprp i;
    do Ap_j_st <- minus_ rp ind;
    do ci <- slice_ (colind A) A_j_st A_j_en;
    do nz <- slice_ (nzval A) A_j_st A_j_en;
    do Apci <- put_all Apci Ap_j_st ci;
    do Apnz <- put_all Apnz Ap_j_st nz;
    Ok (Apci, Apnz)) (colind Ap, nzval Ap);
  let '(Apci, Apnz) := s in
  ret (mk_csr (csr_m A) (csr_n A) ind Aprp Apci Apnz).

(* a sequential fold of calls with several outcomes *)
Fixpoint foldND {I S} (l : list I) (f : S -> I -> nd S) (s : S) : nd S :=
  match l with [] => ret s | x :: r => any s' <- f s x; foldND r f s' end.
(* as Mem.parallel_for, for iterations with several outcomes *)
Definition parallel_nd {I S} (its : list I) (f : S -> I -> nd S) (s : S) : nd S := fun r =>
  exists order, Permutation its order /\ foldND order f s r.

(* omp_get_thread_num() with T threads *)
Definition any_thread (T : nat) : nd nat := fun r => exists t, t < T /\ r = Ok t.

(* :164-191 and :222-254, one iteration: row [i] of the result is row [p] of A
   with its columns permuted; it is executed by any of the threads, each of
   which keeps its own index vector [ind_th[t]] from one iteration to the next *)
Definition permute_cols_iter (A : csr) (iperm Aprp : list nat) (row_of : nat -> res nat)
  (s : list (list nat) * list nat * list Qc) (i : nat) : nd (list (list nat) * list nat * list Qc) :=
  let ind := csr_ind A in
  let '(ind_th, Apci, Apnz) := s in
  any t <- any_thread (length ind_th);
  any p <- det (row_of i);
  any r <- det (row_range A p);
  let '(A_j_st, A_j_en) := r in
  any j_ext <- det (minus_ A_j_en A_j_st);
  any rp <- det (at_ Aprp i);
  any Ap_j_st <- det (minus_ rp ind);
  any iv <- det (at_ ind_th t);
  let iv := if negb (length iv =? j_ext) then seq 0 j_ext else iv in
  (* iperm[Aci_st[ii] - indexing] for all ii the sort may compare *)
  any keys <- det (mapM (fun ii =>
    do c <- at_ (colind A) (A_j_st + ii);
    do c' <- minus_ c ind;
    at_ iperm c') (seq 0 j_ext));
  any iv <- std_sort (fun ii jj => nth ii keys 0 <? nth jj keys 0) iv;
  any s' <- det (foldM (seq 0 j_ext) (fun s' j =>
    let '(Apci, Apnz) := s' in
    do jj <- at_ iv j;
    do c <- at_ (colind A) (A_j_st + jj);
    do c' <- minus_ c ind;
    do ic <- at_ iperm c';
    do Apci <- put Apci (Ap_j_st + j) (ic + ind);
    do v <- at_ (nzval A) (A_j_st + jj);
    do Apnz <- put Apnz (Ap_j_st + j) v;
    Ok (Apci, Apnz)) (Apci, Apnz));
  any ind_th <- det (put ind_th t iv);
  let '(Apci, Apnz) := s' in
  ret (ind_th, Apci, Apnz).

(* :144-195 permute_cols with [T] threads *)
Definition permute_cols (T : nat) (A : csr) (perm : list nat) : nd csr :=
  let Ap := csr_alloc (csr_m A) (csr_n A) (length (nzval A)) (csr_ind A) in
  any iperm <- det (invert_perm perm);
  any Aprp <- det (put_all (rowptr Ap) 0 (rowptr A));
  any s <- parallel_nd (seq 0 (csr_m A)) (permute_cols_iter A iperm (rowptr A) (fun i => Ok i))
             (repeat [] T, colind Ap, nzval Ap);
  let '(_, Apci, Apnz) := s in
  ret (mk_csr (csr_m A) (csr_n A) (csr_ind A) Aprp Apci Apnz).

(* :197-257 permute_rows_cols with [T] threads *)
Definition permute_rows_cols (T : nat) (A : csr) (rperm cperm : list nat) : nd csr :=
  let Ap := csr_alloc (csr_m A) (csr_n A) (length (nzval A)) (csr_ind A) in
  any icperm <- det (invert_perm cperm);
  any Aprp <- det (permuted_rowptr A rperm (rowptr Ap));
  any s <- parallel_nd (seq 0 (csr_m A)) (permute_cols_iter A icperm Aprp (at_ rperm))
             (repeat [] T, colind Ap, nzval Ap);
  let '(_, Apci, Apnz) := s in
  ret (mk_csr (csr_m A) (csr_n A) (csr_ind A) Aprp Apci Apnz).

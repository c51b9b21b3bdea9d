(** Theorems C38-C40: format conversions, extraction and permutation of sparse
    matrices, and the distributed product of a replicated matrix (C42). *)
From Coq Require Import QArith Qcanon Sorting.Permutation Sorting.Sorted.
From Verif Require Import Base Sums Nondet Ham Dist DistProofs Mem Spmv SparseSpec CsrView SpmvSpec Sparse ConvSpec SparseGlue SparseProofs6 SparseProofs7.
Local Open Scope nat_scope.

(** * C38 *)
(* csr_of_coo, rows sorted and none of them empty *)
Theorem C38_coo_to_csr_partial : forall A,
  coo_wf A -> StronglySorted le (coo_row A) ->
  (forall i, i < coo_m A -> exists j, coo_stored A i j = true) ->
  exists B, csr_of_coo A = Ok B /\ csr_wf B /\ csr_m B = coo_m A /\ csr_n B = coo_n A /\ csr_ind B = coo_ind A /\
    length (nzval B) = length (coo_val A) /\
    forall i j, i < coo_m A -> csr_entry B i j = coo_entry A i j.
Proof. exact c38_coo_to_csr. Qed.
Print Assumptions C38_coo_to_csr_partial.

(* unsorted rows are rejected *)
Theorem C38_coo_to_csr_unsorted : forall A,
  ~ StronglySorted le (coo_row A) -> csr_of_coo A = Err Throw.
Proof. exact c38_unsorted. Qed.
Print Assumptions C38_coo_to_csr_unsorted.

(* an empty row makes the conversion wrong: its successors' elements are lost or misplaced *)
Theorem C38_coo_to_csr_empty_row_refuted : exists A B, coo_wf A /\ StronglySorted le (coo_row A) /\ csr_of_coo A = Ok B /\
  exists i j, i < coo_m A /\ j < coo_n A /\ csr_entry B i j <> coo_entry A i j.
Proof. exact c38_empty_row_ref. Qed.
Print Assumptions C38_coo_to_csr_empty_row_refuted.

(* sorting a coordinate matrix keeps its stored elements and orders them by row, then column *)
Theorem C38_sort_by_row : forall A,
  coo_wf A ->
  always (sort_by_row_index A) (fun B => coo_wf B /\ coo_m B = coo_m A /\ coo_n B = coo_n A /\ coo_ind B = coo_ind A /\
    Permutation (coo_triples A) (coo_triples B) /\ StronglySorted lex_le (combine (coo_row B) (coo_col B))).
Proof. exact sort_rows_ok. Qed.
Print Assumptions C38_sort_by_row.

(* the same by column, then row *)
Theorem C38_sort_by_col : forall A,
  coo_wf A ->
  always (sort_by_col_index A) (fun B => coo_wf B /\ coo_m B = coo_m A /\ coo_n B = coo_n A /\ coo_ind B = coo_ind A /\
    Permutation (coo_triples A) (coo_triples B) /\ StronglySorted lex_le (combine (coo_col B) (coo_row B))).
Proof. exact sort_cols_ok. Qed.
Print Assumptions C38_sort_by_col.

(* any order of stored elements: sort, then convert *)
Theorem C38_sort_then_csr : forall A,
  coo_wf A -> (forall i, i < coo_m A -> exists j, coo_stored A i j = true) ->
  always (any SA <- sort_by_row_index A; Nondet.det (csr_of_coo SA)) (fun B => csr_wf B /\ csr_m B = coo_m A /\ csr_n B = coo_n A /\ csr_ind B = coo_ind A /\
    (forall i, i < coo_m A -> ordered_line (csr_line B i)) /\
    forall i j, i < coo_m A -> csr_entry B i j = coo_entry A i j).
Proof. exact sort_then_csr. Qed.
Print Assumptions C38_sort_then_csr.

(* compressed rows to coordinates *)
Theorem C38_csr_to_coo : forall A,
  csr_wf A -> exists B, coo_of_csr A = Ok B /\ coo_wf B /\
  coo_m B = csr_m A /\ coo_n B = csr_n A /\ coo_ind B = csr_ind A /\ length (coo_val B) = length (nzval A) /\
  StronglySorted le (coo_row B) /\
  forall i j, i < csr_m A -> coo_entry B i j = csr_entry A i j.
Proof. exact c38_csr_to_coo. Qed.
Print Assumptions C38_csr_to_coo.

(* coordinates to compressed columns, square matrices without empty column *)
Theorem C38_coo_to_csc_partial : forall A,
  coo_wf A -> coo_m A = coo_n A -> StronglySorted le (coo_col A) ->
  (forall j, j < coo_n A -> exists i, coo_stored A i j = true) ->
  exists B, csc_of_coo A = Ok B /\ csc_wf B /\ csc_m B = coo_m A /\ csc_n B = coo_n A /\ csc_ind B = coo_ind A /\
    forall i j, j < coo_n A -> csc_entry B i j = coo_entry A i j.
Proof. exact c38_coo_to_csc. Qed.
Print Assumptions C38_coo_to_csc_partial.

(* unsorted columns are rejected *)
Theorem C38_coo_to_csc_unsorted : forall A,
  ~ StronglySorted le (coo_col A) -> csc_of_coo A = Err Throw.
Proof. exact c38_unsorted_csc. Qed.
Print Assumptions C38_coo_to_csc_unsorted.

(* rectangular matrices: with more rows than columns the conversion throws, with fewer it returns an ill-formed matrix *)
Theorem C38_coo_to_csc_rectangular_refuted : (exists A, coo_wf A /\ StronglySorted le (coo_col A) /\ (forall j, j < coo_n A -> exists i, coo_stored A i j = true) /\
    csc_of_coo A = Err Throw) /\
  (exists A B, coo_wf A /\ StronglySorted le (coo_col A) /\ (forall j, j < coo_n A -> exists i, coo_stored A i j = true) /\
    csc_of_coo A = Ok B /\ ~ csc_wf B).
Proof. exact c38_rect_ref. Qed.
Print Assumptions C38_coo_to_csc_rectangular_refuted.

(* compressed columns to compressed rows; the columns of every row come out ordered *)
Theorem C38_csc_to_csr : forall A,
  csc_wf A -> exists B, csr_of_csc A = Ok B /\ csr_wf B /\
  csr_m B = csc_m A /\ csr_n B = csc_n A /\ csr_ind B = csc_ind A /\
  (forall i, i < csc_m A -> ordered_line (csr_line B i)) /\
  forall i j, i < csc_m A -> j < csc_n A -> csr_entry B i j = csc_entry A i j.
Proof. exact c38_csc_to_csr. Qed.
Print Assumptions C38_csc_to_csr.

(* changing the index base *)
Theorem C38_set_indexing : forall A idx,
  csr_wf A -> exists B, set_indexing A idx = Ok B /\ csr_wf B /\ csr_ind B = idx /\
  csr_m B = csr_m A /\ csr_n B = csr_n A /\ forall i, i < csr_m A -> csr_line B i = csr_line A i.
Proof. exact c38_set_indexing. Qed.
Print Assumptions C38_set_indexing.

(* dense copy: stored positions are overwritten, the others keep what the array held; a short leading dimension is rejected *)
Theorem C38_csr_to_dense : forall A D LD,
  csr_wf A ->
  (LD < csr_m A -> dense_of_csr A D LD = Err Throw) /\
  (csr_m A <= LD -> csr_n A * LD <= length D -> (forall i, i < csr_m A -> NoDup (map fst (csr_line A i))) ->
   exists D', dense_of_csr A D LD = Ok D' /\ length D' = length D /\
    (forall i j, i < csr_m A -> j < csr_n A ->
       nth (i + j * LD) D' 0%Qc = if stored (csr_line A i) j then csr_entry A i j else nth (i + j * LD) D 0%Qc) /\
    (forall p, (forall i j, i < csr_m A -> j < csr_n A -> p <> i + j * LD) -> nth p D' 0%Qc = nth p D 0%Qc)).
Proof. exact c38_dense. Qed.
Print Assumptions C38_csr_to_dense.

(* into a zeroed array this is the matrix *)
Theorem C38_csr_to_dense_zeroed : forall A LD,
  csr_wf A -> csr_m A <= LD -> (forall i, i < csr_m A -> NoDup (map fst (csr_line A i))) ->
  exists D', dense_of_csr A (repeat 0%Qc (csr_n A * LD)) LD = Ok D' /\
    forall i j, i < csr_m A -> j < csr_n A -> nth (i + j * LD) D' 0%Qc = csr_entry A i j.
Proof. exact c38_dense_zero. Qed.
Print Assumptions C38_csr_to_dense_zeroed.

(* dense copy of a coordinate matrix counted from 0 *)
Theorem C38_coo_to_dense_partial : forall A D LD,
  coo_wf A -> coo_ind A = 0 -> coo_m A <= LD -> coo_n A * LD <= length D ->
  NoDup (combine (coo_row A) (coo_col A)) ->
  always (dense_of_coo A D LD) (fun D' => length D' = length D /\
    (forall i j, i < coo_m A -> j < coo_n A ->
       nth (i + j * LD) D' 0%Qc = if existsb (fun t => (fst (fst t) =? i) && (snd (fst t) =? j)) (coo_triples A) then coo_entry A i j else nth (i + j * LD) D 0%Qc) /\
    (forall p, (forall i j, i < coo_m A -> j < coo_n A -> p <> i + j * LD) -> nth p D' 0%Qc = nth p D 0%Qc)).
Proof. exact dense_of_coo_ok. Qed.
Print Assumptions C38_coo_to_dense_partial.

(* counted from 1 the elements land one row and column off, or outside the array *)
Theorem C38_coo_to_dense_index_base_refuted : exists A, coo_wf A /\ coo_ind A = 1 /\ coo_m A = 2 /\ coo_n A = 2 /\
  (exists D', dense_of_coo A (repeat 0%Qc 4) 2 (Ok D') /\ nth 0 D' 0%Qc <> coo_entry A 0 0) /\
  (exists A', coo_wf A' /\ coo_ind A' = 1 /\ coo_m A' = 2 /\ coo_n A' = 2 /\ dense_of_coo A' (repeat 0%Qc 4) 2 (Err UB)).
Proof. exact c38_coo_dense_ref. Qed.
Print Assumptions C38_coo_to_dense_index_base_refuted.

(* expanding a triangle with a full diagonal gives the symmetric matrix *)
Theorem C38_expand_triangle_partial : forall A,
  coo_wf A -> coo_m A = coo_n A -> (coo_upper A \/ coo_lower A) -> ~ (coo_upper A /\ coo_lower A) ->
  diagonal_count A = coo_n A ->
  exists B, expand_from_triangle A = Ok B /\ coo_wf B /\ coo_m B = coo_m A /\ coo_n B = coo_n A /\ coo_ind B = coo_ind A /\
    forall i j, coo_entry B i j = if i =? j then coo_entry A i j else (coo_entry A i j + coo_entry A j i)%Qc.
Proof. exact c38_expand. Qed.
Print Assumptions C38_expand_triangle_partial.

(* a matrix with elements on both sides of the diagonal, or on neither, is left alone *)
Theorem C38_expand_unchanged : forall A,
  coo_wf A -> (coo_upper A <-> coo_lower A) -> expand_from_triangle A = Ok A.
Proof. exact c38_expand_unchanged. Qed.
Print Assumptions C38_expand_unchanged.

(* with a missing (or repeated) diagonal element the expansion fails *)
Theorem C38_expand_incomplete_diagonal_refuted : forall A,
  coo_wf A -> (coo_upper A \/ coo_lower A) -> ~ (coo_upper A /\ coo_lower A) ->
  diagonal_count A <> coo_n A -> exists e, expand_from_triangle A = Err e.
Proof. exact c38_expand_fails. Qed.
Print Assumptions C38_expand_incomplete_diagonal_refuted.

Example C38_ex : csr_wf ex_csr /\ (forall i, i < csr_m ex_csr -> ordered_line (csr_line ex_csr i)) /\
  (forall i, i < csr_m ex_csr -> NoDup (map fst (csr_line ex_csr i))) /\
  is_perm (csr_m ex_csr) [2; 0; 1] /\ csr_entry ex_csr 2 0 = inject 4.
Proof. exact ex_csr_ok. Qed.
Example C38_coo_ex : coo_wf ex_coo /\ StronglySorted le (coo_row ex_coo) /\ coo_m ex_coo = coo_n ex_coo /\
  (forall i, i < coo_m ex_coo -> exists j, coo_stored ex_coo i j = true) /\
  (forall j, j < coo_n ex_coo -> exists i, coo_stored ex_coo i j = true) /\
  coo_upper ex_coo /\ ~ coo_lower ex_coo /\ diagonal_count ex_coo = coo_n ex_coo.
Proof. exact ex_coo_ok. Qed.

(** * C39 *)
Theorem C39_submatrix : forall A lo up,
  csr_wf A -> fst lo <= fst up <= csr_m A -> snd lo <= snd up <= csr_n A ->
  (forall i, fst lo <= i < fst up -> ordered_line (csr_line A i)) ->
  exists B, extract_submatrix A lo up = Ok B /\ csr_wf B /\ csr_m B = fst up - fst lo /\ csr_n B = snd up - snd lo /\ csr_ind B = csr_ind A /\
    (forall i, i < fst up - fst lo -> ordered_line (csr_line B i)) /\
    forall i j, i < fst up - fst lo -> j < snd up - snd lo -> csr_entry B i j = csr_entry A (fst lo + i) (snd lo + j).
Proof. exact c39_sub. Qed.
Print Assumptions C39_submatrix.

(* the rows of the block without the column range *)
Theorem C39_excluded_columns : forall A lo up,
  csr_wf A -> fst lo <= fst up <= csr_m A -> snd lo <= snd up ->
  (forall i, fst lo <= i < fst up -> ordered_line (csr_line A i)) ->
  exists B, extract_submatrix_inclrow_exclcol A lo up = Ok B /\ csr_wf B /\ csr_m B = fst up - fst lo /\ csr_n B = csr_n A /\ csr_ind B = csr_ind A /\
    (forall i, i < fst up - fst lo -> ordered_line (csr_line B i)) /\
    forall i j, i < fst up - fst lo -> csr_entry B i j = if (snd lo <=? j) && (j <? snd up) then 0%Qc else csr_entry A (fst lo + i) j.
Proof. exact c39_excl. Qed.
Print Assumptions C39_excluded_columns.

Theorem C39_upper_triangle : forall A,
  csr_wf A -> (forall i, i < csr_m A -> ordered_line (csr_line A i)) ->
  exists B, extract_upper_triangle A = Ok B /\ csr_wf B /\ csr_m B = csr_m A /\ csr_n B = csr_n A /\ csr_ind B = csr_ind A /\
    forall i j, i < csr_m A -> csr_entry B i j = if i <=? j then csr_entry A i j else 0%Qc.
Proof. exact c39_upper. Qed.
Print Assumptions C39_upper_triangle.

Theorem C39_diagonal_and_trace : forall A,
  csr_wf A -> (forall i, i < csr_m A -> NoDup (map fst (csr_line A i))) ->
  extract_diagonal_elements A = Ok (map (fun i => csr_entry A i i) (seq 0 (csr_m A))) /\
  trace A = Ok (sum (seq 0 (csr_m A)) (fun i => csr_entry A i i)).
Proof. exact c39_diag. Qed.
Print Assumptions C39_diagonal_and_trace.

(* the pieces stored by a rank make up its rows of the matrix *)
Theorem C39_distribute_default : forall A P,
  csr_wf A -> csr_n A = csr_m A -> 0 < P -> (forall i, i < csr_m A -> ordered_line (csr_line A i)) ->
  exists tiles, default_tiles (csr_m A) P = Ok tiles /\ length tiles = P /\
   forall r lo hi, nth_error tiles r = Some (lo, hi) ->
    exists D, dist_of_csr_default A P r = Ok D /\ dist_part (csr_m A) tiles r D /\
      forall i j, i < hi - lo -> j < csr_m A -> dist_entry D lo hi i j = csr_entry A (lo + i) j.
Proof. exact c39_distribute. Qed.
Print Assumptions C39_distribute_default.

Theorem C39_distribute_custom : forall A P tiles,
  csr_wf A -> csr_n A = csr_m A -> 0 < P -> length tiles = P -> tiling 0 (csr_m A) tiles ->
  (forall i, i < csr_m A -> ordered_line (csr_line A i)) ->
  forall r lo hi, nth_error tiles r = Some (lo, hi) ->
    exists D, dist_of_csr_tiles A P r tiles = Ok D /\ dist_part (csr_m A) tiles r D /\
      forall i j, i < hi - lo -> j < csr_m A -> dist_entry D lo hi i j = csr_entry A (lo + i) j.
Proof. exact c39_distribute_tiles. Qed.
Print Assumptions C39_distribute_custom.

(* replicated matrix, distributed over P ranks and multiplied *)
Theorem C42_replicated_product : forall dbg A P v alpha' beta',
  csr_wf A -> csr_n A = csr_m A -> 0 < P ->
  (forall i, i < csr_m A -> ordered_line (csr_line A i)) -> (Z.of_nat (csr_m A * P) < 2 ^ 31)%Z ->
  exists tiles As infos, default_tiles (csr_m A) P = Ok tiles /\ length As = P /\
    (forall r, r < P -> exists D, dist_of_csr_default A P r = Ok D /\ nth_error As r = Some D) /\
    generate_spmv_comm_info dbg As = Ok infos /\
    forall Vs AVs, length Vs = P -> length AVs = P ->
    (forall r lo hi, nth_error tiles r = Some (lo, hi) ->
       hi - lo <= length (nth r Vs []) /\ hi - lo <= length (nth r AVs []) /\
       forall p, p < hi - lo -> nth p (nth r Vs []) 0%Qc = v (lo + p)) ->
    always (pgespmv alpha' beta' (combine (combine (combine As Vs) AVs) infos))
      (fun out => forall r lo hi, nth_error tiles r = Some (lo, hi) ->
          forall i, i < hi - lo -> nth i (nth r out []) 0%Qc =
            (alpha' * sum (seq 0 (csr_m A)) (fun j => csr_entry A (lo + i)%nat j * v j) + beta' * nth i (nth r AVs []) 0%Qc)%Qc).
Proof. exact c42_replicated. Qed.
Print Assumptions C42_replicated_product.

Example C39_ex : exists B, extract_submatrix ex_csr (1, 1) (3, 3) = Ok B /\ csr_entry B 1 1 = inject 5 /\
  trace ex_csr = Ok (inject 9).
Proof. exact c39_ex. Qed.

(** * C40 *)
Theorem C40_permute_rows : forall A p,
  csr_wf A -> is_perm (csr_m A) p ->
  always (permute_rows A p) (fun B => csr_wf B /\ csr_m B = csr_m A /\ csr_n B = csr_n A /\ csr_ind B = csr_ind A /\
    forall i, i < csr_m A -> csr_line B i = csr_line A (nth i p 0)).
Proof. exact c40_rows. Qed.
Print Assumptions C40_permute_rows.

(* T threads; whatever thread executes a row, in whatever order *)
Theorem C40_permute_cols : forall T A p,
  csr_wf A -> 0 < T -> is_perm (csr_n A) p ->
  always (permute_cols T A p) (fun B => csr_wf B /\ csr_m B = csr_m A /\ csr_n B = csr_n A /\ csr_ind B = csr_ind A /\
    (forall i, i < csr_m A -> length (csr_line B i) = length (csr_line A i) /\ ordered_line (csr_line B i)) /\
    forall i j, i < csr_m A -> j < csr_n A -> csr_entry B i j = csr_entry A i (nth j p 0)).
Proof. exact c40_cols. Qed.
Print Assumptions C40_permute_cols.

Theorem C40_permute_rows_cols : forall T A rp cp,
  csr_wf A -> 0 < T -> is_perm (csr_m A) rp -> is_perm (csr_n A) cp ->
  always (permute_rows_cols T A rp cp) (fun B => csr_wf B /\ csr_m B = csr_m A /\ csr_n B = csr_n A /\ csr_ind B = csr_ind A /\
    (forall i, i < csr_m A -> length (csr_line B i) = length (csr_line A (nth i rp 0)) /\ ordered_line (csr_line B i)) /\
    forall i j, i < csr_m A -> j < csr_n A -> csr_entry B i j = csr_entry A (nth i rp 0) (nth j cp 0)).
Proof. exact c40_rows_cols. Qed.
Print Assumptions C40_permute_rows_cols.

(* permuting back with the inverse permutations *)
Theorem C40_round_trip : forall T A rp cp rq cq,
  csr_wf A -> 0 < T -> is_perm (csr_m A) rp -> is_perm (csr_n A) cp ->
  invert_perm rp = Ok rq -> invert_perm cp = Ok cq ->
  always (any B <- permute_rows_cols T A rp cp; permute_rows_cols T B rq cq) (fun C => csr_wf C /\
    csr_m C = csr_m A /\ csr_n C = csr_n A /\
    forall i j, i < csr_m A -> j < csr_n A -> csr_entry C i j = csr_entry A i j).
Proof. exact c40_round_trip. Qed.
Print Assumptions C40_round_trip.

Theorem C40_invert_perm : forall n p,
  is_perm n p -> exists q, invert_perm p = Ok q /\ is_perm n q /\
  (forall i, i < n -> nth (nth i p 0) q 0 = i) /\ (forall j, j < n -> nth (nth j q 0) p 0 = j).
Proof. exact invert_perm_ok. Qed.
Print Assumptions C40_invert_perm.

Theorem C40_vector_forward : forall n V P,
  is_perm n P -> n <= length V ->
  exists V', permute_vector_inplace n V P Forward = Ok V' /\ length V' = length V /\
    (forall i, i < n -> nth (nth i P 0) V' 0%Qc = nth i V 0%Qc) /\ (forall i, n <= i -> nth i V' 0%Qc = nth i V 0%Qc).
Proof. exact inplace_forward. Qed.
Print Assumptions C40_vector_forward.

Theorem C40_vector_backward : forall n V P,
  is_perm n P -> n <= length V ->
  exists V', permute_vector_inplace n V P Backward = Ok V' /\ length V' = length V /\
    (forall i, i < n -> nth i V' 0%Qc = nth (nth i P 0) V 0%Qc) /\ (forall i, n <= i -> nth i V' 0%Qc = nth i V 0%Qc).
Proof. exact inplace_backward. Qed.
Print Assumptions C40_vector_backward.

Theorem C40_vector_round_trip : forall n V P d d',
  is_perm n P -> n <= length V -> d <> d' ->
  (do V' <- permute_vector_inplace n V P d; permute_vector_inplace n V' P d') = Ok V.
Proof. exact inplace_round_trip. Qed.
Print Assumptions C40_vector_round_trip.

(* the permutation made from a partition lists the members of part 0, 1, ... in order *)
Theorem C40_perm_from_part : forall npart part,
  0 < npart ->
  ((forall c, In c part -> c < npart) ->
    perm_from_part npart part = Ok (concat (map (members part) (seq 0 npart)), prefix_sums 0 (map (fun p => length (members part p)) (seq 0 npart))) /\
    is_perm (length part) (concat (map (members part) (seq 0 npart)))) /\
  (~ (forall c, In c part -> c < npart) -> perm_from_part npart part = Err Throw).
Proof. exact c40_part. Qed.
Print Assumptions C40_perm_from_part.

Example C40_ex : is_perm 3 [2; 0; 1] /\ invert_perm [2; 0; 1] = Ok [1; 2; 0] /\
  perm_from_part 2 [1; 0; 1] = Ok ([1; 0; 2], [0; 1; 3]) /\ perm_from_part 2 [1; 2; 1] = Err Throw.
Proof. split; [exact (proj1 (proj2 (proj2 (proj2 ex_csr_ok))))|]. repeat split; vm_compute; reflexivity. Qed.

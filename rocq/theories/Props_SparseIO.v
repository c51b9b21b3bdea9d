(** Theorems C44: sparse matrix files. *)
From Coq Require Import Ascii String QArith Qcanon ZArith NArith Sorting.Permutation Sorting.Sorted.
From Verif Require Import Base Sums Nondet Ham Spmv SparseSpec CsrView SpmvSpec DistProofs Sparse ConvSpec Text IO IOSpec IOGlue SparseIO SparseIOSpec
  SparseIOProofs SparseIOProofs2 SparseIOProofs3 SpmvGlue SparseGlue SparseIOGlue.
Local Open Scope nat_scope.

(** * MatrixMarket *)
(* a MatrixMarket file is read as the elements of its lines; of a symmetric file both
   triangles; indices count from 0 exactly if some index is 0 *)
Theorem C44_read_mm : forall rnd file sym m n es,
  mm_file rnd (lines file) sym m n es -> (sym = true -> m = n) ->
  always (read_mm_coo rnd file) (fun A => coo_m A = m /\ coo_n A = n /\ coo_ind A = base_of (mirrored sym es) /\
    combine (combine (coo_row A) (coo_col A)) (coo_val A) = mirrored sym es).
Proof. exact c44_read. Qed.
Print Assumptions C44_read_mm.
Example C44_read_mm_ex : exists file, mm_file exact (lines file) true 2 2 [(1, 1, 1%Qc); (2, 1, 1%Qc)].
Proof. exact c44_ex_symm. Qed.
(* a file whose size line has not three fields is rejected *)
Theorem C44_size_line : forall rnd file scheme banner comments size body A, lines file = banner :: comments ++ size :: body ->
  (forall l, In l comments -> exists r, l = "%"%char :: r) -> (forall r, size <> "%"%char :: r) ->
  List.length (fields size) <> 3 -> ~ read_mm_as_coo rnd file scheme (Ok A).
Proof. exact c44_size. Qed.
Print Assumptions C44_size_line.
Example C44_size_line_ex : lines (file_of ["%%MatrixMarket matrix coordinate real general"; "2 2"; "1 1"]%string) =
    lit "%%MatrixMarket matrix coordinate real general" :: [] ++ lit "2 2" :: [lit "1 1"] /\ List.length (fields (lit "2 2")) <> 3.
Proof. exact c44_size_ex. Qed.

(* a compressed-row matrix written with 1-based indices, or with 0-based ones when
   row or column 0 has an element, is read back with the same entries *)
Theorem C44_mm_round_trip_partial : forall show rnd A b,
  csr_wf A -> (N.of_nat (csr_m A) + 1 < 2 ^ 63)%N -> (N.of_nat (csr_n A) + 1 < 2 ^ 63)%N ->
  (N.of_nat (List.length (nzval A)) < 2 ^ 63)%N -> (forall v, In v (nzval A) -> reads_back show rnd v) ->
  b = 1 \/ nzval A = [] /\ b = 0 \/ (b = 0 /\ exists i j, i < csr_m A /\ stored (csr_line A i) j = true /\ (i = 0 \/ j = 0)) ->
  exists file, write_mm show A false (Some b) = Ok file /\
    always (read_mm_coo rnd file) (fun C => coo_wf C /\ coo_m C = csr_m A /\ coo_n C = csr_n A /\
      (nzval A <> [] -> coo_ind C = b) /\ forall i j, i < csr_m A -> coo_entry C i j = csr_entry A i j).
Proof. exact c44_mm. Qed.
Print Assumptions C44_mm_round_trip_partial.

(* and as a compressed-row matrix if every row has an element *)
Theorem C44_mm_csr_round_trip_partial : forall show rnd A b,
  csr_wf A -> (N.of_nat (csr_m A) + 1 < 2 ^ 63)%N -> (N.of_nat (csr_n A) + 1 < 2 ^ 63)%N ->
  (N.of_nat (List.length (nzval A)) < 2 ^ 63)%N -> (forall v, In v (nzval A) -> reads_back show rnd v) ->
  b = 1 \/ nzval A = [] /\ b = 0 \/ (b = 0 /\ exists i j, i < csr_m A /\ stored (csr_line A i) j = true /\ (i = 0 \/ j = 0)) ->
  (forall i, i < csr_m A -> exists j, stored (csr_line A i) j = true) ->
  exists file, write_mm show A false (Some b) = Ok file /\
    always (read_mm_csr rnd file) (fun C => csr_wf C /\ csr_m C = csr_m A /\ csr_n C = csr_n A /\
      (forall i, i < csr_m A -> ordered_line (csr_line C i)) /\ forall i j, i < csr_m A -> csr_entry C i j = csr_entry A i j).
Proof. exact c44_mm_csr. Qed.
Print Assumptions C44_mm_csr_round_trip_partial.

(* the default index base is 0 for 0-based matrices; writing one triangle only is not offered *)
Theorem C44_mm_default : forall show A, csr_ind A = 0 -> write_mm show A false None = write_mm show A false (Some 0).
Proof. exact c44_default. Qed.
Print Assumptions C44_mm_default.
Theorem C44_mm_symmetric_throws : forall show A fi, write_mm show A true fi = Err Throw.
Proof. exact c44_symm. Qed.
Print Assumptions C44_mm_symmetric_throws.

(* the ranks of a distributed matrix together write the whole matrix *)
Theorem C44_dist_mm_round_trip_partial : forall show rnd M b tiles parts,
  tiling 0 M tiles -> List.length parts = List.length tiles ->
  (forall r A, nth_error parts r = Some A -> dist_part M tiles r A /\ csr_ind (d_diag A) = 0) ->
  (N.of_nat M + 1 < 2 ^ 63)%N -> (N.of_nat (list_sum (map local_nnz parts)) < 2 ^ 63)%N ->
  (forall A v, In A parts -> In v (nzval (d_diag A)) \/ (exists B, d_off A = Some B /\ In v (nzval B)) -> reads_back show rnd v) ->
  (b = 1 \/ list_sum (map local_nnz parts) = 0 /\ b = 0 \/
    b = 0 /\ exists r A lo hi i j, nth_error parts r = Some A /\ nth_error tiles r = Some (lo, hi) /\ i < hi - lo /\
      dist_stored A lo i j = true /\ (lo + i = 0 \/ j = 0)) ->
  exists file, write_dist_mm show M M parts (Some b) = Ok file /\
    always (read_mm_coo rnd file) (fun C => coo_wf C /\ coo_m C = M /\ coo_n C = M /\
      forall r A lo hi i j, nth_error parts r = Some A -> nth_error tiles r = Some (lo, hi) -> i < hi - lo -> j < M ->
        coo_entry C (lo + i) j = dist_entry A lo hi i j).
Proof. exact c44_dist_thm. Qed.
Print Assumptions C44_dist_mm_round_trip_partial.

(** what does not hold *)
(* a 0-based matrix with row 0 and column 0 empty is read back shifted *)
Theorem C44_mm_base_refuted : forall show rnd, reads_back show rnd 1%Qc ->
  exists A file, csr_wf A /\ csr_entry A 1 1 = 1%Qc /\ csr_entry A 0 0 = 0%Qc /\ write_mm show A false None = Ok file /\
    always (read_mm_coo rnd file) (fun C => coo_entry C 1 1 = 0%Qc /\ coo_entry C 0 0 = 1%Qc).
Proof. exact c44_base_ref. Qed.
Print Assumptions C44_mm_base_refuted.
(* by default a 1-based matrix is written with 0-based rows and 1-based columns *)
Theorem C44_mm_one_based_refuted : forall show rnd, reads_back show rnd 1%Qc ->
  exists A file, csr_wf A /\ csr_ind A = 1 /\ write_mm show A false None = Ok file /\
    always (read_mm_coo rnd file) (fun C => ~ coo_wf C /\ csr_entry A 0 0 = 1%Qc /\ coo_entry C 0 0 = 0%Qc /\
      csr_entry A 0 1 = 0%Qc /\ coo_entry C 0 1 = 1%Qc).
Proof. exact c44_onebased_ref. Qed.
Print Assumptions C44_mm_one_based_refuted.
(* with an empty row, reading as a compressed-row matrix moves elements *)
Theorem C44_mm_empty_row_refuted : forall show rnd, reads_back show rnd 1%Qc ->
  exists A file, csr_wf A /\ csr_entry A 2 0 = 0%Qc /\ csr_entry A 2 2 = 1%Qc /\ write_mm show A false (Some 0) = Ok file /\
    always (read_mm_csr rnd file) (fun C => csr_m C = 3 /\ csr_entry C 2 0 = 1%Qc).
Proof. exact c44_gap_ref. Qed.
Print Assumptions C44_mm_empty_row_refuted.
Example C44_reads_back_ex : reads_back show1 exact 1%Qc.
Proof. exact c44_reads. Qed.

(** * binary triplets *)
(* elements on both sides of the diagonal (or none off it): the same stored
   elements come back, ordered by row, then column *)
Theorem C44_binary_round_trip_partial : forall enc dec w A,
  coo_wf A -> coo_fits w A -> doubles_ok enc dec (coo_val A) -> base_visible A -> (coo_upper A <-> coo_lower A) ->
  always (read_binary_as_coo dec w (write_binary_coo enc w A)) (fun B =>
    coo_wf B /\ coo_m B = coo_m A /\ coo_n B = coo_n A /\ coo_ind B = coo_ind A /\
    Permutation (coo_triples A) (coo_triples B) /\ StronglySorted lex_le (combine (coo_row B) (coo_col B))).
Proof. exact c44_binary. Qed.
Print Assumptions C44_binary_round_trip_partial.

(* the same for compressed-row matrices *)
Theorem C44_binary_csr_round_trip_partial : forall enc dec w A, csr_wf A ->
  (2 * N.of_nat (csr_m A + csr_ind A) < 256 ^ N.of_nat w)%N -> (2 * N.of_nat (csr_n A + csr_ind A) < 256 ^ N.of_nat w)%N ->
  (N.of_nat (List.length (nzval A)) < 2 ^ 64)%N -> doubles_ok enc dec (nzval A) ->
  csr_ind A = 1 \/ (csr_ind A = 0 /\ 0 < csr_m A) ->
  (forall i, i < csr_m A -> exists j, stored (csr_line A i) j = true) ->
  (exists i j, i < csr_m A /\ j < i /\ stored (csr_line A i) j = true) ->
  (exists i j, i < csr_m A /\ i < j /\ stored (csr_line A i) j = true) ->
  exists file, write_binary_csr enc w A = Ok file /\
    always (read_binary_csr dec w file) (fun C => csr_wf C /\ csr_m C = csr_m A /\ csr_n C = csr_n A /\ csr_ind C = csr_ind A /\
      (forall i, i < csr_m A -> ordered_line (csr_line C i)) /\ forall i j, i < csr_m A -> csr_entry C i j = csr_entry A i j).
Proof. exact c44_binary_csr. Qed.
Print Assumptions C44_binary_csr_round_trip_partial.

(* a triangular matrix with a full diagonal comes back as the symmetric one, so
   C44 fails for a matrix that is meant to be triangular *)
Theorem C44_binary_triangle_refuted : forall enc dec w A,
  coo_wf A -> coo_fits w A -> doubles_ok enc dec (coo_val A) -> base_visible A ->
  coo_m A = coo_n A -> (coo_upper A \/ coo_lower A) -> ~ (coo_upper A /\ coo_lower A) -> diagonal_count A = coo_n A ->
  always (read_binary_as_coo dec w (write_binary_coo enc w A)) (fun B =>
    coo_wf B /\ coo_m B = coo_m A /\ coo_n B = coo_n A /\ coo_ind B = coo_ind A /\
    StronglySorted lex_le (combine (coo_row B) (coo_col B)) /\
    forall i j, coo_entry B i j = if i =? j then coo_entry A i j else (coo_entry A i j + coo_entry A j i)%Qc).
Proof. exact c44_binary_triangle. Qed.
Print Assumptions C44_binary_triangle_refuted.
(* without a full diagonal it cannot be read at all *)
Theorem C44_binary_incomplete_diagonal_refuted : forall enc dec w A,
  coo_wf A -> coo_fits w A -> doubles_ok enc dec (coo_val A) -> base_visible A ->
  (coo_upper A \/ coo_lower A) -> ~ (coo_upper A /\ coo_lower A) -> diagonal_count A <> coo_n A ->
  forall B, ~ read_binary_as_coo dec w (write_binary_coo enc w A) (Ok B).
Proof. exact c44_binary_incomplete. Qed.
Print Assumptions C44_binary_incomplete_diagonal_refuted.
Example C44_binary_ex : exists A, coo_wf A /\ coo_fits 4 A /\ base_visible A /\ coo_m A = coo_n A /\
  coo_upper A /\ ~ coo_lower A /\ diagonal_count A = coo_n A /\
  (exists enc dec, doubles_ok enc dec (coo_val A)).
Proof. exact c44_binary_ex. Qed.
Example C44_csr_ex : csr_wf ex_csr /\ csr_ind ex_csr = 1 /\
  (forall i, i < csr_m ex_csr -> exists j, stored (csr_line ex_csr i) j = true) /\
  stored (csr_line ex_csr 2) 0 = true /\ stored (csr_line ex_csr 0) 2 = true.
Proof. exact c44_csr_ex. Qed.
Example C44_dist_ex : tiling 0 4 [(0, 1); (1, 4)] /\ length ex_dist = 2 /\
  (forall r A, nth_error ex_dist r = Some A -> dist_part 4 [(0, 1); (1, 4)] r A /\ csr_ind (d_diag A) = 0).
Proof. exact c44_dist_ex. Qed.

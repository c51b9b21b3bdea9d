(** C71: Rutherford-Boeing files. *)
From Coq Require Import Ascii String QArith Qcanon ZArith NArith Bool.
From Verif Require Import Base Ham SparseSpec CsrView Sparse ConvSpec Text IOSpec IOGlue SparseIOSpec ReadRb ReadRbSpec ReadRbProofs ReadRbEx.
Local Open Scope nat_scope.

(** A Rutherford-Boeing file is read as the matrix with its column pointers, row indices and values. *)
Theorem C71_read : forall rnd file m n cp ri vs, rb_file rnd (lines file) m n cp ri vs ->
  List.length cp = n + 1 -> List.length ri = List.length vs -> List.length vs <= m * n ->
  read_rb_csc rnd file = Ok (mk_csc m n 1 cp ri vs).
Proof. exact rb_read. Qed.
(** As a CSR matrix it has the same elements, ordered within the rows. *)
Theorem C71_read_csr : forall rnd file m n cp ri vs, rb_file rnd (lines file) m n cp ri vs ->
  csc_wf (mk_csc m n 1 cp ri vs) -> List.length vs <= m * n ->
  exists B, read_rb_csr rnd file = Ok B /\ csr_wf B /\ csr_m B = m /\ csr_n B = n /\ csr_ind B = 1 /\
  (forall i, i < m -> ordered_line (csr_line B i)) /\
  forall i j, i < m -> j < n -> csr_entry B i j = csc_entry (mk_csc m n 1 cp ri vs) i j.
Proof. exact rb_read_csr. Qed.
(** Lines after the values are refused. *)
Theorem C71_trailing : forall rnd file front more m n cp ri vs, lines file = front ++ more -> more <> [] -> vs <> [] ->
  rb_file rnd front m n cp ri vs -> List.length cp = n + 1 -> List.length ri = List.length vs -> List.length vs <= m * n ->
  read_rb_csc rnd file = Err AssertFail.
Proof. exact rb_trailing. Qed.
(** A file that ends within the values is not refused: what is missing is read as 0. *)
Theorem C71_cut : forall rnd file title sizes head formats b1 b2 b3 ty tm tn tz te m n z cp ri vs,
  lines file = title :: sizes :: head :: formats :: b1 ++ b2 ++ b3 -> fields head = [ty; tm; tn; tz; te] ->
  number tm m -> number tn n -> number tz z ->
  block is_index b1 cp -> block is_index b2 ri -> Forall2 (decimal rnd) (flat_map fields b3) vs ->
  List.length cp = n + 1 -> List.length ri = z -> z <= m * n -> List.length vs < z ->
  read_rb_csc rnd file = Ok (mk_csc m n 1 cp ri (vs ++ repeat 0%Qc (z - List.length vs))).
Proof. exact rb_cut. Qed.
Example C71_case : rb_file exact (lines (rb_text rb_ls)) 3 3 rb_cp rb_ri rb_vs /\ csc_wf (mk_csc 3 3 1 rb_cp rb_ri rb_vs) /\
  map (csr_entry (mk_csr 3 3 1 [1; 3; 4; 6] [1; 3; 2; 1; 3] (map z2c [2; -1; 3; 1; 5]%Z)) 0) [0; 1; 2] = map z2c [2; 0; -1]%Z /\
  read_rb_csr exact (rb_text rb_ls) = Ok (mk_csr 3 3 1 [1; 3; 4; 6] [1; 3; 2; 1; 3] (map z2c [2; -1; 3; 1; 5]%Z)).
Proof. exact rb_example. Qed.
Example C71_cut_case : read_rb_csc exact (rb_text cut_ls) = Ok (mk_csc 2 2 1 [1; 2; 3] [1; 2] (map z2c [7; 0]%Z)).
Proof. exact rb_cut_ex. Qed.
(** The type is ignored: of a symmetric matrix (type rsa, lower triangle given) only the lower triangle is read. *)
Theorem C71_symmetric_refuted : exists A, read_rb_csr exact (rb_text sym_ls) = Ok A /\ csr_entry A 1 0 = z2c 5 /\ csr_entry A 0 1 = z2c 0.
Proof. exact rb_sym. Qed.
(** So are the formats: an exponent written by Fortran (1.0D+02) is dropped, and numbers that fill
    their columns, (2I1) and "12", are taken for one. *)
Theorem C71_format_refuted : read_rb_csc exact (rb_text (fmt_ls "1 2" "1.0E+02")) = Ok (mk_csc 1 1 1 [1; 2] [1] [z2c 100]) /\
  read_rb_csc exact (rb_text (fmt_ls "1 2" "1.0D+02")) = Ok (mk_csc 1 1 1 [1; 2] [1] [z2c 1]) /\
  read_rb_csc exact (rb_text (fmt_ls "12" "1.0E+02")) = Ok (mk_csc 1 1 1 [12; 1] [1] [z2c 0]).
Proof. exact rb_fmt. Qed.
Print Assumptions C71_read. Print Assumptions C71_read_csr. Print Assumptions C71_trailing. Print Assumptions C71_cut.
Print Assumptions C71_symmetric_refuted. Print Assumptions C71_format_refuted.

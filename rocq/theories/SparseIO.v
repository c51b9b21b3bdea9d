(** Model of the file formats of sparsexx. Paths are relative to
    src/sparsexx/include/sparsexx. A text file is its characters, a binary file its
    bytes; [show] is the text of a double with 17 significant digits, [rnd] the
    conversion of a decimal number to a double, [enc]/[dec] the bytes of a double.
    Indices are unbounded (i + row_off does not overflow an int). No proofs here. *)
From Coq Require Import Ascii String QArith Qcanon ZArith NArith Bool.
From Verif Require Import Base Nondet Ham Asci Mem Spmv Sparse Text IO.
Local Open Scope nat_scope.

(** ** util/string.hpp *)
(* util/string.hpp:18-31 ltrim, rtrim, trim *)
Definition ltrim (s : text) : text := drop_while is_space s.
Definition rtrim (s : text) : text := rev (drop_while is_space (rev s)).
Definition trim (s : text) : text := ltrim (rtrim s).
(* util/string.hpp:33-53 tokenize with the delimiter " " *)
Definition tokenize (s : text) : list text := map trim (split_by (fun c => Ascii.eqb c sp) s).

(** ** io/write_mm.hpp *)
(* io/write_mm.hpp:22-36; [nnz - n] of std::size_t wraps around if negative *)
Definition write_mm_header (m n nnz : nat) (symmetric : bool) : text :=
  lit "%%MatrixMarket matrix coordinate real " ++ lit (if symmetric then "symmetric" else "general") ++ [nl] ++
  show_nat m ++ [sp] ++ show_nat n ++ [sp] ++
  (if symmetric then show_N (((N.of_nat nnz + 2 ^ 64 - N.of_nat n) mod 2 ^ 64 / 2 + N.of_nat n) mod 2 ^ 64)
   else show_nat nnz) ++ [nl].

(* io/write_mm.hpp:38-54; offsets are ints and may be negative *)
Definition mm_entry (show : Qc -> text) (i j : Z) (v : Qc) : text :=
  show_Z i ++ [sp] ++ show_Z j ++ [sp] ++ show v ++ [nl].
Definition write_mm_csr_block (show : Qc -> text) (A : csr) (row_off col_off : Z) : res text :=
  do ls <- mapM (fun i =>
    do p0 <- at_ (rowptr A) i;
    do p1 <- at_ (rowptr A) (i + 1);
    do st <- minus_ p0 (csr_ind A);
    do en <- minus_ p1 (csr_ind A);
    mapM (fun inz =>
      do j <- at_ (colind A) inz;
      do v <- at_ (nzval A) inz;
      Ok (mm_entry show (Z.of_nat i + row_off) (Z.of_nat j + col_off) v)) (seq st (en - st)))
    (seq 0 (csr_m A));
  Ok (List.concat (List.concat ls)).

(* io/write_mm.hpp:60-84; [forced_index]: None for the default -1 *)
Definition write_mm (show : Qc -> text) (A : csr) (symm : bool) (forced_index : option nat) : res text :=
  if symm then Err Throw
  else
    let header := write_mm_header (csr_m A) (csr_n A) (List.length (nzval A)) symm in
    let '(row_offset, col_offset) :=
      match forced_index with
      | None => (0, 0)%Z
      | Some b => (Z.of_nat b, (Z.of_nat b - Z.of_nat (csr_ind A))%Z)
      end in
    do body <- write_mm_csr_block show A row_offset col_offset;
    Ok (header ++ body).

(* io/write_dist_mm.hpp:19-79: [parts] are the matrices of the ranks in order, [m] x
   [n] the global matrix. The ring of messages makes the ranks append one after
   the other (:49-76); MPI_Reduce gives rank 0 the sum of the local nnz. *)
Definition local_nnz (A : dist_csr) : nat :=
  List.length (nzval (d_diag A)) + match d_off A with None => 0 | Some B => List.length (nzval B) end.
Definition write_dist_mm (show : Qc -> text) (m n : nat) (parts : list dist_csr) (forced_index : option nat) : res text :=
  let header := write_mm_header m n (list_sum (map local_nnz parts)) false in
  let off := match forced_index with None => 0%Z | Some b => Z.of_nat b end in
  do body <- mapM (fun rA =>
    let '(r, A) := rA in
    do tile <- at_ (d_tiles A) r;
    let start := Z.of_nat (fst tile) in
    do d <- write_mm_csr_block show (d_diag A) (start + off) (start + off);
    do o <- match d_off A with
            | None => Ok []
            | Some B => write_mm_csr_block show B (start + off) off
            end;
    Ok (d ++ o)) (combine (seq 0 (List.length parts)) parts);
  Ok (header ++ List.concat body).

(** ** io/read_mm.hpp *)
(* io/read_mm.hpp:224 *)
Inductive coo_sort_scheme := no_sort | sort_by_row | sort_by_col.
Definition text_eqb (a b : text) : bool := if list_eq_dec ascii_dec a b then true else false.

(* io/read_mm.hpp:266-268: comment lines are skipped. If nothing follows them the
   line is no size specification: the code throws below. *)
Fixpoint skip_comments (ls : list text) : list text :=
  match ls with
  | (c :: _) :: rest => if Ascii.eqb c "%" then skip_comments rest else ls
  | _ => ls
  end.
(* an index stored in a matrix; negative ones (accepted by the code) are not
   representable here *)
Definition index_ (z : Z) : res nat := if (z <? 0)%Z then Err UB else Ok (Z.to_nat z).

(* io/read_mm.hpp:321-339: the elements, in the order they are stored; [tokens[k]]
   beyond the end is undefined *)
Definition read_mm_entries (rnd : Q -> res Qc) (is_sym : bool) (ls : list text) : res (list (nat * nat * Qc)) :=
  do l <- mapM (fun line =>
    let tokens := tokenize line in
    do t0 <- at_ tokens 0;
    do i <- stoll t0;
    do t1 <- at_ tokens 1;
    do j <- stoll t1;
    do v <- (if List.length tokens =? 3 then do t2 <- at_ tokens 2; stod rnd t2 else Ok 1%Qc);
    do i <- index_ i;
    do j <- index_ j;
    Ok (if is_sym && negb (i =? j) then [(i, j, v); (j, i, v)] else [(i, j, v)])) ls;
  Ok (List.concat l).

(* io/read_mm.hpp:246-356 read_mm_as_coo. An empty or missing file has no first
   token (:261); reserve of a negative number throws (:317-319). *)
Definition read_mm_as_coo (rnd : Q -> res Qc) (file : text) (sort_scheme : coo_sort_scheme) : nd coo :=
  any A <- det (
    let ls := lines file in
    let tokens := tokenize (nth 0 ls []) in
    do t0 <- at_ tokens 0;
    if negb (text_eqb t0 (lit "%%MatrixMarket")) || negb (List.length tokens =? 5) then Err Throw
    else
      do t4 <- at_ tokens 4;
      let is_sym := text_eqb t4 (lit "symmetric") in
      let ls := skip_comments (skipn 1 ls) in
      let tokens := tokenize (nth 0 ls []) in
      if negb (List.length tokens =? 3) then Err Throw
      else
        do t0 <- at_ tokens 0; do m <- stoll t0;
        do t1 <- at_ tokens 1; do n <- stoll t1;
        do t2 <- at_ tokens 2; do nnz_min <- stoll t2;
        if is_sym && negb (m =? n)%Z then Err Throw
        else if (nnz_min <? 0)%Z then Err Throw
        else
          do es <- read_mm_entries rnd is_sym (skipn 1 ls);
          do m <- index_ m;
          do n <- index_ n;
          Ok (determine_indexing_from_adj
                (mk_coo m n 1 (map (fun e => fst (fst e)) es) (map (fun e => snd (fst e)) es) (map snd es))));
  match sort_scheme with
  | no_sort => det (Ok A)
  | sort_by_row => any B <- sort_by_row_index A; det (if is_sorted_by_row_index B then Ok B else Err AssertFail)
  | sort_by_col => any B <- sort_by_col_index A; det (if is_sorted_by_col_index B then Ok B else Err AssertFail)
  end.
(* io/read_mm.hpp:358-371 read_mm for a COO and for a CSR matrix *)
Definition read_mm_coo (rnd : Q -> res Qc) (file : text) : nd coo := read_mm_as_coo rnd file no_sort.
Definition read_mm_csr (rnd : Q -> res Qc) (file : text) : nd csr :=
  any A <- read_mm_as_coo rnd file sort_by_row; det (csr_of_coo A).

(** ** io/write_binary_triplets.hpp, io/read_binary_triplets.hpp; [w] is sizeof(index_t) *)
(* io/write_binary_triplets.hpp:21-38 *)
Definition index_bytes (w : nat) (x : nat) : list N := to_bytes w (N.of_nat x).
Definition write_binary_coo (enc : Qc -> list N) (w : nat) (A : coo) : list N :=
  index_bytes w (coo_m A) ++ index_bytes w (coo_n A) ++ to_bytes 8 (N.of_nat (List.length (coo_val A))) ++
  flat_map (index_bytes w) (coo_row A) ++ flat_map (index_bytes w) (coo_col A) ++ flat_map enc (coo_val A).
(* io/write_binary_triplets.hpp:40-66 *)
Definition write_binary_csr (enc : Qc -> list N) (w : nat) (A : csr) : res (list N) :=
  let nnz := List.length (nzval A) in
  do s <- foldM (seq 0 (csr_m A)) (fun s i =>
    let '(ri, it) := s in
    do rp1 <- at_ (rowptr A) (i + 1);
    do rp0 <- at_ (rowptr A) i;
    let row_count := rp1 - rp0 in
    do ri' <- put_all ri it (repeat (i + csr_ind A) row_count);
    Ok (ri', it + row_count)) (repeat 0 nnz, 0);
  let '(ri, it) := s in
  if it =? List.length ri then
    do ci <- slice_ (colind A) 0 nnz;
    Ok (index_bytes w (csr_m A) ++ index_bytes w (csr_n A) ++ to_bytes 8 (N.of_nat nnz) ++
        flat_map (index_bytes w) ri ++ flat_map (index_bytes w) ci ++ flat_map enc (nzval A))
  else Err AssertFail.

(* a signed index of [w] bytes; negative ones are not representable *)
Definition index_of (w : nat) (b : list N) : res nat :=
  if (2 * of_bytes b <? 256 ^ N.of_nat w)%N then Ok (N.to_nat (of_bytes b)) else Err UB.
(* io/read_binary_triplets.hpp:21-47. A file too short for the sizes leaves them
   uninitialised; arrays are zeros where the file ends (:35-38). *)
Definition read_binary_as_coo (dec : list N -> Qc) (w : nat) (file : list N) : nd coo :=
  any A <- det (
    do x <- take_bytes w file; let '(bm, f) := x in
    do x <- take_bytes w f; let '(bn, f) := x in
    do x <- take_bytes 8 f; let '(bz, f) := x in
    do m <- index_of w bm;
    do n <- index_of w bn;
    let nnz := N.to_nat (of_bytes bz) in
    let '(br, f) := read_into (w * nnz) f (repeat 0%N (w * nnz)) in
    let '(bc, f) := read_into (w * nnz) f (repeat 0%N (w * nnz)) in
    let '(bv, f) := read_into (8 * nnz) f (repeat 0%N (8 * nnz)) in
    do r <- mapM (fun k => index_of w (object_at w k br)) (seq 0 nnz);
    do c <- mapM (fun k => index_of w (object_at w k bc)) (seq 0 nnz);
    let A := determine_indexing_from_adj (mk_coo m n 1 r c (map (fun k => dec (object_at 8 k bv)) (seq 0 nnz))) in
    expand_from_triangle A);
  any B <- sort_by_row_index A;
  det (if is_sorted_by_row_index B then Ok B else Err AssertFail).
(* io/read_binary_triplets.hpp:49-61 *)
Definition read_binary_csr (dec : list N -> Qc) (w : nat) (file : list N) : nd csr :=
  any A <- read_binary_as_coo dec w file; det (csr_of_coo A).

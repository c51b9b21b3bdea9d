(** Model of sparsexx/spblas/spmbv.hpp, sparsexx/spblas/pspmbv.hpp and
    permute_vector of sparsexx/util/permute.hpp. Paths are relative to
    src/sparsexx/include/sparsexx. No proofs in this file. *)
From Coq Require Import QArith Qcanon Sorting.Permutation.
From Verif Require Import Base Nondet Ham Dist Asci Constraint Collective Mem.
Local Open Scope nat_scope.

(** ** spblas/spmbv.hpp *)

(* spmbv.hpp:58-69: the product of row [i] with column [k] of V. V_k = V + k * LDV
   - indexing (:62) is only an address here; the C++ pointer may point before
   the array while it is not dereferenced. *)
Definition row_dot (A : csr) (V : list (option Qc)) (LDV k i : nat) : res Qc :=
  do rp0 <- at_ (rowptr A) i;
  do rp1 <- at_ (rowptr A) (i + 1);
  do j_st <- minus_ rp0 (csr_ind A);
  do j_en <- minus_ rp1 (csr_ind A);
  do j_ext <- minus_ j_en j_st;
  foldM (seq 0 j_ext) (fun av j =>
    do a <- at_ (nzval A) (j_st + j);
    do c <- at_ (colind A) (j_st + j);
    do p <- minus_ (k * LDV + c) (csr_ind A);
    do v <- load V p;
    Ok (av + a * v)%Qc) 0%Qc.

(* spmbv.hpp:37-73 gespmbv for CSR; the loop nest is parallel (:53-57) *)
Definition gespmbv (K : nat) (alpha : Qc) (A : csr) (V : list (option Qc)) (LDV : nat)
  (beta : Qc) (AV : list Qc) (LDAV : nat) : nd (list Qc) :=
  parallel_for (list_prod (seq 0 K) (seq 0 (csr_m A))) (fun AV ki =>
    let '(k, i) := ki in
    do av <- row_dot A V LDV k i;
    do y <- at_ AV (i + k * LDAV);
    put AV (i + k * LDAV) (alpha * av + beta * y)%Qc) AV.

(* matrix_types/coo_matrix.hpp:45-51 the data of a COO matrix *)
Record coo := mk_coo {
  coo_m : nat; coo_n : nat; coo_ind : nat;
  coo_row : list nat; coo_col : list nat; coo_val : list Qc
}.

(* spmbv.hpp:96-128 gespmbv for COO; indexing is read (:113) but not used *)
Definition gespmbv_coo (K : nat) (alpha : Qc) (A : coo) (V : list (option Qc)) (LDV : nat)
  (beta : Qc) (AV : list Qc) (LDAV : nat) : nd (list Qc) :=
  any AV <- parallel_for (list_prod (seq 0 K) (seq 0 (coo_m A))) (fun AV ki =>
    let '(k, i) := ki in
    do y <- at_ AV (i + k * LDAV);
    put AV (i + k * LDAV) (y * beta)%Qc) AV;
  det (foldM (list_prod (seq 0 K) (seq 0 (length (coo_val A)))) (fun AV ki =>
    let '(k, inz) := ki in
    do i <- at_ (coo_row A) inz;
    do j <- at_ (coo_col A) inz;
    do a <- at_ (coo_val A) inz;
    do v <- load V (j + k * LDV);
    do y <- at_ AV (i + k * LDAV);
    put AV (i + k * LDAV) (y + alpha * a * v)%Qc) AV).

(** ** util/permute.hpp:74-86 permute_vector *)

(* :78-80 Forward: Vp[P[i]] = V[i] *)
Definition permute_forward {A} (n : nat) (V : list A) (P : list nat) (Vp : list (option A))
  : res (list (option A)) :=
  foldM (seq 0 n) (fun Vp i =>
    do p <- at_ P i;
    do v <- at_ V i;
    put Vp p (Some v)) Vp.
(* :82-84 Backward: Vp[i] = V[P[i]] *)
Definition permute_backward {A} (n : nat) (V : list A) (P : list nat) (Vp : list (option A))
  : res (list (option A)) :=
  foldM (seq 0 n) (fun Vp i =>
    do p <- at_ P i;
    do v <- at_ V p;
    put Vp i (Some v)) Vp.

(** ** spblas/pspmbv.hpp *)

(* matrix_types/dist_sparse_matrix.hpp:30-41: the part of a distributed matrix
   held by one rank: the row tiles of all ranks, the diagonal tile and the
   off-diagonal tile (null or not) *)
Record dist_csr := mk_dist {
  d_n : nat; d_tiles : list (nat * nat); d_diag : csr; d_off : option csr
}.

(* dist_sparse_matrix.hpp:86-91 copy constructor, on one of [P] ranks: delegates
   to the constructor with the default row partitioning. Modelled for square
   matrices. *)
Definition dist_copy (P : nat) (A : dist_csr) : res dist_csr :=
  do t <- default_tiles (d_n A) P;
  Ok (mk_dist (d_n A) t (d_diag A) (d_off A)).

(* pspmbv.hpp:82-91 std::set<index_type>: insertion keeps the elements sorted
   and distinct *)
Fixpoint set_insert (x : nat) (s : list nat) : list nat :=
  match s with
  | [] => [x]
  | y :: r => if x <? y then x :: s else if x =? y then s else y :: set_insert x r
  end.
Definition std_set (l : list nat) : list nat := fold_left (fun s x => set_insert x s) l [].

(* std::lower_bound(first, last, x) on a sorted range: the elements before the
   first one that is not less than x, and the rest *)
Fixpoint lower_bound_split (x : nat) (l : list nat) : list nat * list nat :=
  match l with
  | [] => ([], [])
  | y :: r => if y <? x then let '(a, b) := lower_bound_split x r in (y :: a, b) else ([], l)
  end.

(* pspmbv.hpp:95-108 *)
Fixpoint split_by_tiles (uniq : list nat) (tiles : list (nat * nat)) : list (list nat) :=
  match tiles with
  | [] => []
  | (_, row_en) :: ts =>
    let '(here, rest) := lower_bound_split row_en uniq in
    here :: split_by_tiles rest ts
  end.

(* pspmbv.hpp:79-117 on one rank: the column indices to be received from every
   rank. [dbg]: whether asserts are compiled in. *)
Definition recv_indices_of (dbg : bool) (P r : nat) (A : dist_csr) : res (list (list nat)) :=
  do uniq <- match d_off A with
    | None => Ok []
    | Some B => if dbg && negb (csr_ind B =? 0) then Err AssertFail else Ok (std_set (colind B))
    end;
  do tiles <- slice_ (d_tiles A) 0 P;
  let by_rank := split_by_tiles uniq tiles in
  do mine <- at_ by_rank r;
  if dbg && negb (length mine =? 0) then Err AssertFail else Ok by_rank.

(* pspmbv.hpp:29-40 spmv_info *)
Record spmv_info := mk_info {
  send_indices : list nat; recv_indices : list nat;
  send_offsets : list Z; recv_offsets : list Z;
  send_counts : list nat; recv_counts : list nat
}.

(* ranks other than [r] with a non-zero count *)
Definition nonzero (counts : list nat) : list (nat * nat) :=
  filter (fun ic => negb (snd ic =? 0)) (combine (seq 0 (length counts)) counts).

(* pspmbv.hpp:72-196 generate_spmv_comm_info on all ranks. [As]: the matrix as
   seen by every rank. *)
Definition generate_spmv_comm_info (dbg : bool) (As : list dist_csr) : res (list spmv_info) :=
  let P := length As in
  let ranks := combine (seq 0 P) As in
  do recv_by <- mapM (fun rA => recv_indices_of dbg P (fst rA) (snd rA)) ranks;
  let counts := map (map (@length nat)) recv_by in
  (* :122 mpi_allgather of the counts: element comm_rank + i * comm_size is the
     number of elements rank i expects from comm_rank *)
  let gathered := concat counts in
  do recvs <- mapM (fun rA =>
      let r := fst rA in
      do l <- mapM (fun i =>
          if i =? r then Ok (i, 0)
          else do c <- at_ gathered (r + i * P); Ok (i, c)) (seq 0 P);
      Ok (filter (fun ic => negb (snd ic =? 0)) l)) ranks;                    (* :129-137 *)
  let sends := map (fun by_rank =>
      filter (fun ic => negb (length (snd ic) =? 0))
        (combine (seq 0 (length by_rank)) by_rank)) recv_by in                (* :142-146 *)
  do got <- exchange sends recvs;                                             (* :149, :184 *)
  mapM (fun t =>
    let '(((r, A), by_rank), (rs, msgs)) := t in
    (* :127-137 send_indices_by_rank: the messages received, at their source *)
    let send_by := map (fun i =>
        match find (fun p => fst (fst p) =? i) (combine rs msgs) with
        | Some p => snd p
        | _ => []
        end) (seq 0 P) in
    let scounts := map (@length nat) send_by in                               (* :152-155 *)
    let rcounts := map (@length nat) by_rank in
    do soff <- exclusive_scan_z ISize 0 (map Z.of_nat scounts);               (* :159-160 *)
    do roff <- exclusive_scan_z ISize 0 (map Z.of_nat rcounts);               (* :161-162 *)
    do tile <- at_ (d_tiles A) r;
    do sidx <- mapM (fun i => minus_ i (fst tile)) (concat send_by);          (* :180-181 *)
    Ok (mk_info sidx (concat by_rank) soff roff scounts rcounts))
    (combine (combine ranks recv_by) (combine recvs got)).

(* pspmbv.hpp:47-69: the receives (source, length) and sends (destination,
   contents) of one rank. Offsets are size_t: Z.to_nat of a negative offset
   would be out of range. *)
Definition post_recv (info : spmv_info) : list (nat * nat) := nonzero (recv_counts info).
Definition post_send (info : spmv_info) (buf : list (option Qc)) : res (list (nat * list Qc)) :=
  mapM (fun ic =>
    let '(i, c) := ic in
    do off <- at_ (send_offsets info) i;
    if (off <? 0)%Z then Err UB else
    do cells <- slice_ buf (Z.to_nat off) (Z.to_nat off + c);
    do data <- mapM (fun x => match x with Some v => Ok v | None => Err UB end) cells;
    Ok (i, data)) (nonzero (send_counts info)).
(* the received messages are written at recv_offsets[i] of the receive buffer *)
Definition store_recv (info : spmv_info) (msgs : list (list Qc)) (buf : list (option Qc))
  : res (list (option Qc)) :=
  foldM (combine (post_recv info) msgs) (fun buf icm =>
    let '((i, _), m) := icm in
    do off <- at_ (recv_offsets info) i;
    if (off <? 0)%Z then Err UB else
    put_all buf (Z.to_nat off) (map Some m)) buf.

(* the cells of an array that must all be initialised *)
Definition all_init {A} (l : list (option A)) : res (list A) :=
  mapM (fun x => match x with Some v => Ok v | None => Err UB end) l.

(* pspmbv.hpp:198-287 pgespmv on all ranks. [ins]: the matrix, V, AV and
   spmv_info of every rank; the result lists the ranks' new AV. The receive
   buffer is read by permute_vector (:262): every element must have been
   received. *)
Definition pgespmv (alpha : Qc) (beta : Qc)
  (ins : list (dist_csr * list Qc * list Qc * spmv_info)) : nd (list (list Qc)) :=
  any sends <- det (mapM (fun t =>
      let '(A, V, AV, info) := t in
      let ns := length (send_indices info) in
      do pack <- permute_backward ns V (send_indices info) (repeat None ns);  (* :240-242 *)
      post_send info pack) ins);                                              (* :247 *)
  let recvs := map (fun t => let '(A, V, AV, info) := t in post_recv info) ins in   (* :236 *)
  any avs <- mapND (fun t => let '(A, V, AV, info) := t in
      gespmbv 1 alpha (d_diag A) (map Some V) (d_n A) beta AV (d_n A)) ins;   (* :252 *)
  any got <- det (exchange sends recvs);                                      (* :257, :274 *)
  mapND (fun t =>
      let '((A, V, _, info), (AV, msgs)) := t in
      let nr := length (recv_indices info) in
      any pack <- det (store_recv info msgs (repeat None nr));
      any buf <- det (all_init pack);
      any remote <- det (permute_forward nr buf (recv_indices info) (repeat None (d_n A)));  (* :262-263 *)
      match d_off A with
      | None => ret AV
      | Some B => gespmbv 1 alpha B remote (d_n A) 1%Qc AV (d_n A)            (* :268-269 *)
      end) (combine ins (combine avs got)).

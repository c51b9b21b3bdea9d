(** Model of include/macis/solvers/davidson.hpp and
    include/macis/solvers/selected_ci_diag.hpp.

    Vectors are lists of exact rationals; the arrays V and AV of max_m + 1 columns are
    lists of columns (V.data() + i * N is column i, LDV = N). The square root in
    blas::nrm2 / std::sqrt and lapack::syev are parameters: [root], and
    [syev k M] = (eigenvalues, eigenvector matrix), both with leading dimension k.
    A division by zero ends the model's run with NonFinite (in the program infinities
    and NaNs spread through the arrays). Logging and timing are not modelled. No
    proofs in this file. *)
From Coq Require Import QArith Qcanon.
From Verif Require Import Base SD Nondet SlaterCondon Ham Asci Mem Sums Sparse Spmv Dist Collective Diis.
Local Open Scope nat_scope.

(** ** guess vectors *)
(* std::min_element, as an index: the first of the smallest; 0 for an empty range *)
Fixpoint min_element_from (i best : nat) (b : Qc) (l : list Qc) : nat :=
  match l with
  | [] => best
  | x :: r => if qlt x b then min_element_from (S i) i x r else min_element_from (S i) best b r
  end.
Definition min_element (l : list Qc) : nat :=
  match l with [] => 0 | x :: r => min_element_from 1 0 x r end.
(* davidson.hpp:60-67 diagonal_guess *)
Definition diagonal_guess (A : csr) (X : list Qc) : res (list Qc) :=
  do D <- extract_diagonal_elements A;
  put X (min_element D) 1%Qc.

(* dist_sparse_matrix.hpp: row_extent(r), local_row_start() *)
Definition row_extent (A : dist_csr) (r : nat) : res nat :=
  do t <- at_ (d_tiles A) r; Ok (snd t - fst t).
(* running sums of the extents, starting with 0 (davidson.hpp:83-86) *)
Fixpoint row_starts_from (acc : nat) (l : list nat) : list nat :=
  match l with [] => [acc] | x :: r => acc :: row_starts_from (acc + x) r end.

(* davidson.hpp:70-106 p_diagonal_guess on all ranks: matrix and X of every rank *)
Definition p_diagonal_guess (ins : list (dist_csr * list Qc)) : res (list (list Qc)) :=
  let P := length ins in
  do D_locals <- mapM (fun AX => extract_diagonal_elements (d_diag (fst AX))) ins;
  mapM (fun rAX => let '(world_rank, (A, X)) := rAX in
    do remote_counts <- mapM (row_extent A) (seq 0 P);                    (* :83-86 *)
    let row_starts := row_starts_from 0 remote_counts in
    do D <- MPI_Allgatherv D_locals (map Z.of_nat row_starts) (repeat 0%Qc (last row_starts 0));
    let min_idx := min_element D in
    do n_local <- row_extent A world_rank;
    do X <- foldM (seq 0 n_local) (fun X i => put X i 0%Qc) X;            (* :98 *)
    do c0 <- at_ remote_counts 0;
    if c0 =? 0 then Err UB                                                (* :101 division by zero *)
    else if min_idx / c0 =? world_rank then
      do t <- at_ (d_tiles A) world_rank;
      do off <- minus_ min_idx (fst t);
      put X off 1%Qc
    else Ok X) (combine (seq 0 P) ins).

(** ** dense kernels *)
(* blas::gemm(ColMajor, ConjTrans, NoTrans, K, 1, N, 1., V, N, x, N, 0., inner, K);
   N = 0 means LDV = 0, which the BLAS rejects *)
Definition gemm_t (N K : nat) (V : list (list Qc)) (x : list Qc) : res (list Qc) :=
  if N =? 0 then Err Throw
  else mapM (fun c => do v <- at_ V c; dot_ N v x) (seq 0 K).
(* blas::gemm(ColMajor, NoTrans, NoTrans, N, 1, K, a, V, N, c, K, b, y, N) *)
Definition gemm_n (N K : nat) (a : Qc) (V : list (list Qc)) (c : list Qc) (b : Qc) (y : list Qc) : res (list Qc) :=
  if N =? 0 then Err Throw
  else mapM (fun i =>
    do s <- sumM 0%Qc (seq 0 K) (fun l => do v <- at_ V l; do vi <- at_ v i; do cl <- at_ c l; Ok (vi * cl)%Qc);
    do yi <- at_ y i;
    Ok (a * s + b * yi)%Qc) (seq 0 N).
(* blas::scal(N, a, x, 1) *)
Definition scal (N : nat) (a : Qc) (x : list Qc) : res (list Qc) :=
  mapM (fun i => do xi <- at_ x i; Ok (a * xi)%Qc) (seq 0 N).
(* blas::gemm(ColMajor, ConjTrans, NoTrans, K, K, N, 1., X, N, AX, N, 0., C, K): the K x K
   matrix of inner products, column by column *)
Definition gemm_tn (N K : nat) (V AV : list (list Qc)) : res (list Qc) :=
  do cols <- mapM (fun j => do av <- at_ AV j; gemm_t N K V av) (seq 0 K);
  Ok (concat cols).

(* a distributed vector: one local vector per rank *)
Notation pvec := (list (list Qc)).

Section SOLVER.
  Variables (root : Qc -> Qc) (syev : nat -> list Qc -> res (list Qc * list Qc)).

  (** ** serial solver *)
  (* davidson.hpp:109-124 gram_schmidt *)
  Definition gram_schmidt (N K : nat) (V_old : list (list Qc)) (V_new : list Qc) : res (list Qc) :=
    do inner <- gemm_t N K V_old V_new;
    do V_new <- gemm_n N K (- (1))%Qc V_old inner 1%Qc V_new;
    do inner <- gemm_t N K V_old V_new;
    do V_new <- gemm_n N K (- (1))%Qc V_old inner 1%Qc V_new;
    do q <- dot_ N V_new V_new;
    do inv <- fdiv 1 (root q);
    scal N inv V_new.

  (* lobpcgxx/rayleigh_ritz.hpp:71-77 *)
  Definition rayleigh_ritz (N K : nat) (X AX : list (list Qc)) : res (list Qc * list Qc) :=
    do M <- gemm_tn N K X AX;
    syev K M.

  (* davidson.hpp:221-223 *)
  Definition precondition (N : nat) (D : list Qc) (lam : Qc) (R : list Qc) : res (list Qc) :=
    mapM (fun j => do r <- at_ R j; do d <- at_ D j; fdiv (- r) (d - lam)) (seq 0 N).

  (* davidson.hpp:164-227: the iterations i, i+1, ..., i + rem - 1; [op v av]: the
     operator action on column [v], overwriting [av]. The result is iter, LAM[0] and
     the vector X. *)
  Fixpoint davidson_loop (N : nat) (op : list Qc -> list Qc -> nd (list Qc)) (D : list Qc) (tol : Qc)
    (rem i : nat) (V AV : list (list Qc)) (X : list Qc) : nd (nat * Qc * list Qc) :=
    match rem with
    | 0 => det (Err Throw)                                            (* :229 not converged *)
    | S rem =>
      let k := i + 1 in
      any v <- det (at_ V i);
      any av <- det (at_ AV i);
      any av <- op v av;                                              (* :169 *)
      any AV <- det (put AV i av);
      any WC <- det (rayleigh_ritz N k V AV);                         (* :175 *)
      let '(LAM, C) := WC in
      any lam <- det (at_ LAM 0);
      any X <- det (gemm_n N k 1 V C 0 X);                            (* :184 *)
      any R <- det (gemm_n N k 1 AV C (- lam)%Qc X);                  (* :188-192 *)
      any q <- det (dot_ N R R);                                      (* :195 *)
      if qlt (root q) tol then ret (i, lam, X)                        (* :206-209 *)
      else
        any R <- det (precondition N D lam R);
        any R <- det (gram_schmidt N k V R);                          (* :226 *)
        any V <- det (put V k R);
        davidson_loop N op D tol rem (S i) V AV X
    end.

  (* davidson.hpp:142-233, after the bound on max_m *)
  Definition davidson_run (N max_m : nat) (op : list Qc -> list Qc -> nd (list Qc)) (D : list Qc) (tol : Qc)
    (X : list Qc) : nd (nat * Qc * list Qc) :=
    let zeros := repeat (repeat 0%Qc N) (max_m + 1) in
    any x0 <- det (slice_ X 0 N);
    any V <- det (put zeros 0 x0);                                    (* :152 *)
    any av0 <- op x0 (repeat 0%Qc N);                                 (* :155 *)
    any AV <- det (put zeros 0 av0);
    any _ <- det (if N =? 0 then Err Throw else Ok tt);               (* gram_schmidt with LDV = 0 *)
    any V <- det (put V 1 av0);                                       (* :158 *)
    any v1 <- det (gram_schmidt N 1 V av0);
    any V <- det (put V 1 v1);
    davidson_loop N op D tol (max_m - 1) 1 V AV X.
  (* davidson.hpp:126-233 davidson; :138 bounds max_m *)
  Definition davidson (N max_m : nat) (op : list Qc -> list Qc -> nd (list Qc)) (D : list Qc) (tol : Qc)
    (X : list Qc) : nd (nat * Qc * list Qc) :=
    davidson_run N (Nat.min max_m N) op D tol X.

  (* selected_ci_diag.hpp:86-88: std::abs of *std::max_element under |a| < |b| *)
  Definition max_abs (C : list Qc) : res Qc :=
    match C with [] => Err UB | c :: r => Ok (Qcabs (max_from (fun a b => qlt (Qcabs a) (Qcabs b)) c r)) end.
  (* std::vector::resize(n, 0) *)
  Definition resize (n : nat) (C : list Qc) : list Qc := firstn n C ++ repeat 0%Qc (n - length C).
  (* selected_ci_diag.hpp:90 *)
  Definition keep_guess (C : list Qc) : res bool :=
    do max_c <- max_abs C;
    do inv <- fdiv 1 (inject (length C));
    Ok (qlt inv max_c).
  (* davidson.hpp:46-58 SparseMatrixOperator::operator_action for a local matrix *)
  Definition sparse_action (H : csr) (N : nat) (v av : list Qc) : nd (list Qc) :=
    gespmbv 1 1%Qc H (map Some v) N 0%Qc av N.
  (* selected_ci_diag.hpp:73-112 serial_selected_ci_diag: the energy and the vector C *)
  Definition serial_selected_ci_diag (H : csr) (max_m : nat) (tol : Qc) (C : list Qc) : nd (Qc * list Qc) :=
    let C := resize (csr_m H) C in
    any D <- det (extract_diagonal_elements H);
    any keep <- det (keep_guess C);
    any C <- det (if keep then Ok C else diagonal_guess H C);
    any r <- davidson (csr_m H) max_m (sparse_action H (csr_m H)) D tol C;
    let '(niter, E, C) := r in
    ret (E, C).
  (* selected_ci_diag.hpp:114-190 selected_ci_diag without MPI *)
  Definition selected_ci_diag (W : nat) (h : ints) (dets : list N) (h_el_tol : Qc) (max_m : nat) (tol : Qc)
    (C : list Qc) : nd (Qc * list Qc) :=
    any H <- det (make_csr_hamiltonian W h h_el_tol dets);
    serial_selected_ci_diag H max_m tol C.

  (** ** distributed solver *)
  (* MPI_SUM on one value per rank *)
  Definition MPI_SUM (l : list Qc) : Qc := fold_left Qcplus l 0%Qc.
  (* the local arrays of rank [r] *)
  Definition on_rank (r : nat) (V : list pvec) : res (list (list Qc)) := mapM (fun c => at_ c r) V.
  Definition ranks {A} (Ns : list nat) (f : nat -> nat -> res A) : res (list A) :=
    mapM (fun rN => f (fst rN) (snd rN)) (combine (seq 0 (length Ns)) Ns).

  (* davidson.hpp:237-267 p_gram_schmidt; [Ns]: N_local of every rank *)
  Definition p_gram_schmidt (Ns : list nat) (K : nat) (V_old : list pvec) (V_new : pvec) : res pvec :=
    do inner <- ranks Ns (fun r N => do V <- on_rank r V_old; do x <- at_ V_new r; gemm_t N K V x);
    do inner <- allreduce MPI_SUM 0%Qc K inner inner;
    do V_new <- ranks Ns (fun r N => do V <- on_rank r V_old; do x <- at_ V_new r; do c <- at_ inner r;
                                     gemm_n N K (- (1))%Qc V c 1%Qc x);
    do inner <- ranks Ns (fun r N => do V <- on_rank r V_old; do x <- at_ V_new r; gemm_t N K V x);
    do inner <- allreduce MPI_SUM 0%Qc K inner inner;
    do V_new <- ranks Ns (fun r N => do V <- on_rank r V_old; do x <- at_ V_new r; do c <- at_ inner r;
                                     gemm_n N K (- (1))%Qc V c 1%Qc x);
    do dots <- ranks Ns (fun r N => do x <- at_ V_new r; dot_ N x x);
    do dots <- allreduce_one MPI_SUM 0%Qc dots;
    ranks Ns (fun r N => do x <- at_ V_new r; do q <- at_ dots r; do inv <- fdiv 1 (root q); scal N inv x).

  (* davidson.hpp:269-292 p_rayleigh_ritz: (W, C) of every rank; [W]: the old contents of
     the eigenvalue arrays *)
  Definition p_rayleigh_ritz (Ns : list nat) (K : nat) (X AX : list pvec) (W : list (list Qc))
    : res (list (list Qc) * list (list Qc)) :=
    do C <- ranks Ns (fun r N => do V <- on_rank r X; do AV <- on_rank r AX; gemm_tn N K V AV);
    do C <- allreduce MPI_SUM 0%Qc (K * K) C C;
    do C0 <- at_ C 0;
    do WC <- syev K C0;
    do W <- put W 0 (fst WC);
    do C <- put C 0 (snd WC);
    do W <- MPI_Bcast 0 K 0 W;
    do C <- MPI_Bcast 0 (K * K) 0 C;
    Ok (W, C).

  (* davidson.hpp:336-408 on all ranks; ranks that disagree on convergence wait for
     each other in different calls *)
  Fixpoint p_davidson_loop (Ns : list nat) (op : pvec -> pvec -> nd pvec) (D : pvec) (tol : Qc) (max_m : nat)
    (rem i : nat) (V AV : list pvec) (LAM : list (list Qc)) (X : pvec) : nd (nat * list Qc * pvec) :=
    match rem with
    | 0 => det (Err Throw)
    | S rem =>
      let k := i + 1 in
      any v <- det (at_ V i);
      any av <- det (at_ AV i);
      any av <- op v av;                                              (* :341 *)
      any AV <- det (put AV i av);
      any WC <- det (p_rayleigh_ritz Ns k V AV LAM);                  (* :348 *)
      let '(LAM, C) := WC in
      any lam <- det (mapM (fun W => at_ W 0) LAM);
      any X <- det (ranks Ns (fun r N => do Vr <- on_rank r V; do c <- at_ C r; do x <- at_ X r;
                                         gemm_n N k 1 Vr c 0 x));     (* :358 *)
      any R <- det (ranks Ns (fun r N => do AVr <- on_rank r AV; do c <- at_ C r; do x <- at_ X r; do l <- at_ lam r;
                                         gemm_n N k 1 AVr c (- l)%Qc x)); (* :363-367 *)
      any dots <- det (ranks Ns (fun r N => do x <- at_ R r; dot_ N x x));
      any dots <- det (allreduce_one MPI_SUM 0%Qc dots);              (* :370-372 *)
      let done_ := map (fun q => qlt (root q) tol) dots in
      if forallb (fun b => b) done_ then ret (i, lam, X)              (* :384-387 *)
      else if existsb (fun b => b) done_ then det (Err Hang)
      else
        any R <- det (ranks Ns (fun r N => do x <- at_ R r; do d <- at_ D r; do l <- at_ lam r;
                                           precondition N d l x));    (* :391-393 *)
        any R <- det (p_gram_schmidt Ns k V R);                       (* :396 *)
        any V <- det (put V k R);
        p_davidson_loop Ns op D tol max_m rem (S i) V AV LAM X
    end.

  (* davidson.hpp:294-414 p_davidson; max_m is not bounded by the dimension *)
  Definition p_davidson (Ns : list nat) (max_m : nat) (op : pvec -> pvec -> nd pvec) (D : pvec) (tol : Qc)
    (X : pvec) : nd (nat * list Qc * pvec) :=
    let zero := map (fun N => repeat 0%Qc N) Ns in
    let zeros := repeat zero (max_m + 1) in
    any x0 <- det (ranks Ns (fun r N => do x <- at_ X r; slice_ x 0 N));
    any V <- det (put zeros 0 x0);                                    (* :322 *)
    any av0 <- op x0 zero;                                            (* :325 *)
    any AV <- det (put zeros 0 av0);
    any _ <- det (if existsb (fun N => N =? 0) Ns then Err Throw else Ok tt); (* p_gram_schmidt with LDV = 0 *)
    any V <- det (put V 1 av0);                                       (* :329 *)
    any v1 <- det (p_gram_schmidt Ns 1 V av0);
    any V <- det (put V 1 v1);
    p_davidson_loop Ns op D tol max_m (max_m - 1) 1 V AV (map (fun _ => repeat 0%Qc (max_m + 1)) Ns) X.

  (* selected_ci_diag.hpp:22-70 parallel_selected_ci_diag on all ranks: every rank's
     matrix and C_local; ranks that disagree on the guess wait in different calls. *)
  Definition parallel_selected_ci_diag (dbg : bool) (H : list dist_csr) (max_m : nat) (tol : Qc) (C : list (list Qc))
    : nd (list Qc * list (list Qc)) :=
    any Ns <- det (mapM (fun rA => row_extent (snd rA) (fst rA)) (combine (seq 0 (length H)) H));
    let C := map (fun NC => resize (fst NC) (snd NC)) (combine Ns C) in
    any D <- det (mapM (fun A => extract_diagonal_elements (d_diag A)) H);
    any keep <- det (mapM keep_guess C);
    any C <- det (if forallb (fun b => b) keep then Ok C
                  else if existsb (fun b => b) keep then Err Hang
                  else p_diagonal_guess (combine H C));
    any infos <- det (generate_spmv_comm_info dbg H);                 (* davidson.hpp:38-44 *)
    let op V AV := pgespmv 1%Qc 0%Qc (combine (combine (combine H V) AV) infos) in
    any r <- p_davidson Ns max_m op D tol C;
    let '(niter, E, C) := r in
    ret (E, C).

  (* selected_ci_diag.hpp:114-190 selected_ci_diag with MPI, on all of P ranks: every rank
     builds its part of the matrix (the sizes reduced for the log are not modelled) *)
  Definition p_selected_ci_diag (dbg : bool) (W : nat) (h : ints) (dets : list N) (h_el_tol : Qc) (P max_m : nat) (tol : Qc)
    (C : list (list Qc)) : nd (list Qc * list (list Qc)) :=
    any tiles <- det (default_tiles (length dets) P);
    any H <- det (mapM (fun r => do B <- make_dist_csr_hamiltonian W h h_el_tol dets P r;
                                 Ok (mk_dist (length dets) tiles (fst B) (snd B))) (seq 0 P));
    parallel_selected_ci_diag dbg H max_m tol C.
End SOLVER.

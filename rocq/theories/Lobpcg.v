(** Model of src/lobpcgxx/include/lobpcgxx (driver.hpp, cholqr.hpp, rayleigh_ritz.hpp,
    rotate_basis.hpp, residuals.hpp, convergence.hpp, operator.hpp, simplified_interface.hpp)
    for real T. A matrix is the list of its columns; leading dimensions are the number of rows.
    The square root in nrm2 and the LAPACK routines are parameters: [root], [syev k M] =
    (eigenvalues, eigenvectors), [potrf k G] = the lower Cholesky factor or an error, and
    [gelqf K m C] = the transposed orthogonal factor Q^H of an LQ factorisation of the K x m
    matrix (gelqf and ormlq together). The workspace is not modelled as an array: its size is
    compared with what is stored there. A quotient by zero ends the run with NonFinite. No
    proofs in this file. *)
From Coq Require Import QArith Qcanon.
From Verif Require Import Base SD Sums Ham Asci Mem.
Local Open Scope nat_scope.

Definition matrix := list (list Qc).
(* driver.hpp:23-28 *)
Record lobpcg_settings := mk_lobpcg_settings { l_conv_tol : Qc; l_maxiter : Z; l_track_convergence : bool }.
(* driver.hpp:38-40 *)
Definition lobpcg_lwork (N K : nat) : nat := 8 * N * K + 9 * K * K + 5 * K.
(* convergence.hpp:115-119, one entry of conv_data: W, res, rel_res *)
Definition iteration := (list Qc * list Qc * list Qc)%type.
(* convergence.hpp:76-82 *)
Definition lobpcg_relres_convergence_check (NR : nat) (ABS_RES REL_RES : list Qc) (TOL : Qc) : bool := forallb (fun r => qlt r TOL) (firstn NR REL_RES).
(* convergence.hpp:98-104 *)
Definition lobpcg_absres_convergence_check (NR : nat) (ABS_RES REL_RES : list Qc) (TOL : Qc) : bool := forallb (fun r => qlt r TOL) (firstn NR ABS_RES).

(** ** dense kernels *)
(* inner product of columns of N numbers *)
Definition c_dot (N : nat) (x y : list Qc) : Qc := sum (seq 0 N) (fun m => nth m x 0 * nth m y 0)%Qc.
(* blas::gemm(ColMajor, ConjTrans, NoTrans, .., N, 1., X, N, Y, N, 0., ..) *)
Definition gemm_ct (N : nat) (X Y : matrix) : matrix := map (fun y => map (fun x => c_dot N x y) X) Y.
(* one column of blas::gemm(ColMajor, NoTrans, NoTrans, N, .., 1., X, N, C, .., 0., ..) *)
Definition gemv_nn (N : nat) (X : matrix) (c : list Qc) : list Qc :=
  map (fun m => sum (seq 0 (length X)) (fun l => nth m (nth l X []) 0 * nth l c 0)%Qc) (seq 0 N).
(* rotate_basis.hpp:68-75; the K columns of C given *)
Definition rotate_basis (N : nat) (X C : matrix) : matrix := map (gemv_nn N X) C.
(* driver.hpp:178-182: W <- W - XP (XP' W) *)
Definition project (N : nat) (XP W : matrix) : matrix :=
  map (fun w => map (fun m => nth m w 0 - nth m (gemv_nn N XP (map (fun x => c_dot N x w) XP)) 0)%Qc (seq 0 N)) W.
(* blas::trsm(ColMajor, Right, Lower, ConjTrans, NonUnit, N, K, 1., L, K, V, LDV): V <- V L^-H,
   column by column; L_jl is row j of column l *)
Definition trsm (N : nat) (L V : matrix) : res matrix :=
  foldM (seq 0 (length V)) (fun U j =>
    do u <- mapM (fun m =>
      fdiv (nth m (nth j V []) 0 - sum (seq 0 j) (fun l => nth j (nth l L []) 0 * nth m (nth l U []) 0))%Qc (nth j (nth j L []) 0%Qc)) (seq 0 N);
    Ok (U ++ [u])) [].

Section LOBPCG.
  Variables (root : Qc -> Qc) (syev : nat -> matrix -> res (list Qc * matrix)) (potrf : nat -> matrix -> res matrix) (gelqf : nat -> nat -> matrix -> res matrix).

  (* cholqr.hpp:71-87 *)
  Definition cholqr (N K : nat) (V : matrix) (n_rep : nat) : res matrix :=
    foldM (seq 0 n_rep) (fun V _ => do L <- potrf K (gemm_ct N V V); trsm N L V) V.
  (* rayleigh_ritz.hpp:70-77 *)
  Definition l_rayleigh_ritz (N K : nat) (X AX : matrix) : res (list Qc * matrix) := syev K (gemm_ct N X AX).
  (* residuals.hpp:71-82; R, ABS_R and REL_R *)
  Definition residual_of (N : nat) (X AX : matrix) (W : list Qc) (i : nat) : res (list Qc * Qc * Qc) :=
    let r := map (fun m => nth m (nth i AX []) 0 + - nth i W 0 * nth m (nth i X []) 0)%Qc (seq 0 N) in
    let a := root (c_dot N r r) in
    do rel <- fdiv a (root (c_dot N (nth i AX []) (nth i AX [])) + Qcabs (nth i W 0))%Qc;
    Ok (r, a, rel).
  Definition residuals (N K : nat) (X AX : matrix) (W : list Qc) : res (matrix * list Qc * list Qc) :=
    do rs <- mapM (residual_of N X AX W) (seq 0 K);
    Ok (map (fun r => fst (fst r)) rs, map (fun r => snd (fst r)) rs, map snd rs).
  (* driver.hpp:170-173 *)
  Definition reverse_columns (K : nat) (V : matrix) : res matrix :=
    foldM (seq 0 (K / 2)) (fun V i =>
      do a <- at_ V i;
      do b <- at_ V (K - 1 - i);
      do V <- put V i b;
      put V (K - 1 - i) a) V.

  (* operator.hpp:69-140: the matrix, and the preconditioner *)
  Variables (apply_matrix apply_preconditioner : matrix -> res matrix).
  (* operator.hpp:86-89 *)
  Definition default_preconditioner (V : matrix) : res matrix := Ok V.
  Variable conv_check : nat -> list Qc -> list Qc -> Qc -> bool.

  Record l_state := mk_l_state { s_X : matrix; s_P : matrix; s_AX : matrix; s_AP : matrix; s_LAM : list Qc; s_V : matrix; s_ABS : list Qc; s_REL : list Qc; s_conv : list iteration }.
  (* LAMR, V, res and the convergence data; the flag is false if the exception "LOBPCG FAILED TO
     CONVERGE" is thrown after they are written *)
  Record l_output := mk_l_output { o_converged : bool; o_LAMR : list Qc; o_V : matrix; o_res : list Qc; o_conv : list iteration }.
  (* driver.hpp:155-157 and 226-230 *)
  Definition output (b : bool) (NR : nat) (st : l_state) : l_output := mk_l_output b (firstn NR (s_LAM st)) (s_X st) (firstn NR (s_REL st)) (s_conv st).

  (* driver.hpp:164-221, one iteration after the convergence check *)
  Definition l_step (N K iter : nat) (st : l_state) : res l_state :=
    let XP := s_X st ++ s_P st in
    let dim_XP := (if iter =? 0 then 1 else 2) * K in                       (* :167-168 *)
    let dim_S := dim_XP + K in
    do V <- reverse_columns K (s_V st);
    do W <- apply_preconditioner V;
    if 2 * N * K <? dim_XP * K then Err UB                                  (* :180 past WORKSPACE *)
    else
      let W := project N XP (project N XP W) in                             (* :178-188 *)
      do W <- cholqr N K W 2;
      let S := XP ++ W in
      do AS <- (if (iter + 1) mod 20 =? 0 then apply_matrix S
                else do AW <- apply_matrix W; Ok (s_AX st ++ s_AP st ++ AW));  (* :193-197 *)
      do r <- l_rayleigh_ritz N dim_S S AS;
      let '(LAM, C) := r in
      do QH <- gelqf K dim_XP (map (firstn K) (skipn K C));                 (* :202-214 *)
      let C := firstn K C ++ rotate_basis dim_S (skipn K C) QH in
      let S := rotate_basis N S (firstn (2 * K) C) in                       (* :217-218 *)
      let AS := rotate_basis N AS (firstn (2 * K) C) in
      do r <- residuals N K (firstn K S) (firstn K AS) LAM;
      let '(V, ABS_RES, REL_RES) := r in
      Ok (mk_l_state (firstn K S) (skipn K S) (firstn K AS) (skipn K AS) LAM V ABS_RES REL_RES (s_conv st)).
  (* driver.hpp:138-230; [left] iterations are left. More eigenpairs than columns: the check
     reads past the residuals *)
  Fixpoint l_loop (settings : lobpcg_settings) (N K NR left iter : nat) (st : l_state) : res l_output :=
    match left with
    | 0 => Ok (output false NR st)
    | S left' =>
      let st := if l_track_convergence settings
                then mk_l_state (s_X st) (s_P st) (s_AX st) (s_AP st) (s_LAM st) (s_V st) (s_ABS st) (s_REL st) (s_conv st ++ [(firstn K (s_LAM st), s_ABS st, s_REL st)])
                else st in
      if K <? NR then Err UB
      else if conv_check NR (s_ABS st) (s_REL st) (l_conv_tol settings) then Ok (output true NR st)
      else do st <- l_step N K iter st; l_loop settings N K NR left' (S iter) st
    end.
  (* driver.hpp:121-135 *)
  Definition l_start (N K : nat) (V : matrix) : res l_state :=
    do AX <- apply_matrix V;
    do r <- l_rayleigh_ritz N K V AX;
    let '(LAM, C) := r in
    let X := rotate_basis N V C in
    let AX := rotate_basis N AX C in
    do r <- residuals N K X AX LAM;
    let '(R, ABS_RES, REL_RES) := r in
    Ok (mk_l_state X [] AX [] LAM R ABS_RES REL_RES []).
  (* driver.hpp:72-231; the answer to a workspace query is the other alternative *)
  Definition lobpcg (settings : lobpcg_settings) (N K NR : nat) (V : matrix) (LWORK : Z) : res (nat + l_output) :=
    let LWORK_MIN := lobpcg_lwork N K in
    if (LWORK <? 0)%Z then Ok (inl LWORK_MIN)
    else if (LWORK <? Z.of_nat LWORK_MIN)%Z then Err Throw
    else if (l_maxiter settings <? 0)%Z then Err Throw
    else if qlt (l_conv_tol settings) 0%Qc then Err Throw
    else if (LWORK <? Z.of_nat (3 * N * K + 3 * N * K + 9 * K * K + 3 * K + K + K + 2 * N * K))%Z then Err Throw  (* :96-113 *)
    else
      do st <- l_start N K V;
      do o <- l_loop settings N K NR (Z.to_nat (l_maxiter settings)) 0 st;
      Ok (inr o).
End LOBPCG.
(* simplified_interface.hpp:37-45 (with 8-16 and 29-35): workspace allocated inside, relative residuals *)
Definition lobpcg_simple root syev potrf gelqf apply_matrix apply_preconditioner (settings : lobpcg_settings) (N K NR : nat) (V : matrix) : res (nat + l_output) :=
  lobpcg root syev potrf gelqf apply_matrix apply_preconditioner lobpcg_relres_convergence_check settings N K NR V (Z.of_nat (lobpcg_lwork N K)).

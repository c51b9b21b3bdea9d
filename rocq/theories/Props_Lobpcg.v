(** C69: the block eigensolver (LOBPCG). *)
From Coq Require Import QArith Qcanon.
From Verif Require Import Base SD Sums DenseSpec DiisSpec DavSpec Lobpcg LobpcgSpec LobpcgProofs LobpcgGlue DavEx LobpcgEx.
Local Open Scope nat_scope.

(** The K vectors returned are orthonormal; the first NR of them with the values returned are Ritz
    pairs of the matrix, ascending, and the reported residuals are the actual ones. *)
Theorem C69_result : forall N K NR A root syev potrf gelqf op kop check sett V LWORK o,
  symmetric2 N A -> multiplies_blocks N A op -> keeps_shape N kop -> diagonaliser syev -> cholesky potrf -> orthogonal_factor gelqf ->
  columns N K V -> orthonormal N K V -> NR <= K -> lobpcg root syev potrf gelqf op kop check sett N K NR V LWORK = Ok (inr o) ->
  columns N K (o_V o) /\ orthonormal N K (o_V o) /\ length (o_LAMR o) = NR /\ length (o_res o) = NR /\ ritz_pairs N NR A (o_LAMR o) (firstn NR (o_V o)) /\
  (forall i, i < NR -> nth i (o_LAMR o) 0%Qc = expectation N A (nth i (o_V o) []) /\ relative_residual root N A (nth i (o_LAMR o) 0%Qc) (nth i (o_V o) []) (nth i (o_res o) 0%Qc)).
Proof. exact result. Qed.
(** Unless the exception is thrown, the check of the caller holds for the actual residuals of the vectors returned. *)
Theorem C69_converged : forall N K NR A root syev potrf gelqf op kop check sett V LWORK o,
  symmetric2 N A -> multiplies_blocks N A op -> keeps_shape N kop -> diagonaliser syev -> cholesky potrf -> orthogonal_factor gelqf ->
  columns N K V -> orthonormal N K V -> lobpcg root syev potrf gelqf op kop check sett N K NR V LWORK = Ok (inr o) ->
  o_converged o = true -> exists ABS REL, length ABS = K /\ length REL = K /\ o_res o = firstn NR REL /\ check NR ABS REL (l_conv_tol sett) = true /\
    forall i, i < K -> let lam := expectation N A (nth i (o_V o) []) in
      absolute_residual root N A lam (nth i (o_V o) []) (nth i ABS 0%Qc) /\ relative_residual root N A lam (nth i (o_V o) []) (nth i REL 0%Qc).
Proof. exact converged. Qed.
Theorem C69_relative_tolerance : forall N K NR A root syev potrf gelqf op kop sett V o,
  symmetric2 N A -> multiplies_blocks N A op -> keeps_shape N kop -> diagonaliser syev -> cholesky potrf -> orthogonal_factor gelqf ->
  columns N K V -> orthonormal N K V -> NR <= K -> lobpcg_simple root syev potrf gelqf op kop sett N K NR V = Ok (inr o) ->
  o_converged o = true -> forall i, i < NR -> (nth i (o_res o) 0 < l_conv_tol sett)%Qc.
Proof. exact simple_converged. Qed.
Theorem C69_absolute_tolerance : forall N K NR A root syev potrf gelqf op kop sett V LWORK o,
  symmetric2 N A -> multiplies_blocks N A op -> keeps_shape N kop -> diagonaliser syev -> cholesky potrf -> orthogonal_factor gelqf ->
  columns N K V -> orthonormal N K V -> NR <= K -> lobpcg root syev potrf gelqf op kop lobpcg_absres_convergence_check sett N K NR V LWORK = Ok (inr o) ->
  o_converged o = true -> forall i, i < NR -> (root (residual2 N A (nth i (o_LAMR o) 0) (nth i (o_V o) [])) < l_conv_tol sett)%Qc.
Proof. exact absolute_converged. Qed.
(** No value is below the spectrum, and the sum of the k lowest is at most the trace of the matrix
    on any k orthonormal combinations of the guess vectors. *)
Theorem C69_bounds : forall N K NR A root syev potrf gelqf op kop check sett V LWORK o,
  symmetric2 N A -> multiplies_blocks N A op -> keeps_shape N kop -> diagonaliser syev -> cholesky potrf -> orthogonal_factor gelqf ->
  columns N K V -> orthonormal N K V -> NR <= K -> lobpcg root syev potrf gelqf op kop check sett N K NR V LWORK = Ok (inr o) ->
  (forall b i, spectrum_above N A b -> i < NR -> (b <= nth i (o_LAMR o) 0)%Qc) /\
  (forall k C, k <= NR -> length C = k -> orthonormal K k C -> (first_sum k (o_LAMR o) <= Sigma k (fun i => expectation N A (combination N V (nth i C []))))%Qc).
Proof. exact bounds. Qed.
(** The values recorded for the iterations: K each, at most as many iterations as allowed (all of
    them if the exception is thrown), and the sums of the k lowest never grow. *)
Theorem C69_history : forall N K NR A root syev potrf gelqf op kop check sett V LWORK o,
  symmetric2 N A -> multiplies_blocks N A op -> keeps_shape N kop -> diagonaliser syev -> cholesky potrf -> orthogonal_factor gelqf ->
  columns N K V -> orthonormal N K V -> lobpcg root syev potrf gelqf op kop check sett N K NR V LWORK = Ok (inr o) ->
  sums_descend K (map (fun e => fst (fst e)) (o_conv o)) /\ (forall e, In e (o_conv o) -> length (fst (fst e)) = K) /\
  length (o_conv o) <= Z.to_nat (l_maxiter sett) /\ (o_converged o = false -> l_track_convergence sett = true -> length (o_conv o) = Z.to_nat (l_maxiter sett)) /\
  (l_track_convergence sett = false -> o_conv o = []).
Proof. exact history. Qed.
Example C69_run : symmetric2 2 (entry lx_A) /\ multiplies_blocks 2 (entry lx_A) (mult 2 lx_A) /\ keeps_shape 2 default_preconditioner /\ diagonaliser lx_syev /\ cholesky lx_potrf /\ orthogonal_factor lx_gelqf /\
  columns 2 1 lx_guess /\ orthonormal 2 1 lx_guess /\
  exists o, lobpcg_simple ex_root lx_syev lx_potrf lx_gelqf (mult 2 lx_A) default_preconditioner (lx_sett (Q2Qc (Qmake 1 1000))) 2 1 1 lx_guess = Ok (inr o) /\
    o_converged o = true /\ o_LAMR o = [(- inject 9)%Qc] /\ length (o_conv o) = 2.
Proof.
  exact (conj (proj1 lx_guess_ok) (conj (mult_ok 2 lx_A) (conj (id_keeps 2) (conj lx_syev_ok (conj lx_potrf_ok (conj lx_gelqf_ok (conj (proj1 (proj2 lx_guess_ok)) (conj (proj2 (proj2 lx_guess_ok)) lx_run_ok)))))))).
Qed.
(** A guess that is not orthonormal is used as it is: the call may report convergence to a value
    below the whole spectrum. *)
Theorem C69_guess_refuted : exists N K NR A syev potrf gelqf op kop sett V o b,
  symmetric2 N A /\ multiplies_blocks N A op /\ keeps_shape N kop /\ diagonaliser syev /\ cholesky potrf /\ orthogonal_factor gelqf /\ columns N K V /\ NR <= K /\ 0 < NR /\
  lobpcg_simple ex_root syev potrf gelqf op kop sett N K NR V = Ok (inr o) /\ o_converged o = true /\ spectrum_above N A b /\ (nth 0 (o_LAMR o) 0 < b)%Qc.
Proof. exact guess_kept. Qed.
(** Cholesky QR orthonormalises the columns and keeps what they are orthogonal to. *)
Theorem C69_cholqr : forall N K potrf V U reps, cholesky potrf -> length V = K -> 0 < reps -> cholqr potrf N K V reps = Ok U ->
  columns N K U /\ orthonormal N K U /\ forall x, (forall j, j < K -> dot N x (nth j V []) = 0%Qc) -> forall j, j < K -> dot N x (nth j U []) = 0%Qc.
Proof. exact cholqr_inv. Qed.
(** Workspace: a query answers 8 N K + 9 K^2 + 5 K, less is refused, and with that much no access is
    out of bounds if the block has at most N columns. *)
Theorem C69_workspace : forall root syev potrf gelqf op kop check sett N K NR V LWORK,
  ((LWORK < 0)%Z -> lobpcg root syev potrf gelqf op kop check sett N K NR V LWORK = Ok (inl (8 * N * K + 9 * K * K + 5 * K))) /\
  ((0 <= LWORK)%Z -> (LWORK < Z.of_nat (8 * N * K + 9 * K * K + 5 * K))%Z -> lobpcg root syev potrf gelqf op kop check sett N K NR V LWORK = Err Throw).
Proof. exact workspace. Qed.
Theorem C69_in_bounds : forall N K NR root syev potrf gelqf op kop check sett, K <= N -> NR <= K ->
  (forall k M, syev k M <> Err UB) -> (forall k M, potrf k M <> Err UB) -> (forall k m M, gelqf k m M <> Err UB) -> (forall M, op M <> Err UB) -> (forall M, length M = K -> kop M <> Err UB) ->
  forall V LWORK, lobpcg root syev potrf gelqf op kop check sett N K NR V LWORK <> Err UB.
Proof. exact nub_lobpcg. Qed.
Theorem C69_workspace_refuted : exists N K NR A syev potrf gelqf op kop sett V,
  symmetric2 N A /\ multiplies_blocks N A op /\ keeps_shape N kop /\ diagonaliser syev /\ cholesky potrf /\ orthogonal_factor gelqf /\ columns N K V /\ NR <= K /\
  lobpcg_simple ex_root syev potrf gelqf op kop sett N K NR V = Err UB.
Proof. exact workspace_overrun. Qed.
Print Assumptions C69_result. Print Assumptions C69_converged. Print Assumptions C69_relative_tolerance. Print Assumptions C69_absolute_tolerance. Print Assumptions C69_bounds. Print Assumptions C69_history.
Print Assumptions C69_guess_refuted. Print Assumptions C69_cholqr. Print Assumptions C69_workspace. Print Assumptions C69_in_bounds. Print Assumptions C69_workspace_refuted.

(** Theorems about the iterative eigensolver (C50), stated with DavSpec. The square root
    [root] and the dense eigensolver [syev] are parameters; the numbers are exact. *)
From Coq Require Import QArith Qcanon Bool.
From Verif Require Import Base SD Spec FockSpec Nondet SlaterCondon Ham Asci AsciSort Sums SparseSpec CsrView Spmv SpmvSpec Dist DistProofs Collective DenseSpec DiisSpec
  Davidson DavSpec DavProofs DavProofs2 DavProofs4 DavProofs5 DavProofs9 DavProofs10 DavProofs11 DavProofs12 DavProofs13 DavProofs14 DavEx.
Local Open Scope nat_scope.
Local Opaque INT_MAX.

(** ** guess vectors *)
(* the serial guess puts a one at a smallest diagonal element and nothing else *)
Theorem C50_diagonal_guess : forall H X X', clean H -> 0 < csr_m H -> length X = csr_m H -> diagonal_guess H X = Ok X' ->
  exists i, smallest_at (diagonal H) i /\ length X' = csr_m H /\ nth i X' 0%Qc = 1%Qc /\ forall j, j <> i -> nth j X' 0%Qc = nth j X 0%Qc.
Proof. exact diagonal_guess_ok. Qed.
Print Assumptions C50_diagonal_guess.
Theorem C50_diagonal_guess_total : forall H X, clean H -> 0 < csr_m H -> length X = csr_m H -> exists X', diagonal_guess H X = Ok X'.
Proof. exact diagonal_guess_total. Qed.
Print Assumptions C50_diagonal_guess_total.
Example C50_diagonal_guess_ex : clean ex_H /\ diagonal_guess ex_H [0%Qc; 0%Qc] = Ok [1%Qc; 0%Qc].
Proof. split; [exact (mat2_clean _ _ _ _)|qv]. Qed.
(* refuted: the guess is a unit vector. Old contents survive, and the caller passes a
   vector it rejected for having small elements *)
Theorem C50_diagonal_guess_unit_refuted : exists H C X, clean H /\ keep_guess C = Ok false /\ length C = csr_m H /\ diagonal_guess H C = Ok X /\ dot (csr_m H) X X <> 1%Qc.
Proof.
  exists ex_H, [Q2Qc (1 # 2); Q2Qc (1 # 2)], [1%Qc; Q2Qc (1 # 2)]. split; [exact (mat2_clean _ _ _ _)|]. split; [exact (proj1 dirty_ex)|]. split; [reflexivity|]. split; [exact (proj2 dirty_ex)|].
  vm_compute. discriminate.
Qed.
Print Assumptions C50_diagonal_guess_unit_refuted.
(* the distributed guess, with the default distribution of the rows over P ranks: the unit
   vector at a smallest diagonal element of the whole matrix, if that lies in the first
   P * (M / P) rows; else the zero vector *)
Theorem C50_parallel_guess : forall M P tiles As A, parts_of M tiles As A -> default_tiles M P = Ok tiles -> 0 < P ->
  (forall r B i, nth_error As r = Some B -> i < csr_m (d_diag B) -> NoDup (map fst (csr_line (d_diag B) i))) ->
  forall C C', shaped (extents tiles) C -> 0 < M -> p_diagonal_guess (combine As C) = Ok C' ->
  exists m, m = min_element (diag_of_matrix M A) /\ smallest_at (diag_of_matrix M A) m /\ shaped (extents tiles) C' /\
    (m < P * (M / P) -> concat C' = unit_vector M m) /\ (P * (M / P) <= m -> concat C' = repeat 0%Qc M).
Proof. exact guess_ok. Qed.
Print Assumptions C50_parallel_guess.
Theorem C50_parallel_guess_total : forall M P tiles As A, parts_of M tiles As A -> default_tiles M P = Ok tiles -> 0 < P -> P <= M ->
  (forall r B i, nth_error As r = Some B -> i < csr_m (d_diag B) -> NoDup (map fst (csr_line (d_diag B) i))) ->
  forall C, shaped (extents tiles) C -> exists C', p_diagonal_guess (combine As C) = Ok C'.
Proof. exact guess_total. Qed.
Print Assumptions C50_parallel_guess_total.
(* the parts built from the determinants meet these hypotheses *)
Theorem C50_parts : forall W h thr sds na nb P, spin_width W -> norb h <= W / 2 ->
  (forall p q r s, p < norb h -> q < norb h -> r < norb h -> s < norb h -> V_pqrs h p q r s = V_pqrs h r s p q) ->
  (forall b, In b sds -> in_space W (norb h) b /\ size_is (alpha W b) na /\ size_is (beta W b) nb) -> (0 <= thr)%Qc ->
  0 < P -> (Z.of_nat (length sds * P) < 2 ^ 31)%Z ->
  exists tiles As, default_tiles (length sds) P = Ok tiles /\ length tiles = P /\
    mapM (fun r => do B <- make_dist_csr_hamiltonian W h thr sds P r; Ok (mk_dist (length sds) tiles (fst B) (snd B))) (seq 0 P) = Ok As /\
    parts_of (length sds) tiles As (ci_matrix W h thr sds) /\ int_sizes tiles As /\
    forall r B i, nth_error As r = Some B -> i < csr_m (d_diag B) -> NoDup (map fst (csr_line (d_diag B) i)).
Proof. exact ham_parts. Qed.
Print Assumptions C50_parts.
Example C50_parts_ex : spin_width 64 /\ norb mol3 <= 64 / 2 /\ (forall b, In b dets3 -> in_space 64 (norb mol3) b /\ size_is (alpha 64 b) 1 /\ size_is (beta 64 b) 0) /\
  default_tiles (length dets3) 2 = Ok [(0, 1); (1, 3)].
Proof. split; [left; reflexivity|]. split; [cbn; lia|]. split; [exact mol3_dets|reflexivity]. Qed.

(** ** orthogonalisation *)
(* the new vector is of length one, orthogonal to the basis, and the basis with it spans the old one *)
Theorem C50_gram_schmidt : forall root N K V x y, exact_root root -> orthonormal N K V -> gram_schmidt root N K V x = Ok y ->
  length y = N /\ (forall l, l < K -> dot N (nth l V []) y = 0%Qc) /\ dot N y y = 1%Qc /\
  exists s a, s <> 0%Qc /\ forall i, i < N -> nth i x 0%Qc = (Sigma K (fun l => a l * nth i (nth l V []) 0) + s * nth i y 0)%Qc.
Proof. exact gs_spec. Qed.
Print Assumptions C50_gram_schmidt.
Example C50_gram_schmidt_ex : orthonormal 2 1 [[1%Qc; 0%Qc]] /\ gram_schmidt ex_root 2 1 [[1%Qc; 0%Qc]] [inject 5; inject 4] = Ok [0%Qc; 1%Qc].
Proof. exact gs_ex. Qed.

(** ** the serial solver *)
(* a returned pair has residual below the threshold *)
Theorem C50_residual : forall root syev H max_m tol C E Y, clean H -> serial_selected_ci_diag root syev H max_m tol C (Ok (E, Y)) ->
  length Y = csr_m H /\ (root (residual2 (csr_m H) (csr_entry H) E Y) < tol)%Qc.
Proof. exact serial_residual. Qed.
Print Assumptions C50_residual.
(* ... for the Hamiltonian of the determinants *)
Theorem C50_ci_residual : forall root syev W h thr sds na nb max_m tol C E Y, spin_width W -> norb h <= W / 2 ->
  (forall p q r s, p < norb h -> q < norb h -> r < norb h -> s < norb h -> V_pqrs h p q r s = V_pqrs h r s p q) ->
  (forall b, In b sds -> in_space W (norb h) b /\ size_is (alpha W b) na /\ size_is (beta W b) nb) -> (0 <= thr)%Qc ->
  selected_ci_diag root syev W h sds thr max_m tol C (Ok (E, Y)) ->
  length Y = length sds /\ (root (residual2 (length sds) (ci_matrix W h thr sds) E Y) < tol)%Qc.
Proof. exact ci_diag. Qed.
Print Assumptions C50_ci_residual.
(* without a guess, with exact roots and an exact dense eigensolver: the vector is of length
   one, its energy is the returned one, at or below every diagonal element and above every
   lower bound of the spectrum *)
Theorem C50_variational : forall root syev W h thr sds na nb max_m tol C E Y, spin_width W -> norb h <= W / 2 ->
  (forall p q, p < norb h -> q < norb h -> T_pq h p q = T_pq h q p) ->
  (forall p q r s, p < norb h -> q < norb h -> r < norb h -> s < norb h -> V_pqrs h p q r s = V_pqrs h r s p q /\ V_pqrs h p q r s = V_pqrs h q p s r) ->
  (forall b, In b sds -> in_space W (norb h) b /\ size_is (alpha W b) na /\ size_is (beta W b) nb) -> (0 <= thr)%Qc ->
  exact_root root -> eigensolver syev -> (forall j, nth j C 0%Qc = 0%Qc) ->
  selected_ci_diag root syev W h sds thr max_m tol C (Ok (E, Y)) ->
  dot (length sds) Y Y = 1%Qc /\ expectation (length sds) (ci_matrix W h thr sds) Y = E /\
  (forall i, i < length sds -> (E <= ci_matrix W h thr sds i i)%Qc) /\
  forall b, spectrum_above (length sds) (ci_matrix W h thr sds) b -> (b <= E)%Qc.
Proof. exact ci_diag_variational. Qed.
Print Assumptions C50_variational.
Example C50_serial_ex : exact_root ex_root /\ eigensolver ex_syev /\
  (forall b, In b dets2 -> in_space 64 (norb mol2) b /\ size_is (alpha 64 b) 1 /\ size_is (beta 64 b) 0) /\
  selected_ci_diag ex_root ex_syev 64 mol2 dets2 0%Qc 2 1%Qc [] (Ok ((- inject 3)%Qc, [q45; (- q35)%Qc])).
Proof. split; [exact ex_root_exact|]. split; [exact ex_syev_solves|]. split; [exact mol2_dets|exact ex_ci]. Qed.
(* refuted: the same for a passed guess. It is used as it is, and if it is not of length one
   the returned value may lie below the whole spectrum *)
Theorem C50_variational_guess_refuted : exists root syev H max_m tol C E Y b, exact_root root /\ eigensolver syev /\ clean H /\ symmetric2 (csr_m H) (csr_entry H) /\
  serial_selected_ci_diag root syev H max_m tol C (Ok (E, Y)) /\ spectrum_above (csr_m H) (csr_entry H) b /\ (E < b)%Qc.
Proof.
  exists ex_root, ex_syev, low2, 2, (inject 4), [inject 2; 0%Qc], (- inject 3)%Qc, [Q2Qc (8 # 5); (- q35)%Qc], (- inject 2)%Qc.
  split; [exact ex_root_exact|]. split; [exact ex_syev_solves|]. split; [exact (mat2_clean _ _ _ _)|]. split; [exact low2_sym|]. split; [exact low2_run|]. split; [exact low2_spectrum|reflexivity].
Qed.
Print Assumptions C50_variational_guess_refuted.
(* with room for the whole space and exact arithmetic the iteration ends in a result, in a
   division by zero, or in a failure of the dense solver, never with "not converged" *)
Theorem C50_total : forall root syev N A op D tol, always_multiplies N A op -> exact_root root -> root 0%Qc = 0%Qc -> eigensolver syev -> symmetric2 N A ->
  N <= length D -> (0 < tol)%Qc -> forall max_m X r, N <= max_m -> 2 <= N -> N <= length X -> dot N X X = 1%Qc ->
  davidson root syev N max_m op D tol X r ->
  (exists s, r = Ok s) \/ r = Err NonFinite \/ (exists k M e, syev k M = Err e /\ r = Err e).
Proof. exact davidson_total. Qed.
Print Assumptions C50_total.
Example C50_total_ex : always_multiplies 2 (csr_entry ex_H) (sparse_action ex_H 2) /\ symmetric2 2 (csr_entry ex_H) /\ dot 2 [1%Qc; 0%Qc] [1%Qc; 0%Qc] = 1%Qc.
Proof. exact total_ex. Qed.
(* one dimension, or room for one vector: it never returns *)
Theorem C50_small_never_returns : forall root syev N max_m A op D tol X s, multiplies N A op -> Nat.min max_m N <= 1 -> ~ davidson root syev N max_m op D tol X (Ok s).
Proof. exact davidson_small. Qed.
Print Assumptions C50_small_never_returns.
(* started from an exact eigenvector of length one it never returns *)
Theorem C50_eigenvector_never_returns : forall root syev N max_m A op D tol X mu s, multiplies N A op -> root 0%Qc = 0%Qc -> dot N X X = 1%Qc ->
  (forall i, i < N -> matvec N A X i = (mu * nth i X 0)%Qc) -> ~ davidson root syev N max_m op D tol X (Ok s).
Proof. exact davidson_eigenvector. Qed.
Print Assumptions C50_eigenvector_never_returns.
Example C50_eigenvector_ex : dot 2 [q45; (- q35)%Qc] [q45; (- q35)%Qc] = 1%Qc /\
  forall i, i < 2 -> matvec 2 (csr_entry ex_H) [q45; (- q35)%Qc] i = (- inject 3 * nth i [q45; (- q35)%Qc] 0)%Qc.
Proof. exact eigen_ex. Qed.

(** ** the distributed solver *)
Theorem C50_parallel_residual : forall root syev dbg W h thr sds na nb P max_m tol C Es Ys, spin_width W -> norb h <= W / 2 ->
  (forall p q r s, p < norb h -> q < norb h -> r < norb h -> s < norb h -> V_pqrs h p q r s = V_pqrs h r s p q) ->
  (forall b, In b sds -> in_space W (norb h) b /\ size_is (alpha W b) na /\ size_is (beta W b) nb) -> (0 <= thr)%Qc ->
  0 < P -> (Z.of_nat (length sds * P) < 2 ^ 31)%Z -> length C = P ->
  p_selected_ci_diag root syev dbg W h sds thr P max_m tol C (Ok (Es, Ys)) ->
  exists E, Es = repeat E P /\ length (concat Ys) = length sds /\ (root (residual2 (length sds) (ci_matrix W h thr sds) E (concat Ys)) < tol)%Qc.
Proof. exact p_ci_residual. Qed.
Print Assumptions C50_parallel_residual.
Theorem C50_parallel_variational : forall root syev dbg W h thr sds na nb P max_m tol C Es Ys, spin_width W -> norb h <= W / 2 ->
  (forall p q, p < norb h -> q < norb h -> T_pq h p q = T_pq h q p) ->
  (forall p q r s, p < norb h -> q < norb h -> r < norb h -> s < norb h -> V_pqrs h p q r s = V_pqrs h r s p q /\ V_pqrs h p q r s = V_pqrs h q p s r) ->
  (forall b, In b sds -> in_space W (norb h) b /\ size_is (alpha W b) na /\ size_is (beta W b) nb) -> (0 <= thr)%Qc ->
  0 < P -> (Z.of_nat (length sds * P) < 2 ^ 31)%Z -> length C = P -> (forall r j, nth j (nth r C []) 0%Qc = 0%Qc) ->
  exact_root root -> eigensolver syev ->
  p_selected_ci_diag root syev dbg W h sds thr P max_m tol C (Ok (Es, Ys)) ->
  exists E, Es = repeat E P /\ dot (length sds) (concat Ys) (concat Ys) = 1%Qc /\ expectation (length sds) (ci_matrix W h thr sds) (concat Ys) = E /\
    (forall i, i < length sds -> (E <= ci_matrix W h thr sds i i)%Qc) /\ forall b, spectrum_above (length sds) (ci_matrix W h thr sds) b -> (b <= E)%Qc.
Proof. exact p_ci_variational. Qed.
Print Assumptions C50_parallel_variational.
(* without guesses: what the ranks return together, the serial solver may return *)
Theorem C50_parallel_is_serial : forall root syev W h thr sds na nb P max_m tol C C1, spin_width W -> norb h <= W / 2 ->
  (forall p q r s, p < norb h -> q < norb h -> r < norb h -> s < norb h -> V_pqrs h p q r s = V_pqrs h r s p q) ->
  (forall b, In b sds -> in_space W (norb h) b /\ size_is (alpha W b) na /\ size_is (beta W b) nb) -> (0 <= thr)%Qc ->
  0 < P -> (Z.of_nat (length sds * P) < 2 ^ 31)%Z -> max_m <= length sds -> length C = P -> (forall r j, nth j (nth r C []) 0%Qc = 0%Qc) -> (forall j, nth j C1 0%Qc = 0%Qc) ->
  forall dbg Es Ys, root 0%Qc = 0%Qc -> p_selected_ci_diag root syev dbg W h sds thr P max_m tol C (Ok (Es, Ys)) ->
  exists E, Es = repeat E P /\ selected_ci_diag root syev W h sds thr max_m tol C1 (Ok (E, concat Ys)).
Proof. exact p_ci_serial. Qed.
Print Assumptions C50_parallel_is_serial.
(* and what the serial solver returns, the ranks return together, every time, if some
   smallest diagonal element lies before the remainder rows *)
Theorem C50_parallel_agrees : forall root syev W h thr sds na nb P max_m tol C C1, spin_width W -> norb h <= W / 2 ->
  (forall p q r s, p < norb h -> q < norb h -> r < norb h -> s < norb h -> V_pqrs h p q r s = V_pqrs h r s p q) ->
  (forall b, In b sds -> in_space W (norb h) b /\ size_is (alpha W b) na /\ size_is (beta W b) nb) -> (0 <= thr)%Qc ->
  0 < P -> (Z.of_nat (length sds * P) < 2 ^ 31)%Z -> max_m <= length sds -> length C = P -> (forall r j, nth j (nth r C []) 0%Qc = 0%Qc) -> (forall j, nth j C1 0%Qc = 0%Qc) ->
  forall dbg E Y, (forall k M Ws Cs, syev k M = Ok (Ws, Cs) -> k <= length Ws /\ k * k <= length Cs) ->
  P <= length sds -> (max_m + 1) * (max_m + 1) < Z.to_nat INT_MAX ->
  (forall i, P * (length sds / P) <= i < length sds -> exists j, j < P * (length sds / P) /\ (ci_matrix W h thr sds j j <= ci_matrix W h thr sds i i)%Qc) ->
  selected_ci_diag root syev W h sds thr max_m tol C1 (Ok (E, Y)) ->
  always (p_selected_ci_diag root syev dbg W h sds thr P max_m tol C) (fun r => fst r = repeat E P /\ concat (snd r) = Y).
Proof. exact p_ci_agrees. Qed.
Print Assumptions C50_parallel_agrees.
Example C50_parallel_ex : forall dbg, always (p_selected_ci_diag ex_root ex_syev dbg 64 mol2 dets2 0%Qc 2 2 1%Qc [[]; []])
  (fun r => fst r = [(- inject 3)%Qc; (- inject 3)%Qc] /\ concat (snd r) = [q45; (- q35)%Qc]).
Proof. exact ex_parallel. Qed.
(* the iteration itself never deadlocks *)
Theorem C50_parallel_no_deadlock : forall root syev Ns max_m op D tol X, (forall k M, syev k M <> Err Hang) -> (forall v av, ~ op v av (Err Hang)) ->
  ~ p_davidson root syev Ns max_m op D tol X (Err Hang).
Proof. exact p_davidson_no_hang. Qed.
Print Assumptions C50_parallel_no_deadlock.
(* if every smallest diagonal element lies in the remainder rows, it never returns *)
Theorem C50_parallel_remainder_never_returns : forall root syev dbg W h thr sds na nb P max_m tol C s, spin_width W -> norb h <= W / 2 ->
  (forall p q r s, p < norb h -> q < norb h -> r < norb h -> s < norb h -> V_pqrs h p q r s = V_pqrs h r s p q) ->
  (forall b, In b sds -> in_space W (norb h) b /\ size_is (alpha W b) na /\ size_is (beta W b) nb) -> (0 <= thr)%Qc ->
  0 < P -> (Z.of_nat (length sds * P) < 2 ^ 31)%Z -> length C = P -> (forall r j, nth j (nth r C []) 0%Qc = 0%Qc) -> root 0%Qc = 0%Qc ->
  (forall i, smallest_at (diag_of_matrix (length sds) (ci_matrix W h thr sds)) i -> P * (length sds / P) <= i) ->
  ~ p_selected_ci_diag root syev dbg W h sds thr P max_m tol C (Ok s).
Proof. exact p_ci_remainder. Qed.
Print Assumptions C50_parallel_remainder_never_returns.
(* refuted: the distributed solver returns whenever the serial one does *)
Theorem C50_parallel_returns_refuted : exists root syev h sds max_m tol s, exact_root root /\ eigensolver syev /\
  selected_ci_diag root syev 64 h sds 0%Qc max_m tol [] (Ok s) /\ forall dbg s', ~ p_selected_ci_diag root syev dbg 64 h sds 0%Qc 2 max_m tol [[]; []] (Ok s').
Proof.
  exists ex_root, ex_syev, mol3, dets3, 3, 1%Qc, ((- inject 3)%Qc, [0%Qc; (- q35)%Qc; q45]). split; [exact ex_root_exact|]. split; [exact ex_syev_solves|]. split; [exact ex_ci3|].
  intros dbg s'. exact (ex_remainder ex_root ex_syev dbg 3 1%Qc s' (root_zero _ ex_root_exact)).
Qed.
Print Assumptions C50_parallel_returns_refuted.
(* more ranks than determinants: it never returns *)
Theorem C50_parallel_few_rows_never_returns : forall root syev dbg W h thr sds na nb P max_m tol C s, spin_width W -> norb h <= W / 2 ->
  (forall p q r s, p < norb h -> q < norb h -> r < norb h -> s < norb h -> V_pqrs h p q r s = V_pqrs h r s p q) ->
  (forall b, In b sds -> in_space W (norb h) b /\ size_is (alpha W b) na /\ size_is (beta W b) nb) -> (0 <= thr)%Qc ->
  length sds < P -> (Z.of_nat (length sds * P) < 2 ^ 31)%Z -> length C = P ->
  ~ p_selected_ci_diag root syev dbg W h sds thr P max_m tol C (Ok s).
Proof. exact p_ci_few. Qed.
Print Assumptions C50_parallel_few_rows_never_returns.
(* ranks decide on their own part whether the passed guess is used; if they disagree, all
   wait for ever *)
Theorem C50_parallel_disagreement : forall root syev dbg M tiles As A max_m tol C r1 r2, parts_of M tiles As A -> length C = length tiles ->
  (forall r, r < length tiles -> 0 < nth r (extents tiles) 0) ->
  (forall r, r < length tiles -> length (nth r C []) = nth r (extents tiles) 0) ->
  r1 < length tiles -> r2 < length tiles -> keep_guess (nth r1 C []) = Ok true -> keep_guess (nth r2 C []) = Ok false ->
  (exists r, parallel_selected_ci_diag root syev dbg As max_m tol C r) /\
  forall r, parallel_selected_ci_diag root syev dbg As max_m tol C r -> r = Err Hang.
Proof. exact parallel_disagree. Qed.
Print Assumptions C50_parallel_disagreement.
(* refuted: started from the solution the distributed solver ends. With two ranks, of which
   the first holds no weight, it hangs *)
Theorem C50_parallel_restart_refuted : exists h sds C1 C2 E, length (C1 ++ C2) = length sds /\
  selected_ci_diag ex_root ex_syev 64 h sds 0%Qc 3 1%Qc [] (Ok (E, C1 ++ C2)) /\
  forall root syev dbg max_m tol r, p_selected_ci_diag root syev dbg 64 h sds 0%Qc 2 max_m tol [C1; C2] r -> r = Err Hang.
Proof.
  exists mol3, dets3, [0%Qc], [(- q35)%Qc; q45], (- inject 3)%Qc. split; [reflexivity|]. split; [exact ex_ci3|].
  intros root syev dbg max_m tol r. exact (proj2 (ex_hang root syev dbg max_m tol) r).
Qed.
Print Assumptions C50_parallel_restart_refuted.

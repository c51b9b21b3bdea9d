(** Model of include/macis/util/cas.hpp, include/macis/util/mcscf_impl.hpp,
    include/macis/util/mcscf.hpp, src/macis/casscf.cxx and of compute_orbital_rotation in
    src/macis/orbital_gradient.cxx. Doubles are exact rationals. Parameters: [root]
    (std::sqrt), [syev] (the dense eigensolver of the CI), [gelss] (the least squares
    solver of the extrapolation) and [expm n M] (Eigen's matrix exponential of a packed
    n x n matrix). The log is not modelled, except that the number of iterations it shows
    and whether it reports convergence are part of the result. No proofs in this file. *)
From Coq Require Import QArith Qcanon Qcabs Bool.
From Verif Require Import Base SD Sums Ham Nondet Asci Mem Dense Diis Davidson.
Local Open Scope nat_scope.

(* mcscf.hpp:15-30 MCSCFSettings *)
Record settings := mk_settings {
  max_macro_iter : nat; max_orbital_step : Qc; orb_grad_tol : Qc;
  enable_diis : bool; diis_start_iter : nat; diis_nkeep : nat;
  ci_res_tol : Qc; ci_max_subspace : nat; ci_matel_tol : Qc
}.

(* rdm_op.rdms(settings, na, nalpha, nbeta, T, V, A1RDM, A2RDM, X_CI): the energy, the two
   arrays and X_CI afterwards; mcscf_impl is a template over it *)
Definition rdm_functor := nat -> nat -> nat -> list Qc -> list Qc -> list Qc -> list Qc -> list Qc ->
  nd (Qc * list Qc * list Qc * list Qc).

(* the array behind a packed span of [n * n] elements after the span got the elements [g] *)
Definition store2 (n : nat) (A : list Qc) (g : nat -> nat -> Qc) : list Qc :=
  map (fun x => if x <? n * n then g (x mod n) (x / n) else nth x A 0%Qc) (seq 0 (length A)).
(* ... of [n * n * n * n] elements *)
Definition store4 (n : nat) (A : list Qc) (G : nat -> nat -> nat -> nat -> Qc) : list Qc :=
  map (fun x => if x <? n * n * (n * n)
                then G (x mod n) (x / n mod n) (x / (n * n) mod n) (x / (n * n * n))
                else nth x A 0%Qc) (seq 0 (length A)).
(* matrix_span<double>(T, n, n) and rank4_span<double>(V, n, n, n, n); the constructor of the
   generator reads all elements (hamiltonian_generator/impl.hpp:15-70) *)
Definition span_ints (n : nat) (T V : list Qc) : res ints :=
  if (n * n <=? length T) && (n * n * (n * n) <=? length V)
  then Ok (mk_ints n (fun p q => nth (p + q * n) T 0%Qc)
                     (fun p q r s => nth (p + q * n + r * n * n + s * n * n * n) V 0%Qc))
  else Err UB.
(* ham_gen.form_rdms(dets, dets, C, ORDM, TRDM) on arrays; C[i] is read for every
   determinant (that the vacuum is skipped is ignored) *)
Definition form_rdms_arrays (W n : nat) (dets : list N) (C ORDM TRDM : list Qc) : res (list Qc * list Qc) :=
  if (n * n <=? length ORDM) && (n * n * (n * n) <=? length TRDM) then
    do c <- mapM (fun i => at_ C i) (seq 0 (length dets));
    let w := combine dets c in
    do r <- form_rdms W n w w (fun p q => nth (p + q * n) ORDM 0%Qc,
                               Some (fun p q r s => nth (p + q * n + r * n * n + s * n * n * n) TRDM 0%Qc));
    let '(g, G) := r in
    match G with
    | Some G => Ok (store2 n ORDM g, store4 n TRDM G)
    | None => Err UB
    end
  else Err UB.

Section MCSCF.
  Variables (root : Qc -> Qc) (syev : nat -> list Qc -> res (list Qc * list Qc))
            (gelss : nat -> list Qc -> list Qc -> res (list Qc)) (expm : nat -> list Qc -> res (list Qc)).

  (* cas.hpp:32-65 compute_casci_rdms without MPI; [fuel] bounds the loop that enumerates
     the determinants *)
  Definition compute_casci_rdms (fuel W : nat) (st : settings) : rdm_functor :=
    fun no nalpha nbeta T V ORDM TRDM C =>
    any h <- det (span_ints no T V);
    any dets <- det (generate_hilbert_space fuel W no nalpha nbeta);
    any EC <- selected_ci_diag root syev W h dets (ci_matel_tol st) (ci_max_subspace st) (ci_res_tol st) C;
    let '(E0, C) := EC in
    any D <- det (form_rdms_arrays W no dets C ORDM TRDM);
    ret (E0, fst D, snd D, C).
  (* the same with MPI on all of P > 1 ranks, which pass the same integrals: every rank's
     arrays and its part of the vector; every rank reads C.data(), its own part *)
  Definition p_compute_casci_rdms (dbg : bool) (fuel W : nat) (st : settings) (P no nalpha nbeta : nat) (T V : list Qc)
      (ORDM TRDM C : list (list Qc)) : nd (list Qc * list (list Qc * list Qc) * list (list Qc)) :=
    any h <- det (span_ints no T V);
    any dets <- det (generate_hilbert_space fuel W no nalpha nbeta);
    any EC <- p_selected_ci_diag root syev dbg W h dets (ci_matel_tol st) P (ci_max_subspace st) (ci_res_tol st) C;
    let '(E0, C) := EC in
    any D <- det (mapM (fun r => do c <- at_ C r; do d1 <- at_ ORDM r; do d2 <- at_ TRDM r;
                                 form_rdms_arrays W no dets c d1 d2) (seq 0 P));
    ret (E0, D, C).

  (* orbital_gradient.cxx:17-30: U = exp(-alpha K) *)
  Definition compute_orbital_rotation (norb : nat) (alpha : Qc) (K : list Qc) (LDK : nat) (U : list Qc) (LDU : nat) : res (list Qc) :=
    do M <- mapM (fun x => do k <- at_ K (x mod norb + x / norb * LDK); Ok (- alpha * k)%Qc) (seq 0 (norb * norb));
    do X <- expm norb M;
    foldM (loop2 norb norb) (fun U ij =>
      let '(i, j) := ij in
      do x <- at_ X (i + j * norb);
      put U (i + j * LDU) x) U.

  (* mcscf_impl.hpp:193-206: the step in packed form and its limitation *)
  Definition limited_step (max_step : Qc) (n : nat) (K : list Qc) : res (list Qc) :=
    do step_amax <- max_abs (firstn n K);
    if qlt max_step step_amax then do s <- fdiv max_step step_amax; scal n s K else Ok K.

  (* the variables of mcscf_impl that live through its loop *)
  Record mstate := mk_mstate {
    m_E0 : Qc; m_A1 : list Qc; m_A2 : list Qc; m_X : list Qc;
    m_TA : list Qc; m_VA : list Qc; m_Fi : list Qc; m_Fa : list Qc; m_Q : list Qc; m_F : list Qc; m_OG : list Qc;
    m_T : list Qc; m_V : list Qc; m_U : list Qc; m_K : list Qc; m_diis : diis; m_conv : bool
  }.

  Section RUN.
    Variables (rdms : rdm_functor) (st : settings) (nalpha nbeta no ni na nv : nat) (E_core : Qc)
              (T : list Qc) (LDT : nat) (V : list Qc) (LDV LDD1 LDD2 : nat).
    Let no2 := no * no.
    Let na2 := na * na.
    Let orb_rot_sz := nv * (ni + na) + na * ni.

    (* std::fill_n(A, n, 0.0) *)
    Definition zero_fill (n : nat) (A : list Qc) : res (list Qc) := put_all A 0 (repeat 0%Qc n).

    (* mcscf_impl.hpp:154-157 and :277-284: Fock matrices and packed gradient *)
    Definition gradient (V : list Qc) (LDV : nat) (A1 A2 Fi Fa Q F OG : list Qc)
        : res (list Qc * list Qc * list Qc * list Qc) :=
      do Fa <- active_fock_matrix no ni na V LDV A1 LDD1 Fa no;
      do Q <- aux_q_matrix na no ni V LDV A2 LDD2 Q na;
      do F <- generalized_fock_matrix no ni na Fi no Fa no A1 LDD1 Q na F no;
      do OG <- pack_gradient ni na nv F no OG;
      Ok (Fa, Q, F, OG).
    (* blas::nrm2(OG.size(), OG.data(), 1) *)
    Definition nrm2 (x : list Qc) : res Qc := do q <- dot_ (length x) x x; Ok (root q).

    (* mcscf_impl.hpp:81-171: everything before the loop *)
    Definition mcscf_start (A1 A2 : list Qc) : nd mstate :=
      any transT <- det (slice_ T 0 no2);
      any transV <- det (slice_ V 0 (no2 * no2));
      any H <- det (active_hamiltonian no na ni T LDT V LDV (repeat 0%Qc no2) no (repeat 0%Qc na2) na (repeat 0%Qc (na2 * na2)) na);
      let '(Fi, TA, VA) := H in
      any E_inactive <- det (inactive_energy ni T LDT Fi no);
      let E_inactive := (E_inactive + E_core)%Qc in
      any iAtr <- det (sumM 0%Qc (seq 0 na) (fun i => at_ A1 (i * (LDD1 + 1))));
      any D <- (if qlt (Q2Qc (1 # 1000000)) (Qcabs (iAtr - inject nalpha - inject nbeta)) then
                  any A1 <- det (zero_fill na2 A1);
                  any A2 <- det (zero_fill (na2 * na2) A2);
                  any r <- rdms na nalpha nbeta TA VA A1 A2 [];
                  let '(_, A1, A2, X) := r in
                  ret (A1, A2, X)
                else ret (A1, A2, []));
      let '(A1, A2, X) := D in
      any E_1RDM <- det (dot_ na2 A1 TA);
      any E_2RDM <- det (dot_ (na2 * na2) A2 VA);
      any G <- det (gradient V LDV A1 A2 Fi (repeat 0%Qc no2) (repeat 0%Qc (na * no)) (repeat 0%Qc no2) (repeat 0%Qc orb_rot_sz));
      let '(Fa, Q, F, OG) := G in
      any grad_nrm <- det (nrm2 OG);
      ret (mk_mstate (E_1RDM + E_2RDM + E_inactive)%Qc A1 A2 X TA VA Fi Fa Q F OG transT transV
             (repeat 0%Qc no2) (repeat 0%Qc no2) (diis_new (diis_nkeep st)) (qlt grad_nrm (orb_grad_tol st))).

    (* mcscf_impl.hpp:178-240: the new K_total, U_total and DIIS object *)
    Definition rotate (iter : nat) (s : mstate) : res (list Qc * list Qc * diis) :=
      do K_lin <- precond_cg_orbital_step no ni na nv (m_Fi s) no (m_Fa s) no (m_F s) no (m_A1 s) LDD1 (m_OG s) (repeat 0%Qc orb_rot_sz);
      do K_lin <- limited_step (max_orbital_step st) orb_rot_sz K_lin;
      do K_step <- unpack_rotation ni na nv K_lin (repeat 0%Qc no2) no;
      do K <- axpy no2 1%Qc K_step (m_K s);
      do Kd <- (if enable_diis st && (diis_start_iter st <=? iter) then
                  do d <- add_vector (m_diis s) K (m_OG s);
                  if diis_start_iter st + 2 <=? iter then do K <- extrapolate gelss d; Ok (K, d) else Ok (K, d)
                else Ok (K, m_diis s));
      let '(K, d) := Kd in
      do U <- (if iter =? 0 then compute_orbital_rotation no 1%Qc K no (m_U s) no
               else
                 do dK <- axpy no2 (- (1))%Qc K (m_K s);
                 do dK <- scal no2 (- (1))%Qc dK;
                 do U_step <- compute_orbital_rotation no 1%Qc dK no (repeat 0%Qc no2) no;
                 gemm false no no no (m_U s) 0 no U_step 0 no (repeat 0%Qc no2) 0 no);
      Ok (K, U, d).

    (* mcscf_impl.hpp:177-290: one pass of the loop *)
    Definition mcscf_iter (iter : nat) (s : mstate) : nd mstate :=
      any R <- det (rotate iter s);
      let '(K, U, d) := R in
      any tT <- det (two_index_transform no no T LDT U no (m_T s) no);
      any tV <- det (four_index_transform no no V LDV U no (m_V s) no);
      any H <- det (active_hamiltonian no na ni tT no tV no (m_Fi s) no (m_TA s) na (m_VA s) na);
      let '(Fi, TA, VA) := H in
      any E_inactive <- det (inactive_energy ni tT no Fi no);
      let E_inactive := (E_inactive + E_core)%Qc in
      any A1 <- det (zero_fill na2 (m_A1 s));
      any A2 <- det (zero_fill (na2 * na2) (m_A2 s));
      any r <- rdms na nalpha nbeta TA VA A1 A2 (m_X s);
      let '(E, A1, A2, X) := r in
      any G <- det (gradient tV no A1 A2 Fi (m_Fa s) (m_Q s) (repeat 0%Qc (length (m_F s))) (m_OG s));
      let '(Fa, Q, F, OG) := G in
      any grad_nrm <- det (nrm2 OG);
      any rms <- det (fdiv grad_nrm (root (inject orb_rot_sz)));
      ret (mk_mstate (E + E_inactive)%Qc A1 A2 X TA VA Fi Fa Q F OG tT tV U K d (qlt rms (orb_grad_tol st))).

    (* mcscf_impl.hpp:174-290: the loop, with [rem] passes left; the number of passes made *)
    Fixpoint mcscf_loop (rem iter : nat) (s : mstate) : nd (mstate * nat) :=
      match rem with
      | 0 => ret (s, iter)
      | S rem => if m_conv s then ret (s, iter)
                 else any s <- mcscf_iter iter s; mcscf_loop rem (S iter) s
      end.

    (* mcscf_impl.hpp:25-294: the energy, the two density arrays, and what the log shows: the
       number of iterations and whether the run converged *)
    Definition mcscf_impl (A1 A2 : list Qc) : nd (Qc * list Qc * list Qc * (nat * bool)) :=
      any s <- mcscf_start A1 A2;
      any r <- mcscf_loop (max_macro_iter st) 0 s;
      let '(s, iter) := r in
      ret (m_E0 s, m_A1 s, m_A2 s, (iter, m_conv s)).
  End RUN.

  (* casscf.cxx:17-32 casscf_diis without MPI *)
  Definition casscf_diis (fuel : nat) (st : settings) :=
    mcscf_impl (compute_casci_rdms fuel 64 st) st.
End MCSCF.

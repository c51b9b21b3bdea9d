(** Theorems about the densities of CI wave functions and the orbital optimisation
    (C56 - C60), stated with CasciSpec and McscfSpec. The square root [root], the dense
    solvers [syev] and [gelss] and the matrix exponential [expm] are parameters; numbers are exact. *)
From Coq Require Import QArith Qcanon.
From Verif Require Import Base SD Spec FockSpec Nondet SlaterCondon Ham Asci Sums Mem Dense DenseSpec Davidson DavSpec DavEx Diis DiisSpec
  Mcscf McscfSpec CasciSpec RdmSymProofs McscfProofs6 McscfGlue McscfGlue2 McscfEx McscfGlue3.
Local Open Scope nat_scope.

(** ** C56: densities of CI wave functions *)
(* density matrices of a wave function with itself are symmetric, if the arrays were *)
Theorem C56_symmetry : forall W n wfn na nb g0 G0, spin_width W -> n <= W / 2 ->
  (forall b, In b wfn -> in_space W n (fst b) /\ size_is (alpha W (fst b)) na /\ size_is (beta W (fst b)) nb) ->
  symmetric2 n g0 -> fourfold n G0 ->
  exists g G, form_rdms W n wfn wfn (g0, Some G0) = Ok (g, Some G) /\ symmetric2 n g /\ fourfold n G.
Proof. exact rdm_symmetry. Qed.
Print Assumptions C56_symmetry.
(* refuted: they have the symmetry of the integrals *)
Theorem C56_eightfold_refuted : exists W n wfn na nb g G,
  (forall b, In b wfn -> in_space W n (fst b) /\ size_is (alpha W (fst b)) na /\ size_is (beta W (fst b)) nb) /\
  form_rdms W n wfn wfn (fun _ _ => 0%Qc, Some (fun _ _ _ _ => 0%Qc)) = Ok (g, Some G) /\ ~ eightfold n G.
Proof.
  destruct not_eightfold as (g & G & E & S & G1 & G2). exists 64, 2, [(3%N, 1%Qc)], 2, 0, g, G. split; [intros b [<-|[]]; exact S|]. split; [exact E|].
  intros H. destruct (H 0 1 0 1) as [_ X]; try lia. rewrite G1, G2 in X. discriminate.
Qed.
Print Assumptions C56_eightfold_refuted.
(* a CASCI that returns has solved the eigenvalue problem of all determinants up to the
   tolerance, and the arrays hold the densities of the solution *)
Theorem C56_casci : forall root syev W st na nalpha nbeta, spin_width W -> na <= W / 2 -> nalpha <= na -> nbeta <= na -> (0 <= ci_matel_tol st)%Qc ->
  exists f0, forall fuel TA VA Z1 Z2 X e B1 B2 Y, f0 <= fuel -> na * na <= length TA -> na * na * (na * na) <= length VA ->
    symmetric2 na (at2 TA na) -> eightfold na (at4 VA na) -> zeros (na * na) Z1 -> zeros (na * na * (na * na)) Z2 ->
    compute_casci_rdms root syev fuel W st na nalpha nbeta TA VA Z1 Z2 X (Ok (e, B1, B2, Y)) ->
    length B1 = length Z1 /\ length B2 = length Z2 /\ ci_solution root W nalpha nbeta na (ci_matel_tol st) (ci_res_tol st) TA VA e B1 B2.
Proof. exact casci. Qed.
Print Assumptions C56_casci.
(* without a guess and with exact solvers: moreover the vector has length one and the energy
   returned, not below the spectrum, and the trace is the number of electrons but for the
   neglected coefficients *)
Theorem C56_casci_ground : forall root syev W st na nalpha nbeta, spin_width W -> na <= W / 2 -> nalpha <= na -> nbeta <= na -> (0 <= ci_matel_tol st)%Qc ->
  exact_root root -> eigensolver syev ->
  exists f0, forall fuel TA VA Z1 Z2 e B1 B2 Y, f0 <= fuel -> na * na <= length TA -> na * na * (na * na) <= length VA ->
    symmetric2 na (at2 TA na) -> eightfold na (at4 VA na) -> zeros (na * na) Z1 -> zeros (na * na * (na * na)) Z2 ->
    compute_casci_rdms root syev fuel W st na nalpha nbeta TA VA Z1 Z2 [] (Ok (e, B1, B2, Y)) ->
    length B1 = length Z1 /\ length B2 = length Z2 /\ ci_ground root W nalpha nbeta na (ci_matel_tol st) (ci_res_tol st) TA VA e B1 B2 /\
    (trace na (at2 B1 na) <= inject (nalpha + nbeta))%Qc /\
    (inject (nalpha + nbeta) * (1 - inject (binom na nalpha * binom na nbeta) * Q2Qc (1 # 10000000000000000)) <= trace na (at2 B1 na))%Qc.
Proof. exact casci_ground. Qed.
Print Assumptions C56_casci_ground.
(* the energy of the vector and that of the densities differ by what was neglected *)
Theorem C56_energy : forall W n T V thr dets Y g G, eri_symmetric n V -> (0 <= thr)%Qc -> length Y = length dets -> dot (length dets) Y Y = 1%Qc ->
  densities_of W n (combine dets Y) g G ->
  (Qcabs (expectation (length dets) (ci_matrix W (mk_ints n T V) thr dets) Y - contract n T g V G) <=
   Sigma (length dets) (fun i => Sigma (length dets) (fun j => thr + Q2Qc (1 # 10000000000000000) * Qcabs (ham W n T V (nth i dets 0%N) (nth j dets 0%N)))))%Qc.
Proof. exact ci_energy. Qed.
Print Assumptions C56_energy.
Example C56_ex : exact_root ex_root /\ eigensolver ex_syev /\ symmetric2 2 (at2 ex_M 2) /\ eightfold 2 (at4 exA2 2) /\
  compute_casci_rdms ex_root ex_syev 3 64 exst 2 1 0 ex_M exA2 (repeat 0%Qc 4) exA2 [] (Ok ((- inject 3)%Qc, exB1, exA2, [q45; (- q35)%Qc])).
Proof.
  split; [exact ex_root_exact|]. split; [exact ex_syev_solves|]. split; [intros [|[|i]] [|[|j]] Hi Hj; try lia; reflexivity|]. split; [|exact ex_rdms].
  apply zero_eight. intros x. apply repeat_zero.
Qed.
(* refuted: it returns for every space. With one determinant it does not *)
Theorem C56_one_determinant : forall root syev W st na nalpha nbeta, spin_width W -> na <= W / 2 -> (nalpha = 0 \/ nalpha = na) -> (nbeta = 0 \/ nbeta = na) -> (0 <= ci_matel_tol st)%Qc ->
  exists f0, forall fuel TA VA D1 D2 C r, f0 <= fuel -> pair_symmetric na (at4 VA na) ->
    ~ compute_casci_rdms root syev fuel W st na nalpha nbeta TA VA D1 D2 C (Ok r).
Proof. exact one_determinant_never. Qed.
Print Assumptions C56_one_determinant.
(* refuted: it can be used with MPI. On more than one rank it never returns: every rank reads
   the whole vector from its own part *)
Theorem C56_mpi_never_returns : forall root syev W st na nalpha nbeta P, spin_width W -> na <= W / 2 -> nalpha <= na -> nbeta <= na -> (0 <= ci_matel_tol st)%Qc -> 2 <= P ->
  (Z.of_nat (binom na nalpha * binom na nbeta * P) < 2 ^ 31)%Z ->
  exists f0, forall dbg fuel TA VA D1 D2 C r, f0 <= fuel -> pair_symmetric na (at4 VA na) -> length C = P ->
    ~ p_compute_casci_rdms root syev dbg fuel W st P na nalpha nbeta TA VA D1 D2 C (Ok r).
Proof. exact mpi_never. Qed.
Print Assumptions C56_mpi_never_returns.

(** ** C57: energy and densities belong to the last orbitals *)
(* the optimisation with any CI solver [rdms] that keeps to its contract [Post]: what is
   returned is the last point of a sequence of orbital sets, each an orthogonal transformation
   of the given ones and solved for the active space; errors come from the parts only *)
Theorem C57_any_solver : forall root gelss expm (rdms : rdm_functor) st nalpha nbeta no ni na nv E_core T LDT V A1 A2
    (F : err -> Prop) (PX : list Qc -> Prop) (Post : list Qc -> list Qc -> Qc -> list Qc -> list Qc -> Prop),
  orbital_problem no ni na nv T LDT V -> density_room na A1 A2 -> rotations_or_tolerance root (orb_grad_tol st) ni na nv ->
  least_squares gelss -> exponential expm -> (enable_diis st = true -> 0 < diis_nkeep st) ->
  F NonFinite -> (forall k B b e, gelss k B b = Err e -> F e) -> (forall n M e, expm n M = Err e -> F e) -> PX [] ->
  (forall TA VA Z1 Z2 X, length TA = na * na -> length VA = na * na * (na * na) -> symmetric2 na (at2 TA na) -> eightfold na (at4 VA na) ->
    zeros (na * na) Z1 -> zeros (na * na * (na * na)) Z2 -> length Z1 = length A1 -> length Z2 = length A2 -> PX X ->
    forall r, rdms na nalpha nbeta TA VA Z1 Z2 X r ->
      match r with Ok (e, B1, B2, Y) => length B1 = length A1 /\ length B2 = length A2 /\ PX Y /\ Post TA VA e B1 B2 | Err x => F x end) ->
  forall r, mcscf_impl root gelss expm rdms st nalpha nbeta no ni na nv E_core T LDT V no na na A1 A2 r ->
  match r with
  | Ok (E, B1, B2, (it, conv)) => length B1 = length A1 /\ length B2 = length A2 /\
      exists tr, starts ni na nv E_core (at2 T LDT) (at4 V no) (tr 0) /\
        starting_densities ni na nalpha nbeta (at2 T LDT) (at4 V no) Post A1 A2 (tr 0) /\
        (forall i, i < it -> orbital_pass expm (max_orbital_step st) (enable_diis st) (diis_start_iter st) (diis_nkeep st) ni na nv tr i) /\
        all_solved ni na nv E_core (at2 T LDT) (at4 V no) Post tr it /\
        stops_at root (orb_grad_tol st) ni na nv (max_macro_iter st) tr it conv /\
        handed_back na (tr it) E B1 B2
  | Err x => F x
  end.
Proof. exact any_solver. Qed.
Print Assumptions C57_any_solver.
(* the whole CASSCF *)
Theorem C57_casscf : forall root syev gelss expm st nalpha nbeta no ni na nv E_core T LDT V A1 A2,
  orbital_problem no ni na nv T LDT V -> density_room na A1 A2 -> rotations_or_tolerance root (orb_grad_tol st) ni na nv ->
  least_squares gelss -> exponential expm -> (enable_diis st = true -> 0 < diis_nkeep st) ->
  na <= 32 -> nalpha <= na -> nbeta <= na -> (0 <= ci_matel_tol st)%Qc ->
  exists f0, forall fuel, f0 <= fuel ->
  if_returns (casscf_diis root syev gelss expm fuel st nalpha nbeta no ni na nv E_core T LDT V no na na A1 A2)
    (fun r => let '(E, B1, B2, (it, conv)) := r in length B1 = length A1 /\ length B2 = length A2 /\
      exists tr, let Post := ci_solution root 64 nalpha nbeta na (ci_matel_tol st) (ci_res_tol st) in
        starts ni na nv E_core (at2 T LDT) (at4 V no) (tr 0) /\
        starting_densities ni na nalpha nbeta (at2 T LDT) (at4 V no) Post A1 A2 (tr 0) /\
        (forall i, i < it -> orbital_pass expm (max_orbital_step st) (enable_diis st) (diis_start_iter st) (diis_nkeep st) ni na nv tr i) /\
        all_solved ni na nv E_core (at2 T LDT) (at4 V no) Post tr it /\
        stops_at root (orb_grad_tol st) ni na nv (max_macro_iter st) tr it conv /\
        handed_back na (tr it) E B1 B2).
Proof. exact casscf_answer. Qed.
Print Assumptions C57_casscf.
(* ... with exact solvers, without the history: after at least one pass there are orthogonally
   transformed orbitals in whose active space the energy and densities are those of a
   normalised vector not below the spectrum *)
Theorem C57_last_point : forall root syev gelss expm st nalpha nbeta no ni na nv E_core T LDT V A1 A2,
  orbital_problem no ni na nv T LDT V -> density_room na A1 A2 -> rotations_or_tolerance root (orb_grad_tol st) ni na nv ->
  least_squares gelss -> exponential expm -> (enable_diis st = true -> 0 < diis_nkeep st) ->
  na <= 32 -> nalpha <= na -> nbeta <= na -> (0 <= ci_matel_tol st)%Qc -> exact_root root -> eigensolver syev ->
  exists f0, forall fuel E B1 B2 it conv, f0 <= fuel ->
    casscf_diis root syev gelss expm fuel st nalpha nbeta no ni na nv E_core T LDT V no na na A1 A2 (Ok (E, B1, B2, (it, conv))) -> 0 < it ->
    it <= max_macro_iter st /\
    exists U T' V' TA VA e, rotated no U (at2 T LDT) (at4 V no) T' V' /\ active_arrays ni na T' V' TA VA /\
      ci_ground root 64 nalpha nbeta na (ci_matel_tol st) (ci_res_tol st) TA VA e B1 B2 /\ E = (E_core + core_energy ni T' V' + e)%Qc /\
      (conv = true <-> (root (gradient_norm2 ni na nv T' V' (at2 B1 na) (at4 B2 na)) / root (inject (rot_size ni na nv)) < orb_grad_tol st)%Qc).
Proof. exact last_point. Qed.
Print Assumptions C57_last_point.
(* the energy is that of the returned densities but for what the CI neglected *)
Theorem C57_energy : forall root syev gelss expm st nalpha nbeta no ni na nv E_core T LDT V A1 A2,
  orbital_problem no ni na nv T LDT V -> density_room na A1 A2 -> rotations_or_tolerance root (orb_grad_tol st) ni na nv ->
  least_squares gelss -> exponential expm -> (enable_diis st = true -> 0 < diis_nkeep st) ->
  na <= 32 -> nalpha <= na -> nbeta <= na -> (0 <= ci_matel_tol st)%Qc -> exact_root root -> eigensolver syev ->
  exists f0, forall fuel E B1 B2 it conv, f0 <= fuel ->
    casscf_diis root syev gelss expm fuel st nalpha nbeta no ni na nv E_core T LDT V no na na A1 A2 (Ok (E, B1, B2, (it, conv))) ->
    exists U T' V' dets, rotated no U (at2 T LDT) (at4 V no) T' V' /\ whole_space 64 na nalpha nbeta dets /\
      (Qcabs (E - (E_core + total_energy ni na T' V' (at2 B1 na) (at4 B2 na))) <=
       if it =? 0 then 0 else
       Sigma (length dets) (fun i => Sigma (length dets) (fun j =>
         ci_matel_tol st + Q2Qc (1 # 10000000000000000) * Qcabs (ham 64 na (active_T ni T' V') (active_V ni V') (nth i dets 0%N) (nth j dets 0%N)))))%Qc.
Proof. exact energy_close. Qed.
Print Assumptions C57_energy.
(* one pass of four orbitals with one electron in two of them, from 9.5 to 7, converged *)
Example C57_ex : exact_root ex_root /\ eigensolver ex_syev /\ least_squares no_gelss /\ exponential ex_expm /\ orbital_problem 4 0 2 2 exT 4 exV /\ density_room 2 exA1 exA2 /\
  rotations_or_tolerance ex_root (orb_grad_tol exst) 0 2 2 /\
  casscf_diis ex_root ex_syev no_gelss ex_expm 3 exst 1 0 4 0 2 2 (z 10) exT 4 exV 4 2 2 exA1 exA2 (Ok (z 7, exB1, exA2, (1, true))).
Proof.
  split; [exact ex_root_exact|]. split; [exact ex_syev_solves|]. split; [exact no_gelss_ok|]. split; [exact ex_expm_ok|]. split; [exact ex_problem|]. split; [apply bad_room|].
  split; [apply ex_rotations|exact ex_run].
Qed.

(** ** C58: convergence *)
(* "converged" means that the gradient at the returned point passes the test, and the run
   ends at the first point that does; without it all passes were made *)
Theorem C58_flag : forall root syev gelss expm st nalpha nbeta no ni na nv E_core T LDT V A1 A2,
  orbital_problem no ni na nv T LDT V -> density_room na A1 A2 -> rotations_or_tolerance root (orb_grad_tol st) ni na nv ->
  least_squares gelss -> exponential expm -> (enable_diis st = true -> 0 < diis_nkeep st) ->
  na <= 32 -> nalpha <= na -> nbeta <= na -> (0 <= ci_matel_tol st)%Qc ->
  exists f0, forall fuel E B1 B2 it conv, f0 <= fuel ->
    casscf_diis root syev gelss expm fuel st nalpha nbeta no ni na nv E_core T LDT V no na na A1 A2 (Ok (E, B1, B2, (it, conv))) ->
    exists U T' V', rotated no U (at2 T LDT) (at4 V no) T' V' /\
      (let g := root (gradient_norm2 ni na nv T' V' (at2 B1 na) (at4 B2 na)) in
       conv = true <-> ((if it =? 0 then g else g / root (inject (rot_size ni na nv))) < orb_grad_tol st)%Qc) /\
      it <= max_macro_iter st /\ (conv = false -> it = max_macro_iter st).
Proof. exact flag. Qed.
Print Assumptions C58_flag.
(* refuted: the test is the root mean square of the gradient. At the first point it is the length *)
Theorem C58_first_test_refuted : exists root syev gelss expm st nalpha nbeta no ni na nv E_core T V A1 A2 E,
  exact_root root /\ eigensolver syev /\ least_squares gelss /\ exponential expm /\ orbital_problem no ni na nv T no V /\ density_room na A1 A2 /\
  right_trace na nalpha nbeta (at2 A1 na) /\ 0 < rot_size ni na nv /\
  (forall fuel, casscf_diis root syev gelss expm fuel st nalpha nbeta no ni na nv E_core T no V no na na A1 A2 (Ok (E, A1, A2, (0, false)))) /\
  (root (gradient_norm2 ni na nv (at2 T no) (at4 V no) (at2 A1 na) (at4 A2 na)) / root (inject (rot_size ni na nv)) < orb_grad_tol st)%Qc.
Proof. exact first_test. Qed.
Print Assumptions C58_first_test_refuted.
(* refuted: a returned energy is converged. The caller only gets the energy; the flag is in the log *)
Theorem C58_returns_unconverged_refuted : exists root syev gelss expm st nalpha nbeta no ni na nv E_core T V A1 A2 E,
  exact_root root /\ eigensolver syev /\ least_squares gelss /\ exponential expm /\ orbital_problem no ni na nv T no V /\ density_room na A1 A2 /\
  forall fuel, casscf_diis root syev gelss expm fuel st nalpha nbeta no ni na nv E_core T no V no na na A1 A2 (Ok (E, A1, A2, (0, false))).
Proof.
  exists ex_root, ex_syev, no_gelss, ex_expm, exst0, 1, 0, 4, 0, 2, 2, (z 10), exT, exV, exA1, exA2, exE.
  split; [exact ex_root_exact|]. split; [exact ex_syev_solves|]. split; [exact no_gelss_ok|]. split; [exact ex_expm_ok|]. split; [exact ex_problem|]. split; [apply bad_room|exact stop_first].
Qed.
Print Assumptions C58_returns_unconverged_refuted.
Example C58_ex : exists E B1 B2, casscf_diis ex_root ex_syev no_gelss ex_expm 3 exst 1 0 4 0 2 2 (z 10) exT 4 exV 4 2 2 exA1 exA2 (Ok (E, B1, B2, (1, true))).
Proof. exists (z 7), exB1, exA2. exact ex_run. Qed.

(** ** C59: starting densities *)
(* passed densities with the right number of electrons are used as they are, others replaced
   by those of a CI; the run that ends at once returns their energy *)
Theorem C59_start : forall root syev gelss expm st nalpha nbeta no ni na nv E_core T LDT V A1 A2,
  orbital_problem no ni na nv T LDT V -> density_room na A1 A2 -> rotations_or_tolerance root (orb_grad_tol st) ni na nv ->
  least_squares gelss -> exponential expm -> (enable_diis st = true -> 0 < diis_nkeep st) ->
  na <= 32 -> nalpha <= na -> nbeta <= na -> (0 <= ci_matel_tol st)%Qc ->
  exists f0, forall fuel E B1 B2 conv, f0 <= fuel ->
    casscf_diis root syev gelss expm fuel st nalpha nbeta no ni na nv E_core T LDT V no na na A1 A2 (Ok (E, B1, B2, (0, conv))) ->
    E = (E_core + total_energy ni na (at2 T LDT) (at4 V no) (at2 B1 na) (at4 B2 na))%Qc /\
    (right_trace na nalpha nbeta (at2 A1 na) -> same2 na (at2 B1 na) (at2 A1 na) /\ same4 na (at4 B2 na) (at4 A2 na)) /\
    (~ right_trace na nalpha nbeta (at2 A1 na) -> exists TA VA e, active_arrays ni na (at2 T LDT) (at4 V no) TA VA /\
       ci_solution root 64 nalpha nbeta na (ci_matel_tol st) (ci_res_tol st) TA VA e B1 B2).
Proof. exact start_point. Qed.
Print Assumptions C59_start.
Example C59_ex : right_trace 2 1 0 (at2 exA1 2) /\ forall fuel,
  casscf_diis ex_root ex_syev no_gelss ex_expm fuel exst0 1 0 4 0 2 2 (z 10) exT 4 exV 4 2 2 exA1 exA2 (Ok (exE, exA1, exA2, (0, false))).
Proof. split; [vm_compute; discriminate|exact stop_first]. Qed.
(* refuted: a "converged" energy is not below the spectrum. Passed densities are only checked
   for their trace *)
Theorem C59_unphysical_refuted : exists root syev gelss expm st nalpha nbeta no ni na nv T V A1 A2 dets E b,
  exact_root root /\ eigensolver syev /\ least_squares gelss /\ exponential expm /\ orbital_problem no ni na nv T no V /\ density_room na A1 A2 /\
  right_trace na nalpha nbeta (at2 A1 na) /\
  (forall fuel, casscf_diis root syev gelss expm fuel st nalpha nbeta no ni na nv 0%Qc T no V no na na A1 A2 (Ok (E, A1, A2, (0, true)))) /\
  ni = 0 /\ whole_space 64 na nalpha nbeta dets /\ spectrum_above (length dets) (ci_matrix 64 (mk_ints na (at2 T na) (at4 V na)) 0%Qc dets) b /\ (E < b)%Qc.
Proof. exact bad_energy. Qed.
Print Assumptions C59_unphysical_refuted.
(* refuted: densities may be passed with a leading dimension larger than the number of active orbitals *)
Theorem C59_leading_dimension_refuted : exists root syev gelss expm st nalpha nbeta no na T V LDD1 A1 A2 E,
  exact_root root /\ eigensolver syev /\ least_squares gelss /\ exponential expm /\ orbital_problem no 0 na 0 T no V /\
  na <= LDD1 /\ fits2 A1 LDD1 na na /\ na * na * (na * na) <= length A2 /\ right_trace na nalpha nbeta (at2 A1 LDD1) /\
  (forall fuel, casscf_diis root syev gelss expm fuel st nalpha nbeta no 0 na 0 0%Qc T no V no LDD1 na A1 A2 (Ok (E, A1, A2, (0, true)))) /\
  E <> total_energy 0 na (at2 T no) (at4 V no) (at2 A1 LDD1) (at4 A2 na).
Proof. exact padded. Qed.
Print Assumptions C59_leading_dimension_refuted.

(** ** C60: steps *)
(* no element of the step of a pass exceeds the limit; if it is not extrapolated this is the
   change of the accumulated rotation *)
Theorem C60_step_limit : forall expm mx diis start nkeep ni na nv tr i, (0 <= mx)%Qc -> orbital_pass expm mx diis start nkeep ni na nv tr i ->
  forall p q, p < ni + na + nv -> q < ni + na + nv ->
  (Qcabs (p_trial (tr (S i)) p q - p_K (tr i) p q) <= mx)%Qc /\
  (diis && (start + 2 <=? i) = false -> (Qcabs (p_K (tr (S i)) p q - p_K (tr i) p q) <= mx)%Qc).
Proof. exact pass_step. Qed.
Print Assumptions C60_step_limit.
(* the passes of a run are such passes, with or without returning the right CI solution *)
Theorem C60_run_steps : forall root syev gelss expm st nalpha nbeta no ni na nv E_core T LDT V A1 A2,
  orbital_problem no ni na nv T LDT V -> density_room na A1 A2 -> rotations_or_tolerance root (orb_grad_tol st) ni na nv ->
  least_squares gelss -> exponential expm -> (enable_diis st = true -> 0 < diis_nkeep st) ->
  na <= 32 -> nalpha <= na -> nbeta <= na -> (0 <= ci_matel_tol st)%Qc -> (0 <= max_orbital_step st)%Qc ->
  exists f0, forall fuel E B1 B2 it conv, f0 <= fuel ->
    casscf_diis root syev gelss expm fuel st nalpha nbeta no ni na nv E_core T LDT V no na na A1 A2 (Ok (E, B1, B2, (it, conv))) ->
    exists tr, starts ni na nv E_core (at2 T LDT) (at4 V no) (tr 0) /\ handed_back na (tr it) E B1 B2 /\
      (forall i, i <= it -> rotated no (p_U (tr i)) (at2 T LDT) (at4 V no) (p_T (tr i)) (p_V (tr i))) /\
      forall i, i < it -> orbital_pass expm (max_orbital_step st) (enable_diis st) (diis_start_iter st) (diis_nkeep st) ni na nv tr i /\
        forall p q, p < no -> q < no -> (Qcabs (p_trial (tr (S i)) p q - p_K (tr i) p q) <= max_orbital_step st)%Qc /\
          (enable_diis st = false \/ i < diis_start_iter st + 2 -> (Qcabs (p_K (tr (S i)) p q - p_K (tr i) p q) <= max_orbital_step st)%Qc).
Proof. exact run_steps. Qed.
Print Assumptions C60_run_steps.
(* with nothing to rotate no pass ever succeeds *)
Theorem C60_nothing_to_rotate : forall root gelss expm rdms st nalpha nbeta no ni na nv E_core T LDT V LDV LDD1 LDD2 A1 A2 E B1 B2 it conv, rot_size ni na nv = 0 ->
  mcscf_impl root gelss expm rdms st nalpha nbeta no ni na nv E_core T LDT V LDV LDD1 LDD2 A1 A2 (Ok (E, B1, B2, (it, conv))) -> it = 0.
Proof. exact nothing_to_rotate. Qed.
Print Assumptions C60_nothing_to_rotate.
(* with extrapolation but no vectors kept no pass succeeds from the first extrapolating one on *)
Theorem C60_no_history : forall root gelss expm rdms st nalpha nbeta no ni na nv E_core T LDT V LDV LDD1 LDD2 A1 A2 E B1 B2 it conv, enable_diis st = true -> diis_nkeep st = 0 ->
  mcscf_impl root gelss expm rdms st nalpha nbeta no ni na nv E_core T LDT V LDV LDD1 LDD2 A1 A2 (Ok (E, B1, B2, (it, conv))) -> it <= diis_start_iter st.
Proof. exact no_history. Qed.
Print Assumptions C60_no_history.
Example C60_ex : rot_size 0 2 0 = 0 /\ forall fuel,
  casscf_diis ex_root ex_syev no_gelss ex_expm fuel exst 1 0 2 0 2 0 (z 0) badT 2 exA2 2 2 2 badA1 exA2 (Ok (z (-3), badA1, exA2, (0, true))).
Proof. split; [reflexivity|exact bad_run]. Qed.

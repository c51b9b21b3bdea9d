(** C65: freezing doubly occupied orbitals loses nothing. *)
From Coq Require Import QArith Qcanon.
From Verif Require Import Base SD Spec Sums FockSpec SlaterCondon Ham DenseSpec Dense DiisSpec Nondet Davidson DavSpec DavEx Mcscf McscfSpec CasciSpec McscfEx DenseEx
  FreezeSpec FreezeProofs2 FreezeProofs4 FreezeGlue FreezeGlue2 FreezeEx.
Local Open Scope nat_scope.

(* the determinant of all orbitals that an active-space determinant stands for; the two may
   have different numbers of bits *)
Theorem C65_electrons : forall W W2 ni na no b nalpha nbeta, ni + na <= no -> no <= W2 / 2 -> in_space W na b -> size_is (alpha W b) nalpha -> size_is (beta W b) nbeta ->
  in_space W2 no (freeze W W2 ni b) /\ size_is (alpha W2 (freeze W W2 ni b)) (ni + nalpha) /\ size_is (beta W2 (freeze W W2 ni b)) (ni + nbeta).
Proof. exact freeze_electrons. Qed.
Print Assumptions C65_electrons.
Example C65_electrons_ex : freeze 64 64 2 (N.shiftl 2 32 + 5) = (N.shiftl 11 32 + 23)%N /\ freeze 64 128 2 (N.shiftl 2 32 + 5) = (N.shiftl 11 64 + 23)%N.
Proof. split; reflexivity. Qed.
(* matrix elements computed from the active-space integrals are those computed from all
   integrals, and the inactive energy is what is missing on the diagonal *)
Theorem C65_matrix_elements : forall W W2 no ni na T LDT V LDV Fi LDF TA VA, spin_width W -> spin_width W2 -> na <= W / 2 -> no <= W2 / 2 -> ni + na <= no ->
  fits2 T LDT no no -> fits4 V LDV no -> fits2 Fi LDF no no -> fits2 TA na na na -> fits4 VA na na -> exchange_symmetric no (at4 V LDV) ->
  exists Fi' TA' VA' E, active_hamiltonian no na ni T LDT V LDV Fi LDF TA na VA na = Ok (Fi', TA', VA') /\
    inactive_energy ni T LDT Fi' LDF = Ok E /\ E = core_energy ni (at2 T LDT) (at4 V LDV) /\
    forall b k nalpha nbeta, in_space W na b -> in_space W na k ->
      size_is (alpha W b) nalpha -> size_is (alpha W k) nalpha -> size_is (beta W b) nbeta -> size_is (beta W k) nbeta ->
      exists x, matrix_element W (mk_ints na (at2 TA' na) (at4 VA' na)) b k = Ok x /\
        matrix_element W2 (mk_ints no (at2 T LDT) (at4 V LDV)) (freeze W W2 ni b) (freeze W W2 ni k) = Ok ((if (b =? k)%N then E else 0) + x)%Qc.
Proof. exact freeze_code. Qed.
Print Assumptions C65_matrix_elements.
Example C65_arrays_ex : fits2 frT 3 3 3 /\ fits4 frV 3 3 /\ fits2 (repeat 0%Qc 9) 3 3 3 /\ symmetric2 3 (at2 frT 3) /\ eightfold 3 (at4 frV 3) /\
  active_hamiltonian 3 2 1 frT 3 frV 3 (repeat 0%Qc 9) 3 (repeat 0%Qc 4) 2 (repeat 0%Qc 16) 2 = Ok (frF, ex_M, exA2) /\ inactive_energy 1 frT 3 frF 3 = Ok (inject 17).
Proof. split; [apply fr_fits|]. split; [apply fr_fits|]. split; [apply fr_fits|]. split; [apply fr_sym|]. split; [apply fr_sym|]. split; [exact fr_active|exact fr_inactive]. Qed.
(* energies, residuals and bounds for any list of active-space determinants *)
Theorem C65_energy : forall W W2 no ni na T V, no <= W2 / 2 -> na <= W / 2 -> ni + na <= no -> exchange_symmetric no V ->
  forall dets Y, NoDup dets -> (forall b, In b dets -> in_space W na b) ->
  expectation (length dets) (ci_matrix W2 (mk_ints no T V) 0%Qc (map (freeze W W2 ni) dets)) Y =
  (core_energy ni T V * dot (length dets) Y Y + expectation (length dets) (ci_matrix W (mk_ints na (active_T ni T V) (active_V ni V)) 0%Qc dets) Y)%Qc.
Proof. exact expectation_freeze. Qed.
Print Assumptions C65_energy.
Theorem C65_residual : forall W W2 no ni na T V, no <= W2 / 2 -> na <= W / 2 -> ni + na <= no -> exchange_symmetric no V ->
  forall dets Y lam, NoDup dets -> (forall b, In b dets -> in_space W na b) ->
  residual2 (length dets) (ci_matrix W2 (mk_ints no T V) 0%Qc (map (freeze W W2 ni) dets)) (core_energy ni T V + lam)%Qc Y =
  residual2 (length dets) (ci_matrix W (mk_ints na (active_T ni T V) (active_V ni V)) 0%Qc dets) lam Y.
Proof. exact residual_freeze. Qed.
Print Assumptions C65_residual.
(* a selection of determinants cannot have an energy below the whole space *)
Theorem C65_selection : forall W h L D b, NoDup L -> NoDup D -> incl L D ->
  spectrum_above (length D) (ci_matrix W h 0%Qc D) b -> spectrum_above (length L) (ci_matrix W h 0%Qc L) b.
Proof. exact spectrum_subset. Qed.
Print Assumptions C65_selection.
(* neglecting the elements up to a threshold *)
Theorem C65_neglected : forall W h thr dets Y, (0 <= thr)%Qc -> dot (length dets) Y Y = 1%Qc ->
  (Qcabs (expectation (length dets) (ci_matrix W h thr dets) Y - expectation (length dets) (ci_matrix W h 0%Qc dets) Y) <= inject (length dets * length dets) * thr)%Qc.
Proof. exact ci_truncated. Qed.
Print Assumptions C65_neglected.
(* the inactive energy plus the energy of a CI calculation in the active space is, up to the
   neglected elements, the energy of a wave function of all electrons, and so not below the
   exact energy of all electrons in all orbitals *)
Theorem C65_selected_ci : forall W W2 no ni na T V Fi TA VA LDT LDV LDF, spin_width W -> na <= W / 2 -> no <= W2 / 2 -> ni + na <= no ->
  fits2 T LDT no no -> fits4 V LDV no -> fits2 Fi LDF no no -> na * na <= length TA -> na * na * (na * na) <= length VA ->
  symmetric2 no (at2 T LDT) -> eightfold no (at4 V LDV) ->
  forall Fi' TA' VA' Ei, active_hamiltonian no na ni T LDT V LDV Fi LDF TA na VA na = Ok (Fi', TA', VA') -> inactive_energy ni T LDT Fi' LDF = Ok Ei ->
  forall root syev thr sds nalpha nbeta max_m tol C e Y, NoDup sds -> (0 <= thr)%Qc ->
  (forall b, In b sds -> in_space W na b /\ size_is (alpha W b) nalpha /\ size_is (beta W b) nbeta) ->
  exact_root root -> eigensolver syev -> (forall j, nth j C 0%Qc = 0%Qc) ->
  selected_ci_diag root syev W (mk_ints na (at2 TA' na) (at4 VA' na)) sds thr max_m tol C (Ok (e, Y)) ->
  exists E, frozen_state W2 no ni (ni + na) (ni + nalpha) (ni + nbeta) (at2 T LDT) (at4 V LDV) E /\ (Qcabs (Ei + e - E) <= inject (length sds * length sds) * thr)%Qc.
Proof. exact frozen_selected. Qed.
Print Assumptions C65_selected_ci.
Theorem C65_casci : forall W W2 no ni na T V Fi TA VA LDT LDV LDF, spin_width W -> na <= W / 2 -> no <= W2 / 2 -> ni + na <= no ->
  fits2 T LDT no no -> fits4 V LDV no -> fits2 Fi LDF no no -> na * na <= length TA -> na * na * (na * na) <= length VA ->
  symmetric2 no (at2 T LDT) -> eightfold no (at4 V LDV) ->
  forall Fi' TA' VA' Ei, active_hamiltonian no na ni T LDT V LDV Fi LDF TA na VA na = Ok (Fi', TA', VA') -> inactive_energy ni T LDT Fi' LDF = Ok Ei ->
  forall root syev st nalpha nbeta, nalpha <= na -> nbeta <= na -> (0 <= ci_matel_tol st)%Qc -> exact_root root -> eigensolver syev ->
  exists f0, forall fuel Z1 Z2 e B1 B2 Y, f0 <= fuel -> zeros (na * na) Z1 -> zeros (na * na * (na * na)) Z2 ->
    compute_casci_rdms root syev fuel W st na nalpha nbeta TA' VA' Z1 Z2 [] (Ok (e, B1, B2, Y)) ->
    exists E, frozen_state W2 no ni (ni + na) (ni + nalpha) (ni + nbeta) (at2 T LDT) (at4 V LDV) E /\
      (Qcabs (Ei + e - E) <= inject ((binom na nalpha * binom na nbeta) * (binom na nalpha * binom na nbeta)) * ci_matel_tol st)%Qc.
Proof. exact frozen_casci. Qed.
Print Assumptions C65_casci.
(* one frozen and two active orbitals, with the arrays above *)
Example C65_casci_ex : exact_root ex_root /\ eigensolver ex_syev /\ ci_matel_tol exst = 0%Qc /\
  compute_casci_rdms ex_root ex_syev 3 64 exst 2 1 0 ex_M exA2 (repeat 0%Qc 4) exA2 [] (Ok ((- inject 3)%Qc, exB1, exA2, [q45; (- q35)%Qc])) /\
  selected_ci_diag ex_root ex_syev 64 mol2 dets2 0%Qc 2 1%Qc [] (Ok ((- inject 3)%Qc, [q45; (- q35)%Qc])).
Proof. exact (conj ex_root_exact (conj ex_syev_solves (conj eq_refl (conj ex_rdms ex_ci)))). Qed.

(** C73: the driver's runs on several ranks, in terms of what its input files ask for. *)
From Coq Require Import Ascii String QArith Qcanon ZArith NArith Bool.
From Verif Require Import Base Bits SD Spec Sums FockSpec Ham Nondet Mem Text IO IOSpec IOGlue Dense DenseSpec DiisSpec Diis Davidson DavSpec DavProofs2 DavProofs5 DavProofs8 DavProofs14 DavEx Mcscf McscfSpec McscfEx CasciSpec Asci AsciSpec AsciRot AsciRotSpec AsciRotPar
  FreezeSpec Ini IniSpec IniGlue Driver DriverSpec DriverProofs DriverProofs2 DriverProofs3 DriverProofs4 DriverGlue DriverEx DriverMpi DriverMpiProofs DriverMpiProofs2.
Local Open Scope nat_scope.
Local Open Scope string_scope.
Local Open Scope list_scope.

Section GLUE.
  Variables (root : Qc -> Qc) (syev : nat -> list Qc -> res (list Qc * list Qc)) (syev_ld : nat -> list Qc -> nat -> res (list Qc * list Qc))
            (gelss : nat -> list Qc -> list Qc -> res (list Qc)) (expm : nat -> list Qc -> res (list Qc))
            (rnd : Q -> res Qc) (show : Qc -> text) (dec : list N -> Qc).
  Variables (P : nat) (fs : text -> option text) (fsb : text -> option (list N)) (name : text) (ne : nat) (es : list integral) (o : driver_options).
  Hypothesis HA : asked rnd fs name ne es o.
  Local Notation run dbg g fuel := (driver_mpi root syev syev_ld gelss expm rnd show dec P g fuel dbg fs fsb (Some name)).
  Local Notation no := (max_index es).
  Local Notation ni := (d_ninactive o).
  Local Notation na := (d_nactive o).
  Lemma asci_energy_mpi n0 dbg : 1 < P -> d_job o = JobCI -> d_exp o = ExpASCI -> (d_mp2 o = true -> orthonormal_vectors syev_ld) -> ne <= na -> (0 <= k_ci_matel (d_mcscf o))%Qc -> exact_root root -> eigensolver syev ->
    (dbg = true -> ne < na) -> k_rot (d_asci o) = false -> (1 <= k_grow (d_asci o))%Z -> starting_point rnd fs (d_asci o) na ne n0 ->
    (Z.max (Z.of_nat n0) (k_ntdets_max (d_asci o)) * Z.of_nat P < 2 ^ 31)%Z ->
    forall W2 g fuel out, no <= W2 / 2 -> run dbg g fuel (Ok out) ->
    exists U gT gV dets Y E, rotated no U (file_T es) (file_V es) gT gV /\ (d_mp2 o = false -> gT = file_T es /\ gV = file_V es) /\
      wave_function W2 no ni na ne gT gV dets Y E /\
      (Qcabs (out_E out - (first_core es + E)) <= inject (length dets * length dets) * k_ci_matel (d_mcscf o))%Qc /\
      length dets = Nat.max n0 (Z.to_nat (k_ntdets_max (d_asci o))) /\
      out_dets out = [] /\ (k_wfn_out (d_asci o) = [] -> out_wfn out = None) /\
      (k_wfn_out (d_asci o) <> [] -> (forall v, In v Y -> prints show rnd v) ->
         exists f, out_wfn out = Some f /\ read_wavefunction rnd 64 f = Ok (dets, Y)).
  Proof.
    destruct HA as (c & fname & F & A & G & C). intros HP J X M L T R S D O Gr SP HZ.
    pose proof (asci_mpi_run root syev syev_ld gelss expm rnd show dec P dbg fs fsb name fname c (Z.of_nat ne) es o F A G C J M ltac:(rewrite Nat2Z.id; exact L) T R S HP n0 X) as K.
    rewrite Nat2Z.id in K. exact (K D O Gr SP HZ).
  Qed.
  Lemma cas_mpi : 2 <= P -> d_job o = JobCI -> d_exp o = ExpCAS -> (d_mp2 o = true -> orthonormal_vectors syev_ld) -> ne <= na -> (0 <= k_ci_matel (d_mcscf o))%Qc ->
    (Z.of_nat (binom na ne * binom na ne * P) < 2 ^ 31)%Z -> exists f0, forall dbg g fuel out, f0 <= fuel -> ~ run dbg g fuel (Ok out).
  Proof.
    destruct HA as (c & fname & F & A & G & C). intros HP J X M L T Z.
    destruct (cas_never root syev syev_ld gelss expm rnd show dec P fs fsb name fname c (Z.of_nat ne) es o F A G C M ltac:(rewrite Nat2Z.id; exact L) T HP ltac:(rewrite Nat2Z.id; exact Z) J X) as (f0 & K).
    exists f0. intros. apply K; auto.
  Qed.
  Lemma mcscf_mpi : 2 <= P -> d_job o = JobMCSCF -> d_rdm o = [] -> (d_mp2 o = true -> orthonormal_vectors syev_ld) -> 0 < ne -> ne <= na -> (0 <= k_ci_matel (d_mcscf o))%Qc ->
    (Z.of_nat (binom na ne * binom na ne * P) < 2 ^ 31)%Z -> exists f0, forall dbg g fuel out, f0 <= fuel -> ~ run dbg g fuel (Ok out).
  Proof.
    destruct HA as (c & fname & F & A & G & C). intros HP J X M N0 L T Z.
    destruct (mcscf_never root syev syev_ld gelss expm rnd show dec P fs fsb name fname c (Z.of_nat ne) es o F A G C M ltac:(rewrite Nat2Z.id; exact L) T HP ltac:(rewrite Nat2Z.id; exact Z) J X) as (f0 & K); [rewrite Nat2Z.id; exact N0|].
    exists f0. intros. apply K; auto.
  Qed.
End GLUE.

(** ** a run on two ranks *)
Lemma back_mpi root syev syev_ld gelss expm rnd show dec P dbg fs fsb name fname ff c nel es o g fuel E T V T' V' Fi TA VA Ei E0 dets w f :
  input_file fs name c -> asks_for c fname nel -> fcidump_file rnd fs fname es -> configured rnd c (max_index es) o -> fs fname = Some ff ->
  c_value c (lit "ASCI") (lit "CONSTRAINT_LVL") = None ->
  driver_integrals rnd ff = Ok (max_index es, E, T, V) ->
  driver_orbitals syev_ld (d_mp2 o) (max_index es) (d_ninactive o + Z.to_nat nel) T V = Ok (T', V') ->
  active_hamiltonian (max_index es) (d_nactive o) (d_ninactive o) T' (max_index es) V' (max_index es) (repeat 0%Qc (max_index es * max_index es)) (max_index es)
    (repeat 0%Qc (d_nactive o * d_nactive o)) (d_nactive o) (repeat 0%Qc (d_nactive o * d_nactive o * (d_nactive o * d_nactive o))) (d_nactive o) = Ok (Fi, TA, VA) ->
  inactive_energy (d_ninactive o) T' (max_index es) Fi (max_index es) = Ok Ei ->
  d_job o = JobCI -> d_exp o = ExpASCI -> dets = [] ->
  driver_asci_mpi root syev rnd show P g fuel dbg fs o 2 (Z.to_nat nel) Ei E TA VA (stream fs (k_wfn_out (d_asci o))) (Ok (E0, w)) ->
  (match d_fci_out o with [] => Ok None | _ => do f <- write_fcidump show false (max_index es) T' (max_index es) V' (max_index es) E; Ok (Some f) end) = Ok f ->
  driver_mpi root syev syev_ld gelss expm rnd show dec P g fuel dbg fs fsb (Some name) (Ok (mk_outcome E0 dets w f)).
Proof.
  intros Hin Hask Hfci Hconf Hf Hl I O AH IE J X -> R W.
  destruct Hin as (fi & is & F1 & F2 & F3 & E1). destruct Hfci as (ff' & G1 & G2 & G3). rewrite Hf in G1. injection G1 as <-.
  destruct (ini_reads fi is F2 F3) as (d & P1 & P2 & _). rewrite <- E1 in P2.
  unfold driver_mpi. eapply det_intro; [reflexivity|]. eapply det_intro; [rewrite F1; exact P1|].
  eapply det_intro; [exact (proj2 (required_ok d c P2 fname nel) Hask)|]. cbv iota beta. eapply det_intro; [unfold stream; rewrite Hf; exact I|]. cbv iota beta.
  eapply det_intro; [exact (proj2 (setup_ok rnd d c P2 (max_index es) o (max_index_bound _ _ _ G2)) Hconf)|].
  apply (det_intro _ _ 2).
  { unfold driver_level, opt. destruct (P2 (lit "ASCI") (lit "CONSTRAINT_LVL")) as (_ & B); [apply query_name_dec; reflexivity..|].
    change (lit "ASCI.CONSTRAINT_LVL") with (query (lit "ASCI") (lit "CONSTRAINT_LVL")). rewrite B, Hl. reflexivity. }
  cbv zeta. eapply det_intro; [exact O|]. cbv iota beta.
  eapply det_intro; [exact AH|]. cbv iota beta. eapply det_intro; [exact IE|]. rewrite J, X. cbv iota. right. exists (E0, [], w). split; [right; exists (E0, w); split; [exact R|reflexivity]|].
  cbv iota beta. eapply det_intro; [exact W|]. reflexivity.
Qed.
Lemma dr_asci_mpi_run g : exists out, driver_mpi ex_root dr_syev no_syev_ld no_gelss ex_expm exact ex_show dec1 2 g 5 true (dr_fs dr_asci_in) no_fsb (Some (lit "in.ini")) (Ok out) /\
  out_E out = Q2Qc (-9 # 2) /\ out_dets out = [] /\ (exists f, out_wfn out = Some f) /\ exists f, out_fcidump out = Some f.
Proof.
  exists (mk_outcome (0 + (z (-5) + Q2Qc (1 # 2)))%Qc [] (Some dw) (Some df)). split.
  - eapply (back_mpi ex_root dr_syev no_syev_ld no_gelss ex_expm exact ex_show dec1 2 true (dr_fs dr_asci_in) no_fsb (lit "in.ini") (lit "ints.dump") dr_dump (contents dr_asci_is) (Z.of_nat 1) dr_es dr_asci_o).
    + exists dr_asci_in, dr_asci_is. split; [reflexivity|]. split; [exact dr_asci_says|]. split; [vm_compute; tauto|reflexivity].
    + apply dr_asks; vm_compute; reflexivity.
    + exists dr_dump. split; [reflexivity|exact dr_data].
    + config; cbn; lia.
    + reflexivity.
    + vm_compute. reflexivity.
    + exact dr_ints.
    + reflexivity.
    + exact dr_H.
    + exact dr_Ei.
    + reflexivity.
    + reflexivity.
    + reflexivity.
    + unfold driver_asci_mpi. cbv zeta. apply (det_intro _ _ mol4); [reflexivity|]. eapply det_intro; [exact dr_guess|].
      right. exists (0%Qc, [4294967297%N], [1%Qc], (dTA, dVA)). split; [reflexivity|]. cbv iota beta. cbn [fst snd]. apply (det_intro _ _ mol4); [reflexivity|].
      right. exists (0%Qc, [4294967297%N], [1%Qc]). split; [reflexivity|]. cbv iota beta. apply (det_intro _ _ (Some dw)); [vm_compute; reflexivity|]. reflexivity.
    + vm_compute. reflexivity.
  - split; [apply Qc_is_canon; vm_compute; reflexivity|]. split; [reflexivity|]. split; eexists; reflexivity.
Qed.
Lemma asci_mpi_example : asked exact (dr_fs dr_asci_in) (lit "in.ini") 1 dr_es dr_asci_o /\ d_job dr_asci_o = JobCI /\ d_exp dr_asci_o = ExpASCI /\
  d_mp2 dr_asci_o = false /\ 1 < d_nactive dr_asci_o /\ k_ci_matel (d_mcscf dr_asci_o) = 0%Qc /\ exact_root ex_root /\ eigensolver dr_syev /\
  k_rot (d_asci dr_asci_o) = false /\ (1 <= k_grow (d_asci dr_asci_o))%Z /\ starting_point exact (dr_fs dr_asci_in) (d_asci dr_asci_o) (d_nactive dr_asci_o) 1 1 /\
  (Z.max (Z.of_nat 1) (k_ntdets_max (d_asci dr_asci_o)) * Z.of_nat 2 < 2 ^ 31)%Z /\ prints ex_show exact 1%Qc /\
  forall g, exists out, driver_mpi ex_root dr_syev no_syev_ld no_gelss ex_expm exact ex_show dec1 2 g 5 true (dr_fs dr_asci_in) no_fsb (Some (lit "in.ini")) (Ok out) /\
    out_E out = Q2Qc (-9 # 2) /\ out_dets out = [] /\ (exists f, out_wfn out = Some f) /\ exists f, out_fcidump out = Some f.
Proof.
  split; [exact dr_asci_asked|]. split; [reflexivity|]. split; [reflexivity|]. split; [reflexivity|]. split; [cbn; lia|]. split; [reflexivity|]. split; [exact ex_root_exact|]. split; [exact dr_syev_solves|].
  split; [reflexivity|]. split; [cbn; lia|]. split; [left; split; reflexivity|]. split; [cbn; lia|]. split; [apply show_ok; vm_compute; reflexivity|]. exact dr_asci_mpi_run.
Qed.
Lemma cas_mpi_example : asked exact (dr_fs dr_cas_in) (lit "in.ini") 1 dr_es dr_cas_o /\ d_job dr_cas_o = JobCI /\ d_exp dr_cas_o = ExpCAS /\
  d_mp2 dr_cas_o = false /\ 1 <= d_nactive dr_cas_o /\ k_ci_matel (d_mcscf dr_cas_o) = 0%Qc /\ (Z.of_nat (binom (d_nactive dr_cas_o) 1 * binom (d_nactive dr_cas_o) 1 * 2) < 2 ^ 31)%Z /\
  exists out, driver ex_root dr_syev no_syev_ld no_gelss ex_expm exact ex_show dec1 5 true (dr_fs dr_cas_in) no_fsb (Some (lit "in.ini")) (Ok out).
Proof.
  split; [exact dr_cas_asked|]. split; [reflexivity|]. split; [reflexivity|]. split; [reflexivity|]. split; [cbn; lia|]. split; [reflexivity|]. split; [cbn; lia|].
  destruct dr_cas_run as (out & R & _). exists out. exact R.
Qed.
Lemma mcscf_mpi_example : asked exact (dr_fs dr_mcscf_in) (lit "in.ini") 1 dr_es dr_mcscf_o /\ d_job dr_mcscf_o = JobMCSCF /\ d_rdm dr_mcscf_o = [] /\
  d_mp2 dr_mcscf_o = false /\ 1 <= d_nactive dr_mcscf_o /\ k_ci_matel (d_mcscf dr_mcscf_o) = 0%Qc /\ (Z.of_nat (binom (d_nactive dr_mcscf_o) 1 * binom (d_nactive dr_mcscf_o) 1 * 2) < 2 ^ 31)%Z /\
  exists out, driver ex_root dr_syev no_syev_ld no_gelss ex_expm exact ex_show dec1 5 true (dr_fs dr_mcscf_in) no_fsb (Some (lit "in.ini")) (Ok out).
Proof.
  split; [exact dr_mcscf_asked|]. split; [reflexivity|]. split; [reflexivity|]. split; [reflexivity|]. split; [cbn; lia|]. split; [reflexivity|]. split; [cbn; lia|].
  destruct dr_mcscf_run as (out & R & _). exists out. exact R.
Qed.

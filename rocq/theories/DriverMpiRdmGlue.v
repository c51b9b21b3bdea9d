(** C73: MCSCF jobs with an RDMFILE on several ranks, in terms of what the input files ask for. *)
From Coq Require Import Ascii String QArith Qcanon ZArith NArith Bool.
From Verif Require AsciSort DiisProofs2 SDProofs3.
From Verif Require Import CsrView SparseSpec PropsHamGlue TextProofs.
From Verif Require Import Base Bits SD Spec Sums FockSpec Ham Nondet Mem Text IO IOSpec IOGlue Dense DenseSpec DiisSpec Diis Davidson DavSpec DavProofs2 DavProofs5 DavProofs8 DavProofs14 DavEx Mcscf McscfSpec McscfEx CasciSpec Asci AsciSpec AsciRot AsciRotSpec AsciRotPar
  FreezeSpec Ini IniSpec IniGlue Driver DriverSpec DriverProofs DriverProofs2 DriverProofs3 DriverProofs4 DriverGlue DriverEx DriverOutEx DriverMpi DriverMpiProofs DriverMpiRdm.
Local Open Scope nat_scope.
Local Open Scope string_scope.
Local Open Scope list_scope.

Section GLUE.
  Variables (root : Qc -> Qc) (syev : nat -> list Qc -> res (list Qc * list Qc)) (syev_ld : nat -> list Qc -> nat -> res (list Qc * list Qc))
            (gelss : nat -> list Qc -> list Qc -> res (list Qc)) (expm : nat -> list Qc -> res (list Qc))
            (rnd : Q -> res Qc) (show : Qc -> text) (dec : list N -> Qc).
  Variables (P : nat) (fs : text -> option text) (fsb : text -> option (list N)) (name : text) (ne : nat) (es : list integral) (o : driver_options).
  Hypothesis HA : asked rnd fs name ne es o.
  Local Notation run dbg g fuel := (driver_mpi root syev syev_ld gelss expm rnd show dec P g fuel dbg fs fsb (Some name)).
  Local Notation no := (max_index es).
  Local Notation ni := (d_ninactive o).
  Local Notation na := (d_nactive o).
  Lemma mcscf_rdm_mpi enc D1 L1 D2 L2 bytes : 2 <= P -> d_job o = JobMCSCF -> d_rdm o <> [] -> fsb (d_rdm o) = Some bytes -> write_rdms_binary enc no D1 L1 D2 L2 = Ok bytes ->
    (forall i j, i < no -> j < no -> i + j * L1 < List.length D1) -> (forall i j k l, i < no -> j < no -> k < no -> l < no -> i + j * L2 + k * L2 * L2 + l * L2 * L2 * L2 < List.length D2) ->
    (forall v, In v D1 \/ In v D2 -> List.length (enc v) = 8 /\ dec (enc v) = v) ->
    (d_mp2 o = true -> orthonormal_vectors syev_ld) -> 0 < ne -> ne <= na -> (0 <= k_ci_matel (d_mcscf o))%Qc ->
    (Z.of_nat (binom na ne * binom na ne * P) < 2 ^ 31)%Z ->
    least_squares gelss -> exponential expm -> (k_diis (d_mcscf o) = true -> (0 < k_diis_nkeep (d_mcscf o))%Z) -> rotations_or_tolerance root (k_orb_tol (d_mcscf o)) ni na (d_nvirtual o) ->
    exists f0, forall dbg g fuel out, f0 <= fuel -> run dbg g fuel (Ok out) ->
    exists U T V, rotated no U (file_T es) (file_V es) T V /\ (d_mp2 o = false -> T = file_T es /\ V = file_V es) /\
      right_trace na ne ne (shift2 ni (at2 D1 L1)) /\
      out_E out = (first_core es + total_energy ni na T V (shift2 ni (at2 D1 L1)) (shift4 ni (at4 D2 L2)))%Qc /\
      out_dets out = [] /\ out_wfn out = None.
  Proof.
    destruct HA as (c & fname & F & A & G & C). intros HP J R B W D1b D2b En M N0 L T Z GL EX K RT.
    destruct (mcscf_rdm_mpi_run root syev syev_ld gelss expm rnd show dec P fs fsb name fname c (Z.of_nat ne) es o F A G C J M ltac:(rewrite Nat2Z.id; exact N0) ltac:(rewrite Nat2Z.id; exact L) T HP ltac:(rewrite Nat2Z.id; exact Z)
      GL EX K RT enc D1 L1 D2 L2 bytes R B W D1b D2b En) as (f0 & Q).
    exists f0. intros dbg g fuel out Hf H. specialize (Q g dbg fuel out Hf H). rewrite Nat2Z.id in Q. exact Q.
  Qed.
End GLUE.

(** ** a run on two ranks *)
Lemma back_any root syev syev_ld gelss expm rnd show dec P dbg fs fsb name fname ff c nel es o g fuel E T V T' V' Fi TA VA Ei E0 dets w f :
  input_file fs name c -> asks_for c fname nel -> fcidump_file rnd fs fname es -> configured rnd c (max_index es) o -> fs fname = Some ff ->
  c_value c (lit "ASCI") (lit "CONSTRAINT_LVL") = None ->
  driver_integrals rnd ff = Ok (max_index es, E, T, V) ->
  driver_orbitals syev_ld (d_mp2 o) (max_index es) (d_ninactive o + Z.to_nat nel) T V = Ok (T', V') ->
  active_hamiltonian (max_index es) (d_nactive o) (d_ninactive o) T' (max_index es) V' (max_index es) (repeat 0%Qc (max_index es * max_index es)) (max_index es)
    (repeat 0%Qc (d_nactive o * d_nactive o)) (d_nactive o) (repeat 0%Qc (d_nactive o * d_nactive o * (d_nactive o * d_nactive o))) (d_nactive o) = Ok (Fi, TA, VA) ->
  inactive_energy (d_ninactive o) T' (max_index es) Fi (max_index es) = Ok Ei ->
  job_part_mpi root syev gelss expm rnd show dec P dbg fs fsb nel es o g fuel 2 E T' V' Ei TA VA (Ok (E0, dets, w)) ->
  (match d_fci_out o with [] => Ok None | _ => do f <- write_fcidump show false (max_index es) T' (max_index es) V' (max_index es) E; Ok (Some f) end) = Ok f ->
  driver_mpi root syev syev_ld gelss expm rnd show dec P g fuel dbg fs fsb (Some name) (Ok (mk_outcome E0 dets w f)).
Proof.
  intros Hin Hask Hfci Hconf Hf Hl I O AH IE J W.
  destruct Hin as (fi & is & F1 & F2 & F3 & E1). destruct Hfci as (ff' & G1 & G2 & G3). rewrite Hf in G1. injection G1 as <-.
  destruct (ini_reads fi is F2 F3) as (d & P1 & P2 & _). rewrite <- E1 in P2.
  unfold driver_mpi. eapply det_intro; [reflexivity|]. eapply det_intro; [rewrite F1; exact P1|].
  eapply det_intro; [exact (proj2 (required_ok d c P2 fname nel) Hask)|]. cbv iota beta. eapply det_intro; [unfold stream; rewrite Hf; exact I|]. cbv iota beta.
  eapply det_intro; [exact (proj2 (setup_ok rnd d c P2 (max_index es) o (max_index_bound _ _ _ G2)) Hconf)|].
  apply (det_intro _ _ 2).
  { unfold driver_level, opt. destruct (P2 (lit "ASCI") (lit "CONSTRAINT_LVL")) as (_ & B); [apply query_name_dec; reflexivity..|].
    change (lit "ASCI.CONSTRAINT_LVL") with (query (lit "ASCI") (lit "CONSTRAINT_LVL")). rewrite B, Hl. reflexivity. }
  cbv zeta. eapply det_intro; [exact O|]. cbv iota beta.
  eapply det_intro; [exact AH|]. cbv iota beta. eapply det_intro; [exact IE|]. right. exists (E0, dets, w). split; [exact J|].
  cbv iota beta. eapply det_intro; [exact W|]. reflexivity.
Qed.
Lemma rd_runs_mpi v dbg g fuel : v = 0%Qc \/ v = z (-1000) ->
  exists out, driver_mpi ex_root dr_syev no_syev_ld no_gelss ex_expm exact ex_show rd_dec 2 g fuel dbg (dr_fs rd_in) (rd_fsb v) (Some (lit "in.ini")) (Ok out) /\ out_E out = (Q2Qc (-9 # 2) + q7 * v)%Qc.
Proof.
  intros Hv. 
  set (m := do E1 <- dot_ 4 rd_A1 dTA; do E2 <- dot_ 16 (rd_A2 v) dVA;
            do G <- gradient 3 1 2 0 2 2 dV 3 rd_A1 (rd_A2 v) dF (repeat 0%Qc 9) (repeat 0%Qc 6) (repeat 0%Qc 9) (repeat 0%Qc (0 * 3 + 2 * 1));
            do g <- nrm2 ex_root (snd G); Ok (E1, E2, G, g)).
  destruct (okb_ok m (fun x => let '(E1, E2, G, g) := x in sameq (E1 + E2 + (z (-5) + Q2Qc (1 # 2)))%Qc (Q2Qc (-9 # 2) + q7 * v)%Qc && qlt g (Q2Qc (1000000 # 1)))) as ((((E1 & E2) & (((Fa & Qm) & F) & OG)) & gg) & E & H).
  { destruct Hv as [-> | ->]; vm_compute; reflexivity. }
  unfold m in E. apply bind_ok in E. destruct E as (e1 & Q1 & E). apply bind_ok in E. destruct E as (e2 & Q2 & E). apply bind_ok in E. destruct E as (G & Q3 & E). apply bind_ok in E. destruct E as (g' & Q4 & E). injection E as -> -> -> ->. cbn [snd] in Q4.
  apply andb_prop in H. destruct H as (H1 & H2). apply sameq_ok in H1.
  exists (mk_outcome (E1 + E2 + (z (-5) + Q2Qc (1 # 2)))%Qc [] None None). split; [|exact H1].
  eapply (back_any ex_root dr_syev no_syev_ld no_gelss ex_expm exact ex_show rd_dec 2 dbg (dr_fs rd_in) (rd_fsb v) (lit "in.ini") (lit "ints.dump") dr_dump (contents rd_is) (Z.of_nat 1) dr_es rd_o).
  - exists rd_in, rd_is. split; [reflexivity|]. split; [exact rd_says|]. split; [vm_compute; tauto|reflexivity].
  - apply dr_asks; vm_compute; reflexivity.
  - exists dr_dump. split; [reflexivity|exact dr_data].
  - change (max_index dr_es) with 3. config; cbn; lia.
  - reflexivity.
  - vm_compute. reflexivity.
  - exact dr_ints.
  - reflexivity.
  - exact dr_H.
  - exact dr_Ei.
  - unfold job_part_mpi. change (d_job rd_o) with JobMCSCF. cbv iota.
    right. exists (E1 + E2 + (z (-5) + Q2Qc (1 # 2)))%Qc. split; [|reflexivity].
    unfold driver_mcscf_mpi. cbv zeta. change (d_rdm rd_o) with (lit "d.bin"). change (rd_fsb v (lit "d.bin")) with (Some (rd_bytes v)). change (d_nactive rd_o) with 2. change (d_ninactive rd_o) with 1. change (max_index dr_es) with 3.
    eapply det_intro; [exact (rd_read v Hv)|]. cbn [fst snd].
    right. exists (E1 + E2 + (z (-5) + Q2Qc (1 # 2)), rd_A1, rd_A2 v, (0%nat, true))%Qc. split; [|reflexivity].
    unfold mcscf_impl. right. eexists. split.
    + unfold mcscf_start. eapply det_intro; [reflexivity|]. eapply det_intro; [reflexivity|]. eapply det_intro; [exact dr_H|]. cbv iota beta. eapply det_intro; [exact dr_Ei|]. cbv zeta.
      eapply det_intro; [reflexivity|]. right. exists (rd_A1, rd_A2 v, []). split.
      * match goal with |- context [qlt ?a ?b] => replace (qlt a b) with false by (vm_compute; reflexivity) end. reflexivity.
      * cbv iota beta. eapply det_intro; [exact Q1|]. eapply det_intro; [exact Q2|]. eapply det_intro; [exact Q3|]. cbv iota beta. eapply det_intro; [exact Q4|]. reflexivity.
    + change (orb_grad_tol (mcscf_settings (d_mcscf rd_o))) with (Q2Qc (1000000 # 1)). rewrite H2. right. eexists. split; [reflexivity|]. reflexivity.
  - reflexivity.
Qed.
Lemma rdm_mpi_example : asked exact (dr_fs rd_in) (lit "in.ini") 1 dr_es rd_o /\ d_job rd_o = JobMCSCF /\ d_rdm rd_o <> [] /\
  rd_fsb 0 (d_rdm rd_o) = Some (rd_bytes 0) /\ write_rdms_binary rd_enc 3 rd_D1 3 (rd_D2 0) 3 = Ok (rd_bytes 0) /\
  (forall i j, i < 3 -> j < 3 -> i + j * 3 < List.length rd_D1) /\ (forall i j k l, i < 3 -> j < 3 -> k < 3 -> l < 3 -> i + j * 3 + k * 3 * 3 + l * 3 * 3 * 3 < List.length (rd_D2 0)) /\
  (forall v, In v rd_D1 \/ In v (rd_D2 0) -> List.length (rd_enc v) = 8 /\ rd_dec (rd_enc v) = v) /\
  d_mp2 rd_o = false /\ 1 <= d_nactive rd_o /\ k_ci_matel (d_mcscf rd_o) = 0%Qc /\ (Z.of_nat (binom (d_nactive rd_o) 1 * binom (d_nactive rd_o) 1 * 2) < 2 ^ 31)%Z /\
  least_squares no_gelss /\ exponential ex_expm /\ (0 < k_diis_nkeep (d_mcscf rd_o))%Z /\ rotations_or_tolerance ex_root (k_orb_tol (d_mcscf rd_o)) 1 2 0 /\
  forall dbg g fuel, exists out, driver_mpi ex_root dr_syev no_syev_ld no_gelss ex_expm exact ex_show rd_dec 2 g fuel dbg (dr_fs rd_in) (rd_fsb 0) (Some (lit "in.ini")) (Ok out) /\ out_E out = Q2Qc (-9 # 2).
Proof.
  destruct rdm_example as (A1 & A2 & A3 & A4 & A5 & A6 & A7 & A8 & A9 & A10 & A11 & _ & _ & A12 & A13 & A14 & A15 & _).
  repeat (split; [assumption || (cbn; lia)|]).
  intros dbg g fuel. destruct (rd_runs_mpi 0%Qc dbg g fuel ltac:(auto)) as (out & R & E). exists out. split; [exact R|]. rewrite E. apply Qc_is_canon. vm_compute. reflexivity.
Qed.

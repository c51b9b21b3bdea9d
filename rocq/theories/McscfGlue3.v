(** Glue for Props_Mcscf: statements with the threshold of fuel and the witnesses. *)
From Coq Require Import QArith Qcanon Qcabs.
From Verif Require Import Base SD Spec FockSpec SlaterCondon Ham Sums SDProofs3 Nondet Asci Mem Dense DenseSpec Davidson DavSpec DavEx Diis DiisSpec
  Mcscf McscfSpec CasciSpec McscfProofs6 McscfGlue McscfGlue2 McscfEx.
Local Open Scope nat_scope.
Section CI.
  Variables (root : Qc -> Qc) (syev : nat -> list Qc -> res (list Qc * list Qc)) (W : nat) (st : settings) (na nalpha nbeta : nat).
  Hypothesis HW : spin_width W.
  Hypothesis Hn : na <= W / 2.
  Hypothesis Ha : nalpha <= na.
  Hypothesis Hb : nbeta <= na.
  Hypothesis Ht : (0 <= ci_matel_tol st)%Qc.
  Lemma some_space : exists dets, whole_space W na nalpha nbeta dets /\ exists f0, forall fuel, f0 <= fuel -> generate_hilbert_space fuel W na nalpha nbeta = Ok dets.
  Proof.
    assert (EW : Nat.even W = true) by (destruct HW as [->| ->]; reflexivity).
    destruct (hilbert_spec W na nalpha nbeta EW Hn Ha Hb) as (l & f & ND & _ & I). exists l. split; [split; auto|exact f].
  Qed.
  Lemma casci : exists f0, forall fuel TA VA Z1 Z2 X e B1 B2 Y, f0 <= fuel -> na * na <= length TA -> na * na * (na * na) <= length VA ->
    symmetric2 na (at2 TA na) -> eightfold na (at4 VA na) -> zeros (na * na) Z1 -> zeros (na * na * (na * na)) Z2 ->
    compute_casci_rdms root syev fuel W st na nalpha nbeta TA VA Z1 Z2 X (Ok (e, B1, B2, Y)) ->
    length B1 = length Z1 /\ length B2 = length Z2 /\ ci_solution root W nalpha nbeta na (ci_matel_tol st) (ci_res_tol st) TA VA e B1 B2.
  Proof.
    destruct some_space as (dets & WS & f0 & Hf). exists f0. intros fuel TA VA Z1 Z2 X e B1 B2 Y Hfu. intros. eapply (ci_solves root syev W HW st na nalpha nbeta Hn Ht dets fuel WS (Hf fuel Hfu)); eauto.
  Qed.
  Lemma casci_ground : exact_root root -> eigensolver syev -> exists f0, forall fuel TA VA Z1 Z2 e B1 B2 Y, f0 <= fuel -> na * na <= length TA -> na * na * (na * na) <= length VA ->
    symmetric2 na (at2 TA na) -> eightfold na (at4 VA na) -> zeros (na * na) Z1 -> zeros (na * na * (na * na)) Z2 ->
    compute_casci_rdms root syev fuel W st na nalpha nbeta TA VA Z1 Z2 [] (Ok (e, B1, B2, Y)) ->
    length B1 = length Z1 /\ length B2 = length Z2 /\ ci_ground root W nalpha nbeta na (ci_matel_tol st) (ci_res_tol st) TA VA e B1 B2 /\
    (trace na (at2 B1 na) <= inject (nalpha + nbeta))%Qc /\
    (inject (nalpha + nbeta) * (1 - inject (binom na nalpha * binom na nbeta) * Q2Qc (1 # 10000000000000000)) <= trace na (at2 B1 na))%Qc.
  Proof.
    intros XR XE. assert (EW : Nat.even W = true) by (destruct HW as [->| ->]; reflexivity).
    destruct (hilbert_spec W na nalpha nbeta EW Hn Ha Hb) as (dets & (f0 & Hf) & ND & Ld & I). assert (WS : whole_space W na nalpha nbeta dets) by (split; auto).
    exists f0. intros fuel TA VA Z1 Z2 e B1 B2 Y Hfu. intros.
    destruct (ci_solves_exact root syev W HW st na nalpha nbeta Hn Ht dets fuel WS (Hf fuel Hfu) TA VA Z1 Z2 [] e B1 B2 Y) as (L1 & L2 & _ & G); auto; [left; reflexivity|].
    split; [exact L1|]. split; [exact L2|]. split; [exact G|]. destruct G as (ds & Y' & [ND' SP] & LY & _ & DY & _ & _ & DD).
    assert (Le : length ds = binom na nalpha * binom na nbeta).
    { rewrite <- Ld. apply Nat.le_antisymm; apply NoDup_incl_length; auto; intros b Hb'; [apply I|apply SP]; [apply SP|apply I]; exact Hb'. }
    rewrite <- Le. exact (ci_trace W na nalpha nbeta ds Y' _ _ HW Hn (conj ND' SP) LY DY DD).
  Qed.
End CI.
Lemma bad_energy : exists root syev gelss expm st nalpha nbeta no ni na nv T V A1 A2 dets E b,
  exact_root root /\ eigensolver syev /\ least_squares gelss /\ exponential expm /\ orbital_problem no ni na nv T no V /\ density_room na A1 A2 /\
  right_trace na nalpha nbeta (at2 A1 na) /\
  (forall fuel, casscf_diis root syev gelss expm fuel st nalpha nbeta no ni na nv 0%Qc T no V no na na A1 A2 (Ok (E, A1, A2, (0, true)))) /\
  ni = 0 /\ whole_space 64 na nalpha nbeta dets /\ spectrum_above (length dets) (ci_matrix 64 (mk_ints na (at2 T na) (at4 V na)) 0%Qc dets) b /\ (E < b)%Qc.
Proof.
  exists ex_root, ex_syev, no_gelss, ex_expm, exst, 1, 0, 2, 0, 2, 0, badT, exA2, badA1, exA2, dets2, (z (-3)), (- (1))%Qc.
  split; [exact ex_root_exact|]. split; [exact ex_syev_solves|]. split; [exact no_gelss_ok|]. split; [exact ex_expm_ok|].
  split; [apply bad_problem; [reflexivity|]; intros [|[|i]] [|[|j]] Hi Hj; try lia; reflexivity|]. split; [apply bad_room|]. split; [exact bad_trace|].
  split; [exact bad_run|]. split; [reflexivity|]. split; [exact bad_space|]. split; [exact bad_spectrum|vm_compute; reflexivity].
Qed.
Lemma padded : exists root syev gelss expm st nalpha nbeta no na T V LDD1 A1 A2 E,
  exact_root root /\ eigensolver syev /\ least_squares gelss /\ exponential expm /\ orbital_problem no 0 na 0 T no V /\
  na <= LDD1 /\ fits2 A1 LDD1 na na /\ na * na * (na * na) <= length A2 /\ right_trace na nalpha nbeta (at2 A1 LDD1) /\
  (forall fuel, casscf_diis root syev gelss expm fuel st nalpha nbeta no 0 na 0 0%Qc T no V no LDD1 na A1 A2 (Ok (E, A1, A2, (0, true)))) /\
  E <> total_energy 0 na (at2 T no) (at4 V no) (at2 A1 LDD1) (at4 A2 na).
Proof.
  exists ex_root, ex_syev, no_gelss, ex_expm, exst, 1, 0, 2, 2, padT, exA2, 3, padA1, exA2, (z 4).
  split; [exact ex_root_exact|]. split; [exact ex_syev_solves|]. split; [exact no_gelss_ok|]. split; [exact ex_expm_ok|].
  split; [apply bad_problem; [reflexivity|]; intros [|[|i]] [|[|j]] Hi Hj; try lia; reflexivity|]. split; [lia|]. split; [split; [lia|intros i j Hi Hj; change (length padA1) with 6; lia]|].
  split; [reflexivity|]. split; [exact pad_trace|]. split; [exact pad_run|]. rewrite pad_energy. discriminate.
Qed.
Lemma first_test : exists root syev gelss expm st nalpha nbeta no ni na nv E_core T V A1 A2 E,
  exact_root root /\ eigensolver syev /\ least_squares gelss /\ exponential expm /\ orbital_problem no ni na nv T no V /\ density_room na A1 A2 /\
  right_trace na nalpha nbeta (at2 A1 na) /\ 0 < rot_size ni na nv /\
  (forall fuel, casscf_diis root syev gelss expm fuel st nalpha nbeta no ni na nv E_core T no V no na na A1 A2 (Ok (E, A1, A2, (0, false)))) /\
  (root (gradient_norm2 ni na nv (at2 T no) (at4 V no) (at2 A1 na) (at4 A2 na)) / root (inject (rot_size ni na nv)) < orb_grad_tol st)%Qc.
Proof.
  exists ex_root, ex_syev, no_gelss, ex_expm, exst3, 1, 0, 4, 0, 2, 2, (z 10), exT, exV, exA1, exA2, exE.
  split; [exact ex_root_exact|]. split; [exact ex_syev_solves|]. split; [exact no_gelss_ok|]. split; [exact ex_expm_ok|]. split; [exact ex_problem|]. split; [apply bad_room|].
  split; [vm_compute; discriminate|]. split; [cbn; lia|]. split; [exact first_run|exact (proj2 first_norm)].
Qed.
Section RUN.
  Variables (root : Qc -> Qc) (syev : nat -> list Qc -> res (list Qc * list Qc)) (gelss : nat -> list Qc -> list Qc -> res (list Qc)) (expm : nat -> list Qc -> res (list Qc)) (st : settings)
    (nalpha nbeta no ni na nv : nat) (E_core : Qc) (T : list Qc) (LDT : nat) (V A1 A2 : list Qc).
  Hypothesis HP : orbital_problem no ni na nv T LDT V.
  Hypothesis HD : density_room na A1 A2.
  Hypothesis HR : rotations_or_tolerance root (orb_grad_tol st) ni na nv.
  Hypothesis HL : least_squares gelss.
  Hypothesis HE : exponential expm.
  Hypothesis HK : enable_diis st = true -> 0 < diis_nkeep st.
  Hypothesis Hn : na <= 32.
  Hypothesis Ha : nalpha <= na.
  Hypothesis Hb : nbeta <= na.
  Hypothesis Ht : (0 <= ci_matel_tol st)%Qc.
  Local Notation run fuel := (casscf_diis root syev gelss expm fuel st nalpha nbeta no ni na nv E_core T LDT V no na na A1 A2).
  Lemma flag : exists f0, forall fuel E B1 B2 it conv, f0 <= fuel -> run fuel (Ok (E, B1, B2, (it, conv))) ->
    exists U T' V', rotated no U (at2 T LDT) (at4 V no) T' V' /\
      (let g := root (gradient_norm2 ni na nv T' V' (at2 B1 na) (at4 B2 na)) in
       conv = true <-> ((if it =? 0 then g else g / root (inject (rot_size ni na nv))) < orb_grad_tol st)%Qc) /\
      it <= max_macro_iter st /\ (conv = false -> it = max_macro_iter st).
  Proof.
    destruct (casscf_answer root syev gelss expm st nalpha nbeta no ni na nv E_core T LDT V A1 A2 HP HD HR HL HE HK Hn Ha Hb Ht) as (f0 & H).
    exists f0. intros fuel E B1 B2 it conv Hf Hr. specialize (H fuel Hf _ Hr). destruct H as (_ & _ & tr & _ & _ & _ & (RT & _) & (Lm & _ & CV & _) & (EE & E1 & E2)).
    destruct HP as (En & _). rewrite <- En in RT. exists (p_U (tr it)), (p_T (tr it)), (p_V (tr it)). split; [exact (RT it (le_n _))|]. unfold converged_at in CV. rewrite E1, E2 in CV. cbv zeta in CV |- *.
    split; [destruct conv; [tauto|]; split; [discriminate|]; destruct CV as [_ CV]; tauto|]. split; [exact Lm|]. intros ->. apply CV.
  Qed.
  Lemma start_point : exists f0, forall fuel E B1 B2 conv, f0 <= fuel -> run fuel (Ok (E, B1, B2, (0, conv))) ->
    E = (E_core + total_energy ni na (at2 T LDT) (at4 V no) (at2 B1 na) (at4 B2 na))%Qc /\
    (right_trace na nalpha nbeta (at2 A1 na) -> same2 na (at2 B1 na) (at2 A1 na) /\ same4 na (at4 B2 na) (at4 A2 na)) /\
    (~ right_trace na nalpha nbeta (at2 A1 na) -> exists TA VA e, active_arrays ni na (at2 T LDT) (at4 V no) TA VA /\
       ci_solution root 64 nalpha nbeta na (ci_matel_tol st) (ci_res_tol st) TA VA e B1 B2).
  Proof.
    destruct (casscf_answer root syev gelss expm st nalpha nbeta no ni na nv E_core T LDT V A1 A2 HP HD HR HL HE HK Hn Ha Hb Ht) as (f0 & H).
    exists f0. intros fuel E B1 B2 conv Hf Hr. specialize (H fuel Hf _ Hr). destruct H as (_ & _ & tr & (_ & _ & S1 & S2 & S3) & SD & _ & _ & _ & (EE & E1 & E2)).
    split; [rewrite <- EE, S3, E1, E2; reflexivity|]. destruct SD as [(R & D1 & D2)|(R & TA & VA & e & C1 & C2 & AA & PO & D1 & D2)].
    - split; [intros _|tauto]. rewrite <- E1, <- E2, D1, D2. split; intros ? ? *; reflexivity.
    - split; [tauto|intros _]. exists TA, VA, e. split; [exact AA|]. destruct PO as (ds & Y & WS & LY & RS & DD). exists ds, Y. repeat (split; [assumption|]).
      rewrite <- E1, <- E2, D1, D2. exact DD.
  Qed.
  Lemma run_steps : (0 <= max_orbital_step st)%Qc -> exists f0, forall fuel E B1 B2 it conv, f0 <= fuel -> run fuel (Ok (E, B1, B2, (it, conv))) ->
    exists tr, starts ni na nv E_core (at2 T LDT) (at4 V no) (tr 0) /\ handed_back na (tr it) E B1 B2 /\
      (forall i, i <= it -> rotated no (p_U (tr i)) (at2 T LDT) (at4 V no) (p_T (tr i)) (p_V (tr i))) /\
      forall i, i < it -> orbital_pass expm (max_orbital_step st) (enable_diis st) (diis_start_iter st) (diis_nkeep st) ni na nv tr i /\
        forall p q, p < no -> q < no -> (Qcabs (p_trial (tr (S i)) p q - p_K (tr i) p q) <= max_orbital_step st)%Qc /\
          (enable_diis st = false \/ i < diis_start_iter st + 2 -> (Qcabs (p_K (tr (S i)) p q - p_K (tr i) p q) <= max_orbital_step st)%Qc).
  Proof.
    intros Hm. destruct (casscf_answer root syev gelss expm st nalpha nbeta no ni na nv E_core T LDT V A1 A2 HP HD HR HL HE HK Hn Ha Hb Ht) as (f0 & H).
    exists f0. intros fuel E B1 B2 it conv Hf Hr. specialize (H fuel Hf _ Hr). destruct H as (_ & _ & tr & ST & _ & PS & (RT & _) & _ & HB).
    destruct HP as (En & _). rewrite <- En in RT. exists tr. split; [exact ST|]. split; [exact HB|]. split; [exact RT|]. intros i Hi. split; [exact (PS i Hi)|]. intros p q Hp Hq.
    rewrite En in Hp, Hq. destruct (pass_step _ _ _ _ _ _ _ _ _ _ Hm (PS i Hi) p q Hp Hq) as [X1 X2]. split; [exact X1|]. intros C. apply X2.
    destruct C as [->|C]; [reflexivity|]. rewrite (proj2 (Nat.leb_gt _ _)) by exact C. apply andb_false_r.
  Qed.
End RUN.

(** The driver's MCSCF jobs that start from densities in a file. *)
From Coq Require Import Ascii String QArith Qcanon ZArith NArith Bool Lqa.
From Verif Require AsciSearch2.
From Verif Require Import Base Bits SD Spec Sums FockSpec SlaterCondon Ham HamProofs Nondet Mem Text IO IOSpec RdmIOProofs Dense DenseSpec DenseProofs FockMatProofs DiisSpec Diis Davidson DavSpec DavProofs2 DavProofs5 DavProofs8
  Mcscf McscfSpec CasciSpec McscfProofs2 McscfProofs6 McscfGlue McscfGlue2 Asci AsciSpec AsciRot AsciRotSpec AsciRotProofs FreezeSpec FreezeProofs4 FreezeGlue FreezeGlue2 Ini IniSpec Driver DriverSpec DriverProofs DriverProofs2 DriverProofs3 DriverProofs4.
Local Open Scope nat_scope.

Lemma total_ext no ni na T T' V V' D D' D2 D2' : ni + na <= no -> same2 no T T' -> same4 no V V' -> same2 na D D' -> same4 na D2 D2' ->
  total_energy ni na T V D D2 = total_energy ni na T' V' D' D2'.
Proof.
  intros Hi ST SV SD SD2. unfold total_energy, core_energy, valence_energy, shift2, shift4, inactive_fock. f_equal; [f_equal|f_equal].
  - apply Sigma_ext. intros i A. rewrite ST by lia. reflexivity.
  - apply Sigma_ext. intros i A. apply Sigma_ext. intros j B. rewrite !SV by lia. reflexivity.
  - apply Sigma_ext. intros x A. apply Sigma_ext. intros y B. rewrite SD by auto. rewrite ST by lia. f_equal. f_equal. apply Sigma_ext. intros k C. rewrite !SV by lia. reflexivity.
  - apply Sigma_ext. intros x A. apply Sigma_ext. intros y B. apply Sigma_ext. intros w C. apply Sigma_ext. intros u E. rewrite SD2 by auto. rewrite SV by lia. reflexivity.
Qed.
Section MCSCF_JOB.
  Variables (root : Qc -> Qc) (syev : nat -> list Qc -> res (list Qc * list Qc)) (syev_ld : nat -> list Qc -> nat -> res (list Qc * list Qc))
            (gelss : nat -> list Qc -> list Qc -> res (list Qc)) (expm : nat -> list Qc -> res (list Qc))
            (rnd : Q -> res Qc) (show : Qc -> text) (dec : list N -> Qc).
  Variables (dbg : bool) (fs : text -> option text) (fsb : text -> option (list N)).
  Variables (name fname : text) (c : content) (nel : Z) (es : list integral) (o : driver_options).
  Hypothesis Hin : input_file fs name c.
  Hypothesis Hask : asks_for c fname nel.
  Hypothesis Hfci : fcidump_file rnd fs fname es.
  Hypothesis Hconf : configured rnd c (max_index es) o.
  Local Notation run fuel := (driver root syev syev_ld gelss expm rnd show dec fuel dbg fs fsb (Some name)).
  Local Notation no := (max_index es).
  Local Notation ni := (d_ninactive o).
  Local Notation na := (d_nactive o).
  Local Notation nv := (d_nvirtual o).
  Local Notation ne := (Z.to_nat nel).
  Hypothesis Hjob : d_job o = JobMCSCF.
  Hypothesis HV : d_mp2 o = true -> orthonormal_vectors syev_ld.
  Hypothesis H0 : 0 < ne.
  Hypothesis Hel : ne <= na.
  Hypothesis Hthr : (0 <= k_ci_matel (d_mcscf o))%Qc.
  Hypothesis HR : exact_root root.
  Hypothesis HS : eigensolver syev.
  Hypothesis HG : least_squares gelss.
  Hypothesis HX : exponential expm.
  Hypothesis Hk : k_diis (d_mcscf o) = true -> (0 < k_diis_nkeep (d_mcscf o))%Z.
  Hypothesis Hrt : rotations_or_tolerance root (k_orb_tol (d_mcscf o)) ni na nv.
  (** the file holds the densities [D1], [D2] of all orbitals *)
  Variables (enc : Qc -> list N) (D1 : list Qc) (L1 : nat) (D2 : list Qc) (L2 : nat) (bytes : list N).
  Hypothesis Hrdm : d_rdm o <> [].
  Hypothesis Hbytes : fsb (d_rdm o) = Some bytes.
  Hypothesis Hwrite : write_rdms_binary enc no D1 L1 D2 L2 = Ok bytes.
  Hypothesis HD1 : forall i j, i < no -> j < no -> i + j * L1 < length D1.
  Hypothesis HD2 : forall i j k l, i < no -> j < no -> k < no -> l < no -> i + j * L2 + k * L2 * L2 + l * L2 * L2 * L2 < length D2.
  Hypothesis Henc : forall v, In v D1 \/ In v D2 -> length (enc v) = 8 /\ dec (enc v) = v.

  Lemma densities_read : exists A1 A2,
    (do x <- read_rdms_binary dec (Some bytes) no (repeat 0%Qc (no * no)) no (repeat 0%Qc (no * no * (no * no))) no;
     do A1 <- active_submatrix_1body na ni (fst x) no (repeat 0%Qc (na * na)) na;
     do A2 <- active_subtensor_2body na ni (snd x) no (repeat 0%Qc (na * na * (na * na))) na; Ok (A1, A2)) = Ok (A1, A2) /\
    density_room na A1 A2 /\ same2 na (at2 A1 na) (shift2 ni (at2 D1 L1)) /\ same4 na (at4 A2 na) (shift4 ni (at4 D2 L2)).
  Proof.
    assert (Hi : ni + na <= no) by (destruct Hconf as (_ & _ & _ & _ & A & _); lia).
    destruct (c25_round_trip enc dec no D1 L1 D2 L2 HD1 HD2 Henc (repeat 0%Qc (no * no)) no (repeat 0%Qc (no * no * (no * no))) no (le_n _) (le_n _)) as (file & O1 & T1 & W & R & LO & LT & RO & RT & _).
    { intros i j A B. rewrite repeat_length. nia. }
    { intros i j k l A B C D. rewrite repeat_length. assert (i + j * no < no * no) by nia. assert (k + l * no < no * no) by nia. nia. }
    rewrite W in Hwrite. injection Hwrite as ->. rewrite R. cbn [bind fst snd]. rewrite repeat_length in LO, LT.
    destruct (active_sub1_ok na ni O1 no (repeat 0%Qc (na * na)) na) as (A1 & E1 & F1).
    { split; [lia|]. intros i j A B. rewrite LO. nia. } { split; [lia|]. intros i j A B. rewrite repeat_length. nia. }
    destruct (active_sub2_ok na ni T1 no (repeat 0%Qc (na * na * (na * na))) na) as (A2 & E2 & F2).
    { split; [lia|]. intros i j k l A B C D. rewrite LT. assert (i + j * no < no * no) by nia. assert (k + l * no < no * no) by nia. nia. }
    { split; [lia|]. intros i j k l A B C D. rewrite repeat_length. assert (i + j * na < na * na) by nia. assert (k + l * na < na * na) by nia. nia. }
    rewrite E1. cbn [bind]. rewrite E2. cbn [bind]. exists A1, A2. split; [reflexivity|]. destruct F1 as (G1 & G2 & _). destruct F2 as (K1 & K2 & _). rewrite repeat_length in G1, K1.
    split; [split; lia|]. split.
    - intros p q Hp Hq. rewrite G2 by auto. unfold shift2, at2. apply RO; lia.
    - intros p q r s Hp Hq Hr Hs. rewrite K2 by auto. unfold shift4, at4. apply RT; lia.
  Qed.
  Lemma mcscf_rdm_run : exists f0, forall W2 fuel out, no <= W2 / 2 -> f0 <= fuel -> run fuel (Ok out) ->
    (exists U gT gV, rotated no U (file_T es) (file_V es) gT gV /\
      ((exists dets Y E, whole_space 64 na ne ne dets /\ wave_function W2 no ni na ne gT gV dets Y E /\
        (Qcabs (out_E out - (first_core es + E)) <= neglected ni na gT gV (k_ci_matel (d_mcscf o)) dets)%Qc) \/
       (right_trace na ne ne (shift2 ni (at2 D1 L1)) /\ (d_mp2 o = false -> gT = file_T es /\ gV = file_V es) /\
        out_E out = (first_core es + total_energy ni na gT gV (shift2 ni (at2 D1 L1)) (shift4 ni (at4 D2 L2)))%Qc))) /\ out_dets out = [] /\ out_wfn out = None.
  Proof.
    assert (Hi : ni + na <= no /\ na <= 32 /\ no = ni + na + nv) by (destruct Hconf as (_ & _ & _ & _ & A & _ & B & _); lia). destruct Hi as (Hi & H32 & Hno').
    destruct (run_parts root syev syev_ld gelss expm rnd show dec dbg fs fsb name fname c nel es o Hin Hask Hfci Hconf) as (T & V & LT & LV & ST & SV & P).
    destruct (driver_orbitals syev_ld (d_mp2 o) no (ni + ne) T V) as [(T1 & V1)|er] eqn:OB.
    2:{ exists 0. intros W2 fuel out _ _ H. destruct (P fuel out H) as (T' & V' & Fi & TA & VA & Ei & w & OB' & _). discriminate OB'. }
    destruct (file_sym es no) as (St0 & Sv0).
    destruct (orbitals_used syev_ld rnd c nel es o Hconf HV T V T1 V1 LT LV ST SV OB) as (LT' & LV' & U0 & gT & gV & RO & ST' & SV' & GF).
    destruct (rotated_sym no U0 (file_T es) (file_V es) gT gV St0 Sv0 RO) as (St & Sv).
    assert (OP : orbital_problem no ni na nv T1 no V1).
    { split; [exact Hno'|]. split; [lia|]. split; [|split; [|split]].
      - split; [lia|intros i j A B; rewrite LT'; nia].
      - split; [lia|]. intros i j k l A B C D. rewrite LV'. assert (i + j * no < no * no) by nia. assert (k + l * no < no * no) by nia. nia.
      - intros p q A B. rewrite !ST' by auto. apply St; auto.
      - intros p q r s A B C D. rewrite !SV' by auto. apply Sv; auto. }
    destruct densities_read as (A1 & A2 & RD & DR & SA & SA2).
    destruct (casscf_ground root syev gelss expm (mcscf_settings (d_mcscf o)) ne ne no ni na nv (first_core es) T1 no V1 A1 A2) as (f0 & C57); auto.
    { intros E. specialize (Hk E). cbn [diis_nkeep mcscf_settings]. lia. }
    exists f0. intros W2 fuel out H2 Hf H. destruct (P fuel out H) as (T' & V' & Fi & TA & VA & Ei & w & OB' & _ & _ & J & OW & _). injection OB' as <- <-.
    unfold job_part in J. rewrite Hjob in J. apply nd_inv in J. destruct J as (E0 & J & J'). red in J'. injection J' as QE QD QW.
    unfold driver_mcscf_run in J. cbv zeta in J. destruct (d_rdm o) as [|c0 l0] eqn:ER; [contradiction|]. cbv iota in J. rewrite Hbytes in J. rewrite RD in J. apply DavProofs2.det_inv in J. destruct J as (D & JD & J). injection JD as <-. cbn [fst snd] in J.
    apply nd_inv in J. destruct J as ((((E1 & B1) & B2) & (it & conv)) & JC & J). red in J. injection J as QE1.
    specialize (C57 fuel Hf _ JC). destruct C57 as (_ & _ & tr & ST1 & SD1 & _ & (RT & SO) & _ & (EE & _ & _)).
    split; [|rewrite OW; auto].
    assert (First : it = 0 /\ right_trace na ne ne (at2 A1 na) /\ p_D (tr 0) = at2 A1 na /\ p_D2 (tr 0) = at4 A2 na \/ (0 < it \/ ~ right_trace na ne ne (at2 A1 na))).
    { destruct it as [|it]; [|right; left; lia]. destruct SD1 as [(TR & Q1 & Q2)|(NT & _)]; [left; auto|right; right; exact NT]. }
    destruct First as [(-> & TR & PD & PD2)|NF].
    { exists U0, gT, gV. split; [exact RO|]. right. split; [|split; [exact GF|]].
      - unfold right_trace, trace in *. rewrite (Sigma_ext na (fun i => shift2 ni (at2 D1 L1) i i) (fun i => at2 A1 na i i)); [exact TR|]. intros p Hp. symmetry. apply SA; auto.
      - destruct ST1 as (_ & _ & X1 & X2 & X3). rewrite QE, QE1, <- EE, X3, PD, PD2. f_equal. apply total_ext with (no := no); auto. }
    rewrite <- Hno' in RT. pose proof (RT it (le_n _)) as Rt. 
    apply (rotated_same no (p_U (tr it)) (at2 T1 no) gT (at4 V1 no) gV) in Rt; auto.
    pose proof (rotated_trans no U0 (p_U (tr it)) _ _ _ _ _ _ RO Rt) as RF.
    destruct (rotated_sym no _ _ _ _ _ St0 Sv0 RF) as (St' & Sv').
    set (gT' := p_T (tr it)) in *. set (gV' := p_V (tr it)) in *.
    assert (EX : exchange_symmetric no gV') by (intros p q r s Hp Hq Hr Hs; apply Sv'; auto).
    assert (SV4 : eri_symmetric na (active_V ni gV')). { apply eight_eri. intros p q r s Hp Hq Hr Hs. unfold active_V, shift4. apply Sv'; lia. }
    assert (G : exists TA VA e C1 C2, active_arrays ni na gT' gV' TA VA /\ ci_ground root 64 ne ne na (k_ci_matel (d_mcscf o)) (k_ci_tol (d_mcscf o)) TA VA e C1 C2 /\
      p_D (tr it) = at2 C1 na /\ p_D2 (tr it) = at4 C2 na /\
      (p_E (tr it) = (first_core es + core_energy ni gT' gV' + e)%Qc \/ p_E (tr it) = (first_core es + total_energy ni na gT' gV' (p_D (tr it)) (p_D2 (tr it)))%Qc)).
    { destruct it as [|it].
      - destruct ST1 as (_ & _ & X1 & X2 & X3). destruct SD1 as [(TR & _)|(_ & TA' & VA' & e & C1 & C2 & AA & G & DD1 & DD2)].
        + exfalso. destruct NF as [NF|NF]; [lia|exact (NF TR)].
        + exists TA', VA', e, C1, C2. subst gT' gV'. rewrite X1, X2. auto 10.
      - destruct (SO (S it) ltac:(lia)) as (TA' & VA' & e & C1 & C2 & AA & G & DD1 & DD2 & EP). exists TA', VA', e, C1, C2. auto 10. }
    destruct G as (TA' & VA' & e & C1 & C2 & (_ & _ & M2 & M4) & (dets & Y & WS & LY & _ & Y1 & Y2 & _ & DD) & DD1 & DD2 & EP).
    exists (product no U0 (p_U (tr it))), gT', gV'. split; [exact RF|]. left. exists dets, Y. eexists. split; [exact WS|]. split.
    { apply state_fun; auto. destruct WS as (ND & I). split; auto. intros d Hd. apply I; auto. }
    rewrite QE, QE1, <- EE.
    rewrite (expectation_ext _ (ci_matrix 64 (mk_ints na (at2 TA' na) (at4 VA' na)) (k_ci_matel (d_mcscf o)) dets) (ci_matrix 64 (mk_ints na (active_T ni gT' gV') (active_V ni gV')) (k_ci_matel (d_mcscf o)) dets)) in Y2.
    2:{ intros i j _ _. unfold ci_matrix. cbn [norb T_pq V_pqrs]. rewrite (ham_same 64 na (at2 TA' na) (active_T ni gT' gV') (at4 VA' na) (active_V ni gV') _ _ M2 M4). reflexivity. }
    destruct EP as [-> | ->].
    - rewrite <- Y2. eapply Qcle_trans; [|apply neglected_tol; auto].
      match goal with |- (Qcabs ?x <= _)%Qc => match x with context [expectation ?n ?A Y] => match x with context [expectation n (ci_matrix _ _ 0%Qc _) Y] => idtac end end end.
      pose proof (ci_truncated 64 (mk_ints na (active_T ni gT' gV') (active_V ni gV')) (k_ci_matel (d_mcscf o)) dets Y Hthr Y1) as K.
      match goal with |- (Qcabs ?x <= _)%Qc => match type of K with (Qcabs ?y <= _)%Qc => replace x with y by ring end end. exact K.
    - rewrite total_split. rewrite DD1, DD2. eapply Qcle_trans; [|apply neglected_zero; auto].
      pose proof (ci_energy 64 na (active_T ni gT' gV') (active_V ni gV') 0%Qc dets Y _ _ SV4 (Qcle_refl _) LY Y1 DD) as K.
      match goal with |- (Qcabs ?x <= _)%Qc => match type of K with (Qcabs ?y <= _)%Qc => replace x with (- y)%Qc by ring end end. rewrite AsciSearch2.Qcabs_opp. exact K.
  Qed.
End MCSCF_JOB.

(** The driver's MCSCF jobs that start from densities in a file, on several ranks. *)
From Coq Require Import Ascii String QArith Qcanon ZArith NArith Bool Lqa.
From Verif Require Import Base Bits SD Spec Sums FockSpec SlaterCondon Ham HamProofs Nondet Mem Text IO IOSpec RdmIOProofs Dense DenseSpec DenseProofs FockMatProofs DiisSpec Diis Davidson DavSpec DavProofs2 DavProofs5 DavProofs8
  Mcscf McscfSpec CasciSpec McscfProofs2 McscfProofs6 McscfGlue McscfGlue2 Asci AsciSpec AsciRot AsciRotSpec AsciRotProofs FreezeSpec FreezeProofs4 FreezeGlue FreezeGlue2 Ini IniSpec Driver DriverSpec DriverProofs DriverProofs2 DriverProofs3 DriverProofs4
  DriverRdm DriverMpi DriverMpiProofs.
Local Open Scope nat_scope.
Section MCSCF_JOB.
  Variables (root : Qc -> Qc) (syev : nat -> list Qc -> res (list Qc * list Qc)) (syev_ld : nat -> list Qc -> nat -> res (list Qc * list Qc))
            (gelss : nat -> list Qc -> list Qc -> res (list Qc)) (expm : nat -> list Qc -> res (list Qc))
            (rnd : Q -> res Qc) (show : Qc -> text) (dec : list N -> Qc).
  Variables (P : nat) (fs : text -> option text) (fsb : text -> option (list N)).
  Variables (name fname : text) (c : content) (nel : Z) (es : list integral) (o : driver_options).
  Hypothesis Hin : input_file fs name c.
  Hypothesis Hask : asks_for c fname nel.
  Hypothesis Hfci : fcidump_file rnd fs fname es.
  Hypothesis Hconf : configured rnd c (max_index es) o.
  Local Notation run g dbg fuel := (driver_mpi root syev syev_ld gelss expm rnd show dec P g fuel dbg fs fsb (Some name)).
  Local Notation no := (max_index es).
  Local Notation ni := (d_ninactive o).
  Local Notation na := (d_nactive o).
  Local Notation nv := (d_nvirtual o).
  Local Notation ne := (Z.to_nat nel).
  Hypothesis Hjob : d_job o = JobMCSCF.
  Hypothesis HV : d_mp2 o = true -> orthonormal_vectors syev_ld.
  Hypothesis H0 : 0 < ne.
  Hypothesis Hel : ne <= na.
  Hypothesis Hthr : (0 <= k_ci_matel (d_mcscf o))%Qc.
  Hypothesis HP : 2 <= P.
  Hypothesis HZ : (Z.of_nat (binom na ne * binom na ne * P) < 2 ^ 31)%Z.
  Hypothesis HG : least_squares gelss.
  Hypothesis HX : exponential expm.
  Hypothesis Hk : k_diis (d_mcscf o) = true -> (0 < k_diis_nkeep (d_mcscf o))%Z.
  Hypothesis Hrt : rotations_or_tolerance root (k_orb_tol (d_mcscf o)) ni na nv.
  Variables (enc : Qc -> list N) (D1 : list Qc) (L1 : nat) (D2 : list Qc) (L2 : nat) (bytes : list N).
  Hypothesis Hrdm : d_rdm o <> [].
  Hypothesis Hbytes : fsb (d_rdm o) = Some bytes.
  Hypothesis Hwrite : write_rdms_binary enc no D1 L1 D2 L2 = Ok bytes.
  Hypothesis HD1 : forall i j, i < no -> j < no -> i + j * L1 < length D1.
  Hypothesis HD2 : forall i j k l, i < no -> j < no -> k < no -> l < no -> i + j * L2 + k * L2 * L2 + l * L2 * L2 * L2 < length D2.
  Hypothesis Henc : forall v, In v D1 \/ In v D2 -> length (enc v) = 8 /\ dec (enc v) = v.
  Lemma mcscf_rdm_mpi_run : exists f0, forall g dbg fuel out, f0 <= fuel -> run g dbg fuel (Ok out) ->
    exists U gT gV, rotated no U (file_T es) (file_V es) gT gV /\ (d_mp2 o = false -> gT = file_T es /\ gV = file_V es) /\
      right_trace na ne ne (shift2 ni (at2 D1 L1)) /\
      out_E out = (first_core es + total_energy ni na gT gV (shift2 ni (at2 D1 L1)) (shift4 ni (at4 D2 L2)))%Qc /\
      out_dets out = [] /\ out_wfn out = None.
  Proof.
    assert (Hi : ni + na <= no /\ na <= 32 /\ no = ni + na + nv) by (destruct Hconf as (_ & _ & _ & _ & A & _ & B & _); lia). destruct Hi as (Hi & H32 & Hno').
    destruct (rdms_never root syev rnd P c nel es o Hconf Hel Hthr HP HZ) as (f0 & Never). exists f0. intros g dbg fuel out Hf H.
    destruct (run_parts_mpi root syev syev_ld gelss expm rnd show dec P dbg fs fsb name fname c nel es o Hin Hask Hfci Hconf) as (T & V & LT & LV & ST & SV & Q).
    destruct (Q g fuel out H) as (T1 & V1 & Fi & TA & VA & Ei & w & level & OB & AH & IE & J & OW & _). clear Q H.
    destruct (file_sym es no) as (St0 & Sv0). destruct (orbitals_used syev_ld rnd c nel es o Hconf HV T V T1 V1 LT LV ST SV OB) as (LT' & LV' & U0 & gT & gV & RO & ST' & SV' & GF).
    destruct (rotated_sym no U0 (file_T es) (file_V es) gT gV St0 Sv0 RO) as (St & Sv).
    assert (OP : orbital_problem no ni na nv T1 no V1).
    { split; [exact Hno'|]. split; [lia|]. split; [|split; [|split]].
      - split; [lia|intros i j A B; rewrite LT'; nia].
      - split; [lia|]. intros i j k l A B C D. rewrite LV'. assert (i + j * no < no * no) by nia. assert (k + l * no < no * no) by nia. nia.
      - intros p q A B. rewrite !ST' by auto. apply St; auto.
      - intros p q r s A B C D. rewrite !SV' by auto. apply Sv; auto. }
    destruct (densities_read rnd dec c nel es o Hconf H0 Hel enc D1 L1 D2 L2 bytes Hwrite HD1 HD2 Henc) as (A1 & A2 & RD & DR & SA & SA2).
    unfold job_part_mpi in J. rewrite Hjob in J. apply nd_inv in J. destruct J as (E0 & J & J'). red in J'. injection J' as QE QD QW.
    unfold driver_mcscf_mpi in J. cbv zeta in J. destruct (d_rdm o) as [|c0 l0] eqn:ER; [contradiction|]. cbv iota in J. rewrite Hbytes in J. rewrite RD in J. apply DavProofs2.det_inv in J. destruct J as (D & JD & J). injection JD as <-. cbn [fst snd] in J.
    apply nd_inv in J. destruct J as ((((E1 & B1) & B2) & (it & conv)) & JC & J). red in J. injection J as QE1.
    pose proof (any_solver root gelss expm (casci_rdms_mpi root syev P fuel dbg (mcscf_settings (d_mcscf o))) (mcscf_settings (d_mcscf o)) ne ne no ni na nv (first_core es) T1 no V1 A1 A2
      (fun _ => True) (fun _ => True) (fun _ _ _ _ _ => False) OP DR Hrt HG HX) as R.
    specialize (R ltac:(intros X; specialize (Hk X); cbn [diis_nkeep mcscf_settings]; lia) I (fun _ _ _ _ _ => I) (fun _ _ _ _ => I) I).
    specialize (R ltac:(intros TA' VA' Z1 Z2 X _ _ _ SVA _ _ _ _ _ r Hr; destruct r as [r|]; [|exact I]; exfalso;
      refine (Never dbg fuel TA' VA' Z1 Z2 X r Hf _ Hr); intros p q r0 s Hp Hq Hr0 Hs; apply SVA; auto) _ JC).
    cbn beta iota in R. destruct R as (_ & _ & tr & ST1 & SD1 & _ & (_ & SO) & _ & (EE & _ & _)).
    assert (Z0 : it = 0). { destruct it as [|it]; [reflexivity|]. exfalso. destruct (SO (S it) ltac:(lia)) as (? & ? & ? & ? & ? & _ & F & _). exact F. }
    subst it. destruct SD1 as [(TR & PD & PD2)|(_ & ? & ? & ? & ? & ? & _ & F & _)]; [|contradiction].
    exists U0, gT, gV. split; [exact RO|]. split; [exact GF|]. split; [|split; [|rewrite OW; auto]].
    - unfold right_trace, trace in *. rewrite (Sigma_ext na (fun i => shift2 ni (at2 D1 L1) i i) (fun i => at2 A1 na i i)); [exact TR|]. intros p Hp. symmetry. apply SA; auto.
    - destruct ST1 as (_ & _ & X1 & X2 & X3). rewrite QE, QE1, <- EE, X3, PD, PD2. f_equal. apply total_ext with (no := no); auto.
  Qed.
End MCSCF_JOB.

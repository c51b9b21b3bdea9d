(** The driver on several ranks: its parts, and the jobs that never return. *)
From Coq Require Import Ascii String QArith Qcanon ZArith NArith Bool.
From Verif Require AsciContrib.
From Verif Require Import Base Bits BitsProofs SD Spec SDProofs SDProofs2 SDProofs3 SDProofs4 Sums FockSpec SlaterCondon Ham HamProofs HamProofs2 HamProofs3 PropsHamGlue Nondet Mem Text IO IOSpec IOGlue Dense DenseSpec DenseProofs DiisSpec Diis Davidson DavSpec DavProofs2 DavProofs5 DavProofs8
  Mcscf McscfSpec CasciSpec McscfGlue2 Asci AsciSpec AsciIter AsciGlue AsciRot AsciRotSpec AsciRotProofs AsciRotGlue AsciPar AsciRotPar FreezeSpec FreezeProofs2 FreezeProofs4 FreezeGlue FreezeGlue2 Ini IniSpec IniGlue Driver DriverSpec DriverProofs DriverProofs2 DriverProofs3 DriverProofs4 McscfProofs4 McscfGlue DavProofs DriverMpi.
Local Open Scope nat_scope.

Section RUN.
  Variables (root : Qc -> Qc) (syev : nat -> list Qc -> res (list Qc * list Qc)) (syev_ld : nat -> list Qc -> nat -> res (list Qc * list Qc))
            (gelss : nat -> list Qc -> list Qc -> res (list Qc)) (expm : nat -> list Qc -> res (list Qc))
            (rnd : Q -> res Qc) (show : Qc -> text) (dec : list N -> Qc).
  Variables (P : nat) (dbg : bool) (fs : text -> option text) (fsb : text -> option (list N)).
  Variables (name fname : text) (c : content) (nel : Z) (es : list integral) (o : driver_options).
  Hypothesis Hin : input_file fs name c.
  Hypothesis Hask : asks_for c fname nel.
  Hypothesis Hfci : fcidump_file rnd fs fname es.
  Hypothesis Hconf : configured rnd c (max_index es) o.
  Local Notation run g fuel := (driver_mpi root syev syev_ld gelss expm rnd show dec P g fuel dbg fs fsb (Some name)).
  Local Notation no := (max_index es).
  Local Notation ni := (d_ninactive o).
  Local Notation na := (d_nactive o).
  Local Notation ne := (Z.to_nat nel).
  Definition job_part_mpi g fuel level E_core T V Ei TA VA : nd (Qc * list (Qc * text) * option text) :=
    match d_job o with
    | JobCI =>
      match d_exp o with
      | ExpCAS => any r <- driver_cas_mpi root syev P fuel dbg o ne Ei E_core TA VA; ret (fst r, snd r, None)
      | ExpASCI => any r <- driver_asci_mpi root syev rnd show P g fuel dbg fs o level ne Ei E_core TA VA (stream fs (k_wfn_out (d_asci o))); ret (fst r, [], snd r)
      end
    | JobMCSCF => any E <- driver_mcscf_mpi root syev gelss expm dec P fuel dbg fsb o no ne E_core T V; ret (E, [], None)
    end.
  Lemma run_parts_mpi : exists T V,
    List.length T = no * no /\ List.length V = no * no * (no * no) /\ same2 no (at2 T no) (file_T es) /\ same4 no (at4 V no) (file_V es) /\
    forall g fuel out, run g fuel (Ok out) ->
    exists T' V' Fi TA VA Ei w level, driver_orbitals syev_ld (d_mp2 o) no (ni + ne) T V = Ok (T', V') /\
      active_hamiltonian no na ni T' no V' no (repeat 0%Qc (no * no)) no (repeat 0%Qc (na * na)) na (repeat 0%Qc (na * na * (na * na))) na = Ok (Fi, TA, VA) /\
      inactive_energy ni T' no Fi no = Ok Ei /\
      job_part_mpi g fuel level (first_core es) T' V' Ei TA VA (Ok (out_E out, out_dets out, w)) /\ out_wfn out = w /\
      (d_fci_out o = [] -> out_fcidump out = None) /\
      (d_fci_out o <> [] -> exists f, write_fcidump show false no T' no V' no (first_core es) = Ok f /\ out_fcidump out = Some f).
  Proof.
    destruct Hin as (fi & is & F1 & F2 & F3 & ->). destruct Hfci as (ff & G1 & G2 & G3).
    destruct (ini_reads fi is F2 F3) as (d & P1 & P2 & _).
    destruct (integrals_ok rnd ff es G2 G3) as (T & V & I1 & L1 & L2 & S1 & S2). exists T, V. split; auto. split; auto. split; auto. split; auto.
    intros g fuel out H. unfold driver_mpi in H. apply DavProofs2.det_inv in H. destruct H as (n & N1 & H). injection N1 as <-.
    rewrite F1, P1 in H. apply DavProofs2.det_inv in H. destruct H as (d' & N1 & H). injection N1 as <-.
    rewrite (proj2 (required_ok d (contents is) P2 fname nel) Hask) in H. apply DavProofs2.det_inv in H. destruct H as (r & N1 & H). injection N1 as <-.
    unfold stream at 1 in H. rewrite G1, I1 in H. apply DavProofs2.det_inv in H. destruct H as (r & N1 & H). injection N1 as <-.
    rewrite (proj2 (setup_ok rnd d (contents is) P2 no o (max_index_bound _ _ _ G2)) Hconf) in H. apply DavProofs2.det_inv in H. destruct H as (r & N1 & H). injection N1 as <-.
    apply DavProofs2.det_inv in H. destruct H as (level & _ & H).
    cbv zeta in H. apply DavProofs2.det_inv in H. destruct H as ((T' & V') & O1 & H). apply DavProofs2.det_inv in H. destruct H as (((Fi & TA) & VA) & A1 & H).
    apply DavProofs2.det_inv in H. destruct H as (Ei & E1 & H). apply nd_inv in H. destruct H as (((E0 & dets) & w) & J & H).
    apply DavProofs2.det_inv in H. destruct H as (fo & FO & H). red in H. injection H as ->. exists T', V', Fi, TA, VA, Ei, w, level. cbn [out_E out_dets out_wfn out_fcidump].
    split; auto. split; auto. split; auto. split; [exact J|]. split; auto. split.
    - intros E. rewrite E in FO. injection FO as <-. reflexivity.
    - intros E. destruct (d_fci_out o); [contradiction|]. apply bind_ok in FO. destruct FO as (f & W1 & W2). injection W2 as <-. eauto.
  Qed.
End RUN.


Lemma at_inv {A} (l : list A) i y : at_ l i = Ok y -> i < length l /\ forall d, nth i l d = y.
Proof.
  unfold at_. intros H. destruct (nth_error l i) eqn:E; [|discriminate H]. injection H as ->. split; [apply nth_error_Some; congruence|].
  intros d. exact (nth_error_nth l i d E).
Qed.
Section NEVER.
  Variables (root : Qc -> Qc) (syev : nat -> list Qc -> res (list Qc * list Qc)) (syev_ld : nat -> list Qc -> nat -> res (list Qc * list Qc))
            (gelss : nat -> list Qc -> list Qc -> res (list Qc)) (expm : nat -> list Qc -> res (list Qc))
            (rnd : Q -> res Qc) (show : Qc -> text) (dec : list N -> Qc).
  Variables (P : nat) (fs : text -> option text) (fsb : text -> option (list N)).
  Variables (name fname : text) (c : content) (nel : Z) (es : list integral) (o : driver_options).
  Hypothesis Hin : input_file fs name c.
  Hypothesis Hask : asks_for c fname nel.
  Hypothesis Hfci : fcidump_file rnd fs fname es.
  Hypothesis Hconf : configured rnd c (max_index es) o.
  Local Notation run g dbg fuel := (driver_mpi root syev syev_ld gelss expm rnd show dec P g fuel dbg fs fsb (Some name)).
  Local Notation no := (max_index es).
  Local Notation ni := (d_ninactive o).
  Local Notation na := (d_nactive o).
  Local Notation ne := (Z.to_nat nel).
  Hypothesis HV : d_mp2 o = true -> orthonormal_vectors syev_ld.
  Hypothesis Hel : ne <= na.
  Hypothesis Hthr : (0 <= k_ci_matel (d_mcscf o))%Qc.
  Hypothesis HP : 2 <= P.
  Hypothesis HZ : (Z.of_nat (binom na ne * binom na ne * P) < 2 ^ 31)%Z.
  Lemma rdms_never : exists f0, forall dbg fuel TA VA D1 D2 C r, f0 <= fuel -> pair_symmetric na (at4 VA na) ->
    ~ casci_rdms_mpi root syev P fuel dbg (mcscf_settings (d_mcscf o)) na ne ne TA VA D1 D2 C (Ok r).
  Proof.
    destruct (sizes rnd c nel es o Hconf Hel) as (Hi & H32). assert (HW : spin_width 64) by (left; reflexivity).
    destruct (mpi_never root syev 64 (mcscf_settings (d_mcscf o)) na ne ne P HW H32 Hel Hel Hthr HP HZ) as (f0 & K).
    exists f0. intros dbg fuel TA VA D1 D2 C r Hf PS H. unfold casci_rdms_mpi in H. apply nd_inv in H. destruct H as (x & H & _).
    exact (K dbg fuel TA VA _ _ _ x Hf PS (repeat_length _ _) H).
  Qed.
  Lemma pair_active T V Fi TA VA Ei gT gV : length T = no * no -> length V = no * no * (no * no) -> same2 no (at2 T no) gT -> same4 no (at4 V no) gV ->
    symmetric2 no gT -> eightfold no gV ->
    active_hamiltonian no na ni T no V no (repeat 0%Qc (no * no)) no (repeat 0%Qc (na * na)) na (repeat 0%Qc (na * na * (na * na))) na = Ok (Fi, TA, VA) ->
    inactive_energy ni T no Fi no = Ok Ei -> pair_symmetric na (at4 VA na).
  Proof.
    intros LT LV ST SV St Sv AH IE. destruct (sizes rnd c nel es o Hconf Hel) as (Hi & H32).
    destruct (hfacts (2 * no) no ni na T V Fi TA VA Ei gT gV) as (_ & _ & _ & S4); auto. { rewrite Nat.mul_comm, Nat.div_mul by lia. lia. }
    intros p q r s Hp Hq Hr Hs. apply S4; auto.
  Qed.
  Lemma cas_never : d_job o = JobCI -> d_exp o = ExpCAS -> exists f0, forall g dbg fuel out, f0 <= fuel -> ~ run g dbg fuel (Ok out).
  Proof.
    intros Hjob Hexp. destruct rdms_never as (f0 & K). exists f0. intros g dbg fuel out Hf H.
    destruct (run_parts_mpi root syev syev_ld gelss expm rnd show dec P dbg fs fsb name fname c nel es o Hin Hask Hfci Hconf) as (T & V & LT & LV & ST & SV & Q).
    destruct (Q g fuel out H) as (T' & V' & Fi & TA & VA & Ei & w & level & OB & AH & IE & J & _). clear Q H.
    destruct (file_sym es no) as (St0 & Sv0). destruct (orbitals_used syev_ld rnd c nel es o Hconf HV T V T' V' LT LV ST SV OB) as (LT' & LV' & U & gT & gV & RO & ST' & SV' & GF).
    destruct (rotated_sym no U (file_T es) (file_V es) gT gV St0 Sv0 RO) as (St & Sv).
    unfold job_part_mpi in J. rewrite Hjob, Hexp in J. apply nd_inv in J. destruct J as (r & J & _). unfold driver_cas_mpi in J. cbv zeta in J.
    apply nd_inv in J. destruct J as (x & J & _). revert J. apply K; auto. exact (pair_active T' V' Fi TA VA Ei gT gV LT' LV' ST' SV' St Sv AH IE).
  Qed.
  Lemma mcscf_never : d_job o = JobMCSCF -> d_rdm o = [] -> 0 < ne -> exists f0, forall g dbg fuel out, f0 <= fuel -> ~ run g dbg fuel (Ok out).
  Proof.
    intros Hjob Hrdm H0. destruct rdms_never as (f0 & K). exists f0. intros g dbg fuel out Hf H.
    destruct (run_parts_mpi root syev syev_ld gelss expm rnd show dec P dbg fs fsb name fname c nel es o Hin Hask Hfci Hconf) as (T & V & LT & LV & ST & SV & Q).
    destruct (Q g fuel out H) as (T' & V' & Fi & TA & VA & Ei & w & level & OB & AH & IE & J & _). clear Q H.
    destruct (file_sym es no) as (St0 & Sv0). destruct (orbitals_used syev_ld rnd c nel es o Hconf HV T V T' V' LT LV ST SV OB) as (LT' & LV' & U & gT & gV & RO & ST' & SV' & GF).
    destruct (rotated_sym no U (file_T es) (file_V es) gT gV St0 Sv0 RO) as (St & Sv).
    unfold job_part_mpi in J. rewrite Hjob in J. apply nd_inv in J. destruct J as (r & J & _). unfold driver_mcscf_mpi in J. cbv zeta in J. rewrite Hrdm in J.
    apply DavProofs2.det_inv in J. destruct J as (D & JD & J). injection JD as <-. cbn [fst snd] in J. apply nd_inv in J. destruct J as (x & J & _).
    unfold mcscf_impl in J. apply nd_inv in J. destruct J as (s & J & _). unfold mcscf_start in J. cbv zeta in J.
    apply DavProofs2.det_inv in J. destruct J as (tT & _ & J). apply DavProofs2.det_inv in J. destruct J as (tV & _ & J).
    rewrite AH in J. apply DavProofs2.det_inv in J. destruct J as (y & Y & J). injection Y as <-. rewrite IE in J. apply DavProofs2.det_inv in J. destruct J as (y & Y & J). injection Y as <-.
    apply DavProofs2.det_inv in J. destruct J as (tr & Etr & J). apply nd_inv in J. destruct J as (D & J & _).
    destruct (qlt _ _) eqn:EQ.
    - apply DavProofs2.det_inv in J. destruct J as (z1 & _ & J). apply DavProofs2.det_inv in J. destruct J as (z2 & _ & J). apply nd_inv in J. destruct J as (y & J & _).
      revert J. apply K; auto. exact (pair_active T' V' Fi TA VA Ei gT gV LT' LV' ST' SV' St Sv AH IE).
    - apply (sumM_Sigma_inv _ (fun i => at2 (repeat 0%Qc (na * na)) na i i)) in Etr.
      2:{ intros i y _ Y. apply at_inv in Y. destruct Y as (_ & Y). rewrite <- (Y 0%Qc). unfold at2. rewrite !nth_repeat. reflexivity. }
      apply (zero_trace na ne H0). apply passed_trace. unfold passed, trace. rewrite <- Etr, EQ. reflexivity.
  Qed.
End NEVER.

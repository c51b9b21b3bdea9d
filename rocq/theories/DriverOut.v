(** C66: MCSCF started from a density file; the integrals written with MP2_GUESS. *)
From Coq Require Import Ascii String QArith Qcanon ZArith NArith Bool.
From Verif Require Import Base Bits SD Spec Sums FockSpec Ham Nondet Mem Text IO IOSpec IOGlue FcidumpProofs FcidumpProofs2 Dense DenseSpec DiisSpec Diis Davidson DavSpec DavProofs2 Mcscf McscfSpec CasciSpec Asci AsciSpec AsciRot AsciRotSpec AsciRotProofs
  FreezeSpec Ini IniSpec IniGlue Driver DriverSpec DriverProofs DriverProofs2 DriverProofs3 DriverProofs4 DriverGlue DriverRdm.
Local Open Scope nat_scope.

Section GLUE.
  Variables (root : Qc -> Qc) (syev : nat -> list Qc -> res (list Qc * list Qc)) (syev_ld : nat -> list Qc -> nat -> res (list Qc * list Qc))
            (gelss : nat -> list Qc -> list Qc -> res (list Qc)) (expm : nat -> list Qc -> res (list Qc))
            (rnd : Q -> res Qc) (show : Qc -> text) (dec : list N -> Qc).
  Variables (dbg : bool) (fs : text -> option text) (fsb : text -> option (list N)).
  Local Notation run fuel := (driver root syev syev_ld gelss expm rnd show dec fuel dbg fs fsb).
  Variables (name : text) (ne : nat) (es : list integral) (o : driver_options).
  Hypothesis HA : asked rnd fs name ne es o.
  Local Notation no := (max_index es).
  Local Notation ni := (d_ninactive o).
  Local Notation na := (d_nactive o).
  Local Notation nv := (d_nvirtual o).
  Lemma mcscf_rdm_energy enc D1 L1 D2 L2 bytes : d_job o = JobMCSCF -> d_rdm o <> [] -> fsb (d_rdm o) = Some bytes -> write_rdms_binary enc no D1 L1 D2 L2 = Ok bytes ->
    (forall i j, i < no -> j < no -> i + j * L1 < length D1) -> (forall i j k l, i < no -> j < no -> k < no -> l < no -> i + j * L2 + k * L2 * L2 + l * L2 * L2 * L2 < length D2) ->
    (forall v, In v D1 \/ In v D2 -> length (enc v) = 8 /\ dec (enc v) = v) ->
    (d_mp2 o = true -> orthonormal_vectors syev_ld) -> 0 < ne -> ne <= na -> (0 <= k_ci_matel (d_mcscf o))%Qc -> exact_root root -> eigensolver syev ->
    least_squares gelss -> exponential expm -> (k_diis (d_mcscf o) = true -> (0 < k_diis_nkeep (d_mcscf o))%Z) -> rotations_or_tolerance root (k_orb_tol (d_mcscf o)) ni na nv ->
    exists f0, forall W2 fuel out, no <= W2 / 2 -> f0 <= fuel -> run fuel (Some name) (Ok out) ->
    (exists U gT gV, rotated no U (file_T es) (file_V es) gT gV /\
      ((exists dets Y E, whole_space 64 na ne ne dets /\ wave_function W2 no ni na ne gT gV dets Y E /\
        (Qcabs (out_E out - (first_core es + E)) <= neglected ni na gT gV (k_ci_matel (d_mcscf o)) dets)%Qc) \/
       (right_trace na ne ne (shift2 ni (at2 D1 L1)) /\ (d_mp2 o = false -> gT = file_T es /\ gV = file_V es) /\
        out_E out = (first_core es + total_energy ni na gT gV (shift2 ni (at2 D1 L1)) (shift4 ni (at4 D2 L2)))%Qc))) /\ out_dets out = [] /\ out_wfn out = None.
  Proof.
    destruct HA as (c & fname & F & A & G & C). intros J R B W X1 X2 X3 M P L T RR S LS EX K RT.
    pose proof (mcscf_rdm_run root syev syev_ld gelss expm rnd show dec dbg fs fsb name fname c (Z.of_nat ne) es o F A G C J M) as Q.
    rewrite Nat2Z.id in Q. eapply Q; eauto.
  Qed.
  Lemma fcidump_orbitals : (d_mp2 o = true -> orthonormal_vectors syev_ld) ->
    exists U gT gV, rotated no U (file_T es) (file_V es) gT gV /\ (d_mp2 o = false -> gT = file_T es /\ gV = file_V es) /\
    forall fuel out, run fuel (Some name) (Ok out) ->
    (d_fci_out o = [] -> out_fcidump out = None) /\
    (d_fci_out o <> [] -> (forall p q, p < no -> q < no -> prints show rnd (gT p q)) -> (forall p q r s, p < no -> q < no -> r < no -> s < no -> prints show rnd (gV p q r s)) -> prints show rnd (first_core es) ->
       exists f es', out_fcidump out = Some f /\ data_lines rnd (lines f) es' /\ (forall e, In e es' -> proper e) /\ max_index es' = no /\ first_core es' = first_core es /\
         same2 no (file_T es') gT /\ same4 no (file_V es') gV).
  Proof.
    destruct HA as (c & fname & F & A & G & C). intros HV.
    destruct (run_parts root syev syev_ld gelss expm rnd show dec dbg fs fsb name fname c (Z.of_nat ne) es o F A G C) as (T0 & V0 & LT0 & LV0 & ST0 & SV0 & P).
    destruct (file_sym es no) as (St0 & Sv0).
    destruct (driver_orbitals syev_ld (d_mp2 o) no (ni + Z.to_nat (Z.of_nat ne)) T0 V0) as [(T & V)|er] eqn:OB0.
    2:{ exists identity, (file_T es), (file_V es). split; [apply DriverProofs2.rotated_id|]. split; [auto|]. intros fuel out R. destruct (P fuel out R) as (T' & V' & Fi & TA & VA & Ei & w & OB' & _). discriminate OB'. }
    destruct (orbitals_used syev_ld rnd c (Z.of_nat ne) es o C HV T0 V0 T V LT0 LV0 ST0 SV0 OB0) as (LT & LV & U0 & gT & gV & RO & ST & SV & GF).
    destruct (rotated_sym no U0 (file_T es) (file_V es) gT gV St0 Sv0 RO) as (St & Sv).
    exists U0, gT, gV. split; [exact RO|]. split; [exact GF|]. intros fuel out R.
    destruct (P fuel out R) as (T' & V' & Fi & TA & VA & Ei & w & OB & _ & _ & _ & _ & W0 & W1). injection OB as <- <-. split; [exact W0|].
    intros O PT PV PE. destruct (W1 O) as (f & WF & OF).
    assert (BN : (N.of_nat no < 2 ^ 31)%N). { destruct G as (ff & _ & G2 & _). pose proof (max_index_bound _ _ _ G2). lia. }
    assert (KT : forall i j, i < no -> j < no -> i + j * no < length T) by (intros i j Hi Hj; rewrite LT; nia).
    assert (PO : forall i j k l, i + j * no + k * no * no + l * no * no * no = i + j * no + (k + l * no) * (no * no)) by (intros; ring).
    assert (KV : forall i j k l, i < no -> j < no -> k < no -> l < no -> i + j * no + k * no * no + l * no * no * no < length V).
    { intros i j k l Hi Hj Hk Hl. rewrite PO, LV. assert (i + j * no < no * no) by nia. assert (k + l * no < no * no) by nia. nia. }
    assert (TT : forall i j, i < no -> j < no -> nth (i + j * no) T 0%Qc = gT i j) by (intros i j Hi Hj; apply (ST i j Hi Hj)).
    assert (VV : forall i j k l, i < no -> j < no -> k < no -> l < no -> nth (i + j * no + k * no * no + l * no * no * no) V 0%Qc = gV i j k l).
    { intros i j k l Hi Hj Hk Hl. rewrite <- (SV i j k l Hi Hj Hk Hl). unfold at4. reflexivity. }
    destruct (written_data show rnd no T no V no (first_core es)) as (f' & es' & W2 & D2 & Q2 & M2 & C2); auto.
    { intros i j Hi Hj. rewrite TT by auto. auto. } { intros i j k l Hi Hj Hk Hl. rewrite VV by auto. auto. }
    rewrite W2 in WF. injection WF as ->. exists f, es'. split; auto. split; auto. split; auto. split; auto. split; auto.
    destruct (c24_round_trip show rnd no T no V no (first_core es)) as (f'' & W3 & _ & _ & R1 & R2); auto.
    { intros i j Hi Hj. rewrite TT by auto. auto. } { intros i j k l Hi Hj Hk Hl. rewrite VV by auto. auto. }
    { intros i j Hi Hj. rewrite !TT by auto. apply St; auto. }
    { intros i j k l Hi Hj Hk Hl. rewrite !VV by auto. destruct (Sv i j k l Hi Hj Hk Hl) as (S1 & S2). split; auto. split; auto. rewrite S1. rewrite (proj2 (Sv k l i j Hk Hl Hi Hj)). apply Sv; auto. }
    rewrite W2 in W3. injection W3 as <-. split.
    - destruct (R1 (repeat 0%Qc (no * no))) as (T1 & X1 & _ & N1); [apply repeat_length|].
      destruct (c24_one rnd f es' D2 Q2 (repeat 0%Qc (no * no))) as (T2 & X2 & _ & N2); [rewrite M2; apply repeat_length|]. rewrite M2 in X2, N2. rewrite X1 in X2. injection X2 as <-.
      intros p q Hp Hq. rewrite <- TT by auto. rewrite <- N1 by auto. rewrite N2 by auto. rewrite nth_repeat. reflexivity.
    - destruct (R2 (repeat 0%Qc (no * (no * (no * no))))) as (T1 & X1 & _ & N1); [apply repeat_length|].
      destruct (c24_two rnd f es' D2 (repeat 0%Qc (no * (no * (no * no))))) as (T2 & X2 & _ & N2); [rewrite M2; apply repeat_length|]. rewrite M2 in X2, N2. rewrite X1 in X2. injection X2 as <-.
      intros p q r s Hp Hq Hr Hs. rewrite <- VV by auto. rewrite <- N1 by auto. rewrite N2 by auto. rewrite nth_repeat. reflexivity.
  Qed.
End GLUE.

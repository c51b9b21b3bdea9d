(** The driver's MCSCF jobs. *)
From Coq Require Import Ascii String QArith Qcanon ZArith NArith Bool Lqa.
From Verif Require AsciSearch2.
From Verif Require Import Base Bits SD Spec Sums FockSpec SlaterCondon Ham HamProofs Nondet Mem Text IO IOSpec Dense DenseSpec DenseProofs DiisSpec Diis Davidson DavSpec DavProofs2 DavProofs5 DavProofs8
  Mcscf McscfSpec CasciSpec McscfProofs2 McscfProofs6 McscfGlue McscfGlue2 Asci AsciSpec AsciRot AsciRotSpec AsciRotProofs FreezeSpec FreezeProofs4 FreezeGlue FreezeGlue2 Ini IniSpec Driver DriverSpec DriverProofs DriverProofs2 DriverProofs3.
Local Open Scope nat_scope.

Lemma sum_le {A} (l : list A) f g : (forall a, In a l -> (f a <= g a)%Qc) -> (sum l f <= sum l g)%Qc.
Proof. induction l as [|a l IH]; intros H; cbn [sum]; [apply Qcle_refl|]. apply Qcplus_le_compat; [apply H; left; auto|apply IH; intros; apply H; right; auto]. Qed.
Lemma state_fun W2 no ni na ne T V dets Y : no <= W2 / 2 -> na <= 32 -> ni + na <= no -> exchange_symmetric no V -> valid_dets 64 na ne ne dets -> length Y = length dets -> dot (length dets) Y Y = 1%Qc ->
  wave_function W2 no ni na ne T V dets Y (core_energy ni T V + expectation (length dets) (ci_matrix 64 (mk_ints na (active_T ni T V) (active_V ni V)) 0%Qc dets) Y)%Qc.
Proof.
  intros Hno Hna Hi EX (ND & A) LY D1. assert (H32 : na <= 64 / 2) by exact Hna. assert (A' : forall d, In d dets -> in_space 64 na d) by (intros d Hd; apply A; auto).
  split; [split; auto|]. split; auto. split; auto. split.
  - rewrite (expectation_freeze 64 W2 no ni na) by auto. rewrite D1, Qcmult_1_r. reflexivity.
  - apply (frozen_state_of 64 W2 no ni na T V Hno H32 Hi EX dets Y ne ne); auto.
Qed.
Lemma total_split ni na T V D D2 : total_energy ni na T V D D2 = (core_energy ni T V + FockSpec.contract na (active_T ni T V) D (active_V ni V) D2)%Qc.
Proof.
  unfold total_energy. f_equal. unfold FockSpec.contract, valence_energy, active_T, active_V, Sigma. f_equal.
  - apply sum_ext. intros p _. apply sum_ext. intros q _. ring.
  - apply sum_ext. intros p _. apply sum_ext. intros q _. apply sum_ext. intros r _. apply sum_ext. intros c _. ring.
Qed.
Lemma neglected_tol ni na T V tol dets : (0 <= tol)%Qc -> (inject (length dets * length dets) * tol <= neglected ni na T V tol dets)%Qc.
Proof.
  intros Ht. replace (inject (length dets * length dets) * tol)%Qc with (Sigma (length dets) (fun _ => Sigma (length dets) (fun _ => tol))).
  2:{ unfold Sigma. rewrite !sum_const_len, seq_length, inject_times. ring. }
  unfold neglected, Sigma. apply sum_le. intros i _. apply sum_le. intros j _. rewrite <- (Qcplus_0_r tol) at 1. apply Qcplus_le_compat; [apply Qcle_refl|].
  apply qmul_nonneg; [discriminate|apply qabs_nonneg].
Qed.
Lemma neglected_zero ni na T V tol dets : (0 <= tol)%Qc -> (neglected ni na T V 0%Qc dets <= neglected ni na T V tol dets)%Qc.
Proof. intros Ht. unfold neglected, Sigma. apply sum_le. intros i _. apply sum_le. intros j _. apply Qcplus_le_compat; [exact Ht|apply Qcle_refl]. Qed.
Lemma zero_trace na ne : 0 < ne -> ~ right_trace na ne ne (at2 (repeat 0%Qc (na * na)) na).
Proof.
  intros H R. unfold right_trace, trace in R. rewrite (Sigma_ext na _ (fun _ => 0%Qc)) in R by (intros i Hi; unfold at2; apply nth_repeat).
  assert (Z : Sigma na (fun _ => 0%Qc) = 0%Qc). { unfold Sigma. rewrite sum_const_len. ring. } rewrite Z in R. clear Z.
  destruct ne as [|n]; [lia|]. rewrite inject_S in R. pose proof (inject_nonneg n) as P. set (x := inject n) in *.
  rewrite <- qabs_std in R. replace (0 - (1 + x) - (1 + x))%Qc with (- (1 + 1 + x + x))%Qc in R by ring. rewrite AsciSearch2.Qcabs_opp in R.
  assert (K : (1 <= Qcabs (1 + 1 + x + x))%Qc).
  { assert (G : (1 <= 1 + 1 + x + x)%Qc). { clear -P. unfold Qcle in *. unfold Qcplus. cbn [this Q2Qc] in *. rewrite ?Qred_correct in *. clearbody x. destruct x as [x Hx]. cbn [this] in *. lra. } rewrite qabs_pos; auto. eapply Qcle_trans; [|exact G]. discriminate. }
  pose proof (Qcle_trans _ _ _ K R) as B. revert B. vm_compute. intros B. apply B. reflexivity.
Qed.
Section MCSCF_JOB.
  Variables (root : Qc -> Qc) (syev : nat -> list Qc -> res (list Qc * list Qc)) (syev_ld : nat -> list Qc -> nat -> res (list Qc * list Qc))
            (gelss : nat -> list Qc -> list Qc -> res (list Qc)) (expm : nat -> list Qc -> res (list Qc))
            (rnd : Q -> res Qc) (show : Qc -> text) (dec : list N -> Qc).
  Variables (dbg : bool) (fs : text -> option text) (fsb : text -> option (list N)).
  Variables (name fname : text) (c : content) (nel : Z) (es : list integral) (o : driver_options).
  Hypothesis Hin : input_file fs name c.
  Hypothesis Hask : asks_for c fname nel.
  Hypothesis Hfci : fcidump_file rnd fs fname es.
  Hypothesis Hconf : configured rnd c (max_index es) o.
  Local Notation run fuel := (driver root syev syev_ld gelss expm rnd show dec fuel dbg fs fsb (Some name)).
  Local Notation no := (max_index es).
  Local Notation ni := (d_ninactive o).
  Local Notation na := (d_nactive o).
  Local Notation nv := (d_nvirtual o).
  Local Notation ne := (Z.to_nat nel).
  Hypothesis Hjob : d_job o = JobMCSCF.
  Hypothesis HV : d_mp2 o = true -> orthonormal_vectors syev_ld.
  Hypothesis H0 : 0 < ne.
  Hypothesis Hel : ne <= na.
  Hypothesis Hthr : (0 <= k_ci_matel (d_mcscf o))%Qc.
  Hypothesis HR : exact_root root.
  Hypothesis HS : eigensolver syev.
  Hypothesis HG : least_squares gelss.
  Hypothesis HX : exponential expm.
  Hypothesis Hk : k_diis (d_mcscf o) = true -> (0 < k_diis_nkeep (d_mcscf o))%Z.
  Hypothesis Hrt : rotations_or_tolerance root (k_orb_tol (d_mcscf o)) ni na nv.
  Hypothesis Hrdm : d_rdm o = [].

  Lemma mcscf_run : exists f0, forall W2 fuel out, no <= W2 / 2 -> f0 <= fuel -> run fuel (Ok out) ->
    exists U gT gV dets Y E, rotated no U (file_T es) (file_V es) gT gV /\ whole_space 64 na ne ne dets /\ wave_function W2 no ni na ne gT gV dets Y E /\
      (Qcabs (out_E out - (first_core es + E)) <= neglected ni na gT gV (k_ci_matel (d_mcscf o)) dets)%Qc /\ out_dets out = [] /\ out_wfn out = None.
  Proof.
    assert (Hi : ni + na <= no /\ na <= 32 /\ no = ni + na + nv) by (destruct Hconf as (_ & _ & _ & _ & A & _ & B & _); lia). destruct Hi as (Hi & H32 & Hno').
    destruct (run_parts root syev syev_ld gelss expm rnd show dec dbg fs fsb name fname c nel es o Hin Hask Hfci Hconf) as (T & V & LT & LV & ST & SV & P).
    destruct (driver_orbitals syev_ld (d_mp2 o) no (ni + ne) T V) as [(T1 & V1)|er] eqn:OB.
    2:{ exists 0. intros W2 fuel out _ _ H. destruct (P fuel out H) as (T' & V' & Fi & TA & VA & Ei & w & OB' & _). discriminate OB'. }
    destruct (file_sym es no) as (St0 & Sv0).
    destruct (orbitals_used syev_ld rnd c nel es o Hconf HV T V T1 V1 LT LV ST SV OB) as (LT' & LV' & U0 & gT & gV & RO & ST' & SV' & GF).
    destruct (rotated_sym no U0 (file_T es) (file_V es) gT gV St0 Sv0 RO) as (St & Sv).
    assert (OP : orbital_problem no ni na nv T1 no V1).
    { split; [exact Hno'|]. split; [lia|]. split; [|split; [|split]].
      - split; [lia|intros i j A B; rewrite LT'; nia].
      - split; [lia|]. intros i j k l A B C D. rewrite LV'. assert (i + j * no < no * no) by nia. assert (k + l * no < no * no) by nia. nia.
      - intros p q A B. rewrite !ST' by auto. apply St; auto.
      - intros p q r s A B C D. rewrite !SV' by auto. apply Sv; auto. }
    assert (DR : density_room na (repeat 0%Qc (na * na)) (repeat 0%Qc (na * na * (na * na)))) by (split; rewrite repeat_length; lia).
    destruct (casscf_ground root syev gelss expm (mcscf_settings (d_mcscf o)) ne ne no ni na nv (first_core es) T1 no V1 (repeat 0%Qc (na * na)) (repeat 0%Qc (na * na * (na * na)))) as (f0 & C57); auto.
    { intros E. specialize (Hk E). cbn [diis_nkeep mcscf_settings]. lia. }
    exists f0. intros W2 fuel out H2 Hf H. destruct (P fuel out H) as (T' & V' & Fi & TA & VA & Ei & w & OB' & _ & _ & J & OW & _). injection OB' as <- <-.
    unfold job_part in J. rewrite Hjob in J. apply nd_inv in J. destruct J as (E0 & J & J'). red in J'. injection J' as QE QD QW.
    unfold driver_mcscf_run in J. cbv zeta in J. rewrite Hrdm in J. apply DavProofs2.det_inv in J. destruct J as (D & JD & J). injection JD as <-. cbn [fst snd] in J.
    apply nd_inv in J. destruct J as ((((E1 & B1) & B2) & (it & conv)) & JC & J). red in J. injection J as QE1.
    specialize (C57 fuel Hf _ JC). destruct C57 as (_ & _ & tr & ST1 & SD1 & _ & (RT & SO) & _ & (EE & D1 & D2)).
    rewrite <- Hno' in RT. pose proof (RT it (le_n _)) as Rt. 
    apply (rotated_same no (p_U (tr it)) (at2 T1 no) gT (at4 V1 no) gV) in Rt; auto.
    pose proof (rotated_trans no U0 (p_U (tr it)) _ _ _ _ _ _ RO Rt) as RF.
    destruct (rotated_sym no _ _ _ _ _ St0 Sv0 RF) as (St' & Sv').
    set (gT' := p_T (tr it)) in *. set (gV' := p_V (tr it)) in *.
    assert (EX : exchange_symmetric no gV') by (intros p q r s Hp Hq Hr Hs; apply Sv'; auto).
    assert (SV4 : eri_symmetric na (active_V ni gV')). { apply eight_eri. intros p q r s Hp Hq Hr Hs. unfold active_V, shift4. apply Sv'; lia. }
    assert (G : exists TA VA e C1 C2, active_arrays ni na gT' gV' TA VA /\ ci_ground root 64 ne ne na (k_ci_matel (d_mcscf o)) (k_ci_tol (d_mcscf o)) TA VA e C1 C2 /\
      p_D (tr it) = at2 C1 na /\ p_D2 (tr it) = at4 C2 na /\
      (p_E (tr it) = (first_core es + core_energy ni gT' gV' + e)%Qc \/ p_E (tr it) = (first_core es + total_energy ni na gT' gV' (p_D (tr it)) (p_D2 (tr it)))%Qc)).
    { destruct it as [|it].
      - destruct ST1 as (_ & _ & X1 & X2 & X3). destruct SD1 as [(TR & _)|(_ & TA' & VA' & e & C1 & C2 & AA & G & DD1 & DD2)].
        + exfalso. exact (zero_trace na ne H0 TR).
        + exists TA', VA', e, C1, C2. subst gT' gV'. rewrite X1, X2. auto 10.
      - destruct (SO (S it) ltac:(lia)) as (TA' & VA' & e & C1 & C2 & AA & G & DD1 & DD2 & EP). exists TA', VA', e, C1, C2. auto 10. }
    destruct G as (TA' & VA' & e & C1 & C2 & (_ & _ & M2 & M4) & (dets & Y & WS & LY & _ & Y1 & Y2 & _ & DD) & DD1 & DD2 & EP).
    exists (product no U0 (p_U (tr it))), gT', gV', dets, Y. eexists. split; [exact RF|]. split; [exact WS|]. split.
    { apply state_fun; auto. destruct WS as (ND & I). split; auto. intros d Hd. apply I; auto. }
    split; [|rewrite OW; auto]. rewrite QE, QE1, <- EE.
    rewrite (expectation_ext _ (ci_matrix 64 (mk_ints na (at2 TA' na) (at4 VA' na)) (k_ci_matel (d_mcscf o)) dets) (ci_matrix 64 (mk_ints na (active_T ni gT' gV') (active_V ni gV')) (k_ci_matel (d_mcscf o)) dets)) in Y2.
    2:{ intros i j _ _. unfold ci_matrix. cbn [norb T_pq V_pqrs]. rewrite (ham_same 64 na (at2 TA' na) (active_T ni gT' gV') (at4 VA' na) (active_V ni gV') _ _ M2 M4). reflexivity. }
    destruct EP as [-> | ->].
    - rewrite <- Y2. eapply Qcle_trans; [|apply neglected_tol; auto].
      match goal with |- (Qcabs ?x <= _)%Qc => match x with context [expectation ?n ?A Y] => match x with context [expectation n (ci_matrix _ _ 0%Qc _) Y] => idtac end end end.
      pose proof (ci_truncated 64 (mk_ints na (active_T ni gT' gV') (active_V ni gV')) (k_ci_matel (d_mcscf o)) dets Y Hthr Y1) as K.
      match goal with |- (Qcabs ?x <= _)%Qc => match type of K with (Qcabs ?y <= _)%Qc => replace x with y by ring end end. exact K.
    - rewrite total_split. rewrite DD1, DD2. eapply Qcle_trans; [|apply neglected_zero; auto].
      pose proof (ci_energy 64 na (active_T ni gT' gV') (active_V ni gV') 0%Qc dets Y _ _ SV4 (Qcle_refl _) LY Y1 DD) as K.
      match goal with |- (Qcabs ?x <= _)%Qc => match type of K with (Qcabs ?y <= _)%Qc => replace x with (- y)%Qc by ring end end. rewrite AsciSearch2.Qcabs_opp. exact K.
  Qed.
End MCSCF_JOB.

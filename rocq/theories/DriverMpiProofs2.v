(** The energy of the driver's ASCI jobs on several ranks. *)
From Coq Require Import Ascii String QArith Qcanon ZArith NArith Bool.
From Verif Require AsciContrib.
From Verif Require Import Base Bits BitsProofs SD Spec SDProofs SDProofs2 SDProofs3 SDProofs4 Sums FockSpec SlaterCondon Ham HamProofs HamProofs2 HamProofs3 PropsHamGlue Nondet Mem Text IO IOSpec IOGlue Dense DenseSpec DenseProofs DiisSpec Diis Davidson DavSpec DavProofs2 DavProofs5 DavProofs8
  Mcscf McscfSpec CasciSpec McscfGlue2 Asci AsciSpec AsciIter AsciGlue AsciPar AsciParSpec AsciParProofs4 AsciParGlue2 AsciRot AsciRotSpec AsciRotProofs AsciRotGlue AsciRotPar AsciRotParGlue
  FreezeSpec FreezeProofs2 FreezeProofs4 FreezeGlue FreezeGlue2 Ini IniSpec IniGlue Driver DriverSpec DriverProofs DriverProofs2 DriverProofs3 DriverMpi DriverMpiProofs.
Local Open Scope nat_scope.

Section INV.
  Variables (root : Qc -> Qc) (syev : nat -> list Qc -> res (list Qc * list Qc)) (p : par) (dbg : bool) (W : nat) (st : Asci.settings) (h : ints).
  Variable Q : wfn_state -> Prop.
  Hypothesis Step : forall g m a ss b, Q a -> Nat.min (ncdets_max st) (wfn_size a) <= m -> (Z.of_nat (m * p_ranks p) < 2 ^ 31)%Z ->
    asci_iter_mpi root syev p g dbg W st h m a (Ok ss) -> common ss = Ok b -> Q b.
  Lemma grow_mpi_inv fuel g : (Z.of_nat (ntdets_max st * p_ranks p) < 2 ^ 31)%Z -> 1 <= grow_factor st -> forall s s', Q s ->
    asci_grow_mpi root syev fuel p g dbg W st h s (Ok s') -> Q s'.
  Proof.
    intros HM Hg. induction fuel as [|f IH]; intros ((E & wfn) & X) s' Qs H; cbn [asci_grow_mpi] in H.
    - destruct (_ <? _); [discriminate H|red in H; injection H as ->; exact Qs].
    - destruct (Nat.ltb_spec (length wfn) (ntdets_max st)) as [L|L]; [|red in H; injection H as ->; exact Qs].
      cbv zeta in H. apply nd_inv in H. destruct H as (ss & H1 & H). apply DavProofs2.det_inv in H. destruct H as (b & Eb & H).
      destruct (_ <? _) in H; [discriminate H|]. apply (IH b s'); auto.
      eapply Step; [exact Qs| | |exact H1|exact (eq_sym Eb) || exact Eb].
      + unfold wfn_size. cbn [fst snd]. nia.
      + assert (Nat.min (Nat.max (ntdets_min st) (length wfn * grow_factor st)) (ntdets_max st) <= ntdets_max st) by lia. nia.
  Qed.
  Lemma refine_mpi_inv g m : (Z.of_nat (m * p_ranks p) < 2 ^ 31)%Z -> forall n s s', Q s -> wfn_size s = m ->
    refine_loop_mpi root syev n p g dbg W st h m s (Ok s') -> Q s' /\ wfn_size s' = m.
  Proof.
    intros HM. induction n as [|n IH]; intros s s' Qs Sz H; cbn [refine_loop_mpi] in H; [discriminate H|].
    apply nd_inv in H. destruct H as (ss & H1 & H). apply DavProofs2.det_inv in H. destruct H as (b & Eb & H).
    destruct (Nat.eqb_spec (length (snd (fst b))) m) as [Lb|Lb]; cbn [negb] in H; [|discriminate H].
    assert (Qb : Q b). { eapply Step; [exact Qs| |exact HM|exact H1|exact (eq_sym Eb) || exact Eb]. lia. }
    destruct (abs_lt _ _); [red in H; injection H as ->; auto|]. exact (IH b s' Qb Lb H).
  Qed.
End INV.

Section JOBS.
  Variables (root : Qc -> Qc) (syev : nat -> list Qc -> res (list Qc * list Qc)) (syev_ld : nat -> list Qc -> nat -> res (list Qc * list Qc))
            (gelss : nat -> list Qc -> list Qc -> res (list Qc)) (expm : nat -> list Qc -> res (list Qc))
            (rnd : Q -> res Qc) (show : Qc -> text) (dec : list N -> Qc).
  Variables (P : nat) (dbg : bool) (fs : text -> option text) (fsb : text -> option (list N)).
  Variables (name fname : text) (c : content) (nel : Z) (es : list integral) (o : driver_options).
  Hypothesis Hin : input_file fs name c.
  Hypothesis Hask : asks_for c fname nel.
  Hypothesis Hfci : fcidump_file rnd fs fname es.
  Hypothesis Hconf : configured rnd c (max_index es) o.
  Local Notation run g fuel := (driver_mpi root syev syev_ld gelss expm rnd show dec P g fuel dbg fs fsb (Some name)).
  Local Notation no := (max_index es).
  Local Notation ni := (d_ninactive o).
  Local Notation na := (d_nactive o).
  Local Notation ne := (Z.to_nat nel).
  Hypothesis Hjob : d_job o = JobCI.
  Hypothesis HV : d_mp2 o = true -> orthonormal_vectors syev_ld.
  Hypothesis Hel : ne <= na.
  Hypothesis Hthr : (0 <= k_ci_matel (d_mcscf o))%Qc.
  Hypothesis HR : exact_root root.
  Hypothesis HS : eigensolver syev.
  Hypothesis HP : 1 < P.
  Lemma asci_mpi_run n0 : d_exp o = ExpASCI -> (dbg = true -> ne < na) -> k_rot (d_asci o) = false -> (1 <= k_grow (d_asci o))%Z ->
    starting_point rnd fs (d_asci o) na ne n0 -> (Z.max (Z.of_nat n0) (k_ntdets_max (d_asci o)) * Z.of_nat P < 2 ^ 31)%Z ->
    forall W2 g fuel out, no <= W2 / 2 -> run g fuel (Ok out) ->
    exists U gT gV dets Y E, rotated no U (file_T es) (file_V es) gT gV /\ (d_mp2 o = false -> gT = file_T es /\ gV = file_V es) /\
      wave_function W2 no ni na ne gT gV dets Y E /\
      (Qcabs (out_E out - (first_core es + E)) <= inject (length dets * length dets) * k_ci_matel (d_mcscf o))%Qc /\
      length dets = Nat.max n0 (Z.to_nat (k_ntdets_max (d_asci o))) /\
      out_dets out = [] /\ (k_wfn_out (d_asci o) = [] -> out_wfn out = None) /\
      (k_wfn_out (d_asci o) <> [] -> (forall v, In v Y -> prints show rnd v) ->
         exists f, out_wfn out = Some f /\ read_wavefunction rnd 64 f = Ok (dets, Y)).
  Proof.
    intros Hexp Hdbg Hrot Hg Hst HZ. destruct (sizes rnd c nel es o Hconf Hel) as (Hi & H32). assert (HW : spin_width 64) by (left; reflexivity).
    intros W2 g fuel out H2 H.
    destruct (run_parts_mpi root syev syev_ld gelss expm rnd show dec P dbg fs fsb name fname c nel es o Hin Hask Hfci Hconf) as (T & V & LT & LV & ST & SV & K0).
    destruct (K0 g fuel out H) as (T' & V' & Fi & TA & VA & Ei & w & level & OB & AH & IE & J & OW & _). clear K0 H.
    destruct (file_sym es no) as (St0 & Sv0). destruct (orbitals_used syev_ld rnd c nel es o Hconf HV T V T' V' LT LV ST SV OB) as (LT' & LV' & U & gT & gV & RO & ST' & SV' & GF).
    clear LT LV ST SV OB T V. destruct (rotated_sym no U (file_T es) (file_V es) gT gV St0 Sv0 RO) as (St & Sv). rename T' into T. rename V' into V.
    unfold job_part_mpi in J. rewrite Hjob, Hexp in J. apply nd_inv in J. destruct J as ((E0 & l) & J & J'). red in J'. cbn [fst snd] in J'. injection J' as QE QD QW.
    destruct (hfacts W2 no ni na T V Fi TA VA Ei gT gV) as (L1 & L2 & S2 & S4); auto.
    unfold driver_asci_mpi in J. cbv zeta in J. apply DavProofs2.det_inv in J. destruct J as (h & Jh & J). rewrite span_held in Jh by (split; cbn [fst snd]; lia). injection Jh as <-.
    apply DavProofs2.det_inv in J. destruct J as (s0 & Jg & J). apply nd_inv in J. destruct J as ((s1 & TV) & JG & J).
    set (p := par_of P fuel (d_mcscf o) level) in *. set (st := asci_settings (d_asci o)) in *.
    apply (c72_off root syev syev p (g false) dbg 64 na st (mk_rot (k_rot (d_asci o)) (Z.to_nat (k_rot_start (d_asci o)))) Hrot) in JG; [|cbn [fst snd]; lia..].
    destruct JG as ([s1'|er] & JG & QG); [|discriminate QG]. injection QG as -> ->. cbn [fst snd] in J.
    apply DavProofs2.det_inv in J. destruct J as (h & Jh & J). rewrite span_held in Jh by (split; cbn [fst snd]; lia). injection Jh as <-.
    apply nd_inv in J. destruct J as (((e & dets) & Y) & JR & J). apply DavProofs2.det_inv in J. destruct J as (wf' & JW & J). red in J. injection J as QE0 QL. subst wf'.
    set (h := held na (TA, VA)) in *.
    assert (Vs : forall p q r s, p < norb h -> q < norb h -> r < norb h -> s < norb h -> V_pqrs h p q r s = V_pqrs h r s p q) by (intros p1 q r s Hp Hq Hr Hs; apply S4; auto).
    assert (Ts : forall p q, p < norb h -> q < norb h -> T_pq h p q = T_pq h q p) by (intros p1 q Hp Hq; apply S2; auto).
    assert (Vx : forall p q r s, p < norb h -> q < norb h -> r < norb h -> s < norb h -> V_pqrs h p q r s = V_pqrs h q p s r).
    { change (norb h) with na. change (V_pqrs h) with (at4 VA na). intros p1 q r s Hp Hq Hr Hs. destruct (S4 p1 q r s) as (E1 & E2); auto. rewrite E2. destruct (S4 q p1 r s) as (E3 & _); auto.
      rewrite E3. destruct (S4 r s q p1) as (_ & E4); auto. rewrite E4. apply S4; auto. }
    assert (Hd2 : dbg = true -> ne < norb h /\ ne < norb h) by (intros D; split; exact (Hdbg D)).
    set (PP := fun s : wfn_state => valid_dets 64 na ne ne (wfn_dets s) /\ length (snd s) = wfn_size s /\ exists thr, (thr = 0%Qc \/ thr = k_ci_matel (d_mcscf o)) /\
      exists E, wave_function W2 no ni na ne gT gV (wfn_dets s) (snd s) E /\ (Qcabs (Ei + wfn_energy s - E) <= inject (length (wfn_dets s) * length (wfn_dets s)) * thr)%Qc).
    assert (Step : forall g m a ss b, PP a -> Nat.min (ncdets_max st) (wfn_size a) <= m -> (Z.of_nat (m * p_ranks p) < 2 ^ 31)%Z ->
      asci_iter_mpi root syev p g dbg 64 st h m a (Ok ss) -> common ss = Ok b -> PP b).
    { intros g' m a ss b (VA1 & LA & _) Hm HMm Hab Hc.
      pose proof (iter_mpi_ok root syev 64 HW h H32 Vs p dbg st ne ne Hd2 ltac:(cbn [p_ranks p par_of]; lia) Hthr g' m a VA1 LA Hm HMm ss Hab) as (b' & -> & VB & PB).
      rewrite common_repeat in Hc by (cbn [p_ranks p par_of]; lia). injection Hc as ->.
      pose proof (iter_mpi_variational root syev 64 HW h H32 Vs p dbg st ne ne Hd2 ltac:(cbn [p_ranks p par_of]; lia) Hthr g' m a Ts Vx HR HS VA1 LA Hm HMm _ Hab) as F.
      assert (VV : variational 64 h (p_thr p) b). { rewrite Forall_forall in F. apply F. cbn [p_ranks p par_of]. destruct P; [lia|left; reflexivity]. }
      destruct PB as (_ & _ & LB & _). destruct VV as (N1 & X1 & _).
      split; [exact VB|]. split; [exact LB|]. exists (k_ci_matel (d_mcscf o)). split; [right; reflexivity|].
      eapply (state_near W2 no ni na ne T V Fi TA VA Ei gT gV); eauto. }
    assert (Start : PP s0 /\ wfn_size s0 = n0 /\ 1 <= n0).
    { unfold driver_guess in Jg. destruct Hst as [(Hw & ->)|(f & ds & C & Hw & HE & Hf & Hr & Hne & Hv & HD & ->)].
      - rewrite Hw in Jg. destruct (canonical_hf_ok 64 ne ne eq_refl) as (D & HD & WD & BA & BB); [cbn; lia..|]. rewrite HD in Jg. cbn [bind] in Jg.
        destruct (hf_valid na ne D Hel H32 WD BA BB) as (V1 & V2 & V3). rewrite (c13 64 h D D ne ne HW H32 Vs V1 V1 V2 V2 V3 V3) in Jg. cbn [bind] in Jg. injection Jg as <-.
        split; [|split; [reflexivity|lia]].
        assert (VD : valid_dets 64 na ne ne [D]). { split; [constructor; [intros []|constructor]|]. intros b [<-|[]]; auto. }
        split; [exact VD|]. split; [reflexivity|]. exists 0%Qc. split; auto. cbn [wfn_dets wfn_energy fst snd].
        apply (state_near W2 no ni na ne T V Fi TA VA Ei gT gV); auto; [apply Qcle_refl|].
        unfold expectation, matvec, Sigma. cbn [length seq sum nth]. rewrite ci_zero. cbn [nth]. fold h. unfold h, held. cbn [norb T_pq V_pqrs fst snd]. ring.
      - destruct (k_wfn_in (d_asci o)) as [|ch rest] eqn:EW; [contradiction|]. unfold stream in Jg. rewrite Hf, Hr in Jg. cbn [bind] in Jg. rewrite HE in Jg.
        assert (LC : length C = length ds) by (eapply read_lengths; eauto).
        unfold h, held in Jg. cbn [fst snd] in Jg. rewrite (file_energy_ok na TA VA ds C ne) in Jg; auto. cbn [bind] in Jg. injection Jg as <-. split; [|split; [reflexivity|destruct ds; [contradiction|cbn; lia]]].
        split; auto. split; [exact LC|]. exists 0%Qc. split; auto. eapply (state_near W2 no ni na ne T V Fi TA VA Ei gT gV); eauto. apply Qcle_refl. }
    destruct Start as (P0 & Z0 & N0).
    assert (RG : (0 <= k_ntdets_max (d_asci o) < 2 ^ 64)%Z). { destruct Hconf as (_ & _ & _ & _ & _ & _ & _ & _ & _ & _ & (G & _) & _). eapply (chosen_size_range c); [|exact G]. split; [discriminate|reflexivity]. }
    assert (HM : (Z.of_nat (ntdets_max st * p_ranks p) < 2 ^ 31)%Z). { cbn [st ntdets_max asci_settings p p_ranks par_of]. nia. }
    assert (Hgr : 1 <= grow_factor st) by (cbn [st grow_factor asci_settings]; lia).
    pose proof (grow_mpi_inv root syev p dbg 64 st h PP Step fuel (g false) HM Hgr s0 s1' P0 JG) as P1.
    assert (Z1 : wfn_size s1' = Nat.max n0 (Z.to_nat (k_ntdets_max (d_asci o)))).
    { destruct (Nat.le_gt_cases n0 (ntdets_max st)) as [L|L].
      - pose proof (c62_grow root syev 64 h p dbg st ne ne HW H32 Vs Hd2 HP Hthr fuel (g false) s0 Hgr HM ltac:(lia) (proj1 P0) (proj1 (proj2 P0)) s1' JG) as (Q & _).
        rewrite Q. cbn [st ntdets_max asci_settings] in *. lia.
      - destruct s0 as ((a0 & b0) & c0). pose proof Z0 as Z0'. unfold wfn_size in Z0'. cbn [fst snd] in Z0'.
        assert (LL : (length b0 <? ntdets_max st) = false) by (apply Nat.ltb_ge; lia).
        destruct fuel; cbn [asci_grow_mpi] in JG; rewrite LL in JG; red in JG; injection JG as ->; rewrite Z0; cbn [st ntdets_max asci_settings] in *; lia. }
    assert (P2 : PP (e, dets, Y) /\ length dets = wfn_size s1').
    { destruct (k_refine (d_asci o) =? 0)%Z; [assert (QQ : s1' = (e, dets, Y)) by (red in JR; congruence); rewrite QQ in *; split; [exact P1|reflexivity]|].
      unfold asci_refine_mpi in JR. refine (refine_mpi_inv root syev p dbg 64 st h PP Step (g true) (wfn_size s1') _ _ s1' _ P1 eq_refl JR).
      rewrite Z1. cbn [p p_ranks par_of]. nia. }
    destruct P2 as (((ND & VD) & LY & thr & HT & E & WF & BD) & Q2). cbn [wfn_dets wfn_energy fst snd] in *.
    exists U, gT, gV, dets, Y, E. split; [exact RO|]. split; [exact GF|]. split; auto. split.
    { rewrite QE, QE0. match goal with |- (Qcabs ?x <= _)%Qc => replace x with (Ei + e - E)%Qc by ring end. destruct HT as [-> | ->]; [|exact BD].
      eapply Qcle_trans; [exact BD|]. rewrite Qcmult_0_r. apply qmul_nonneg; [apply inject_nonneg|exact Hthr]. }
    split. { rewrite Q2. exact Z1. }
    split; [exact QD|]. split; intros Hw.
    - rewrite Hw in JW. injection JW as <-. rewrite OW. exact QW.
    - intros PV. destruct (k_wfn_out (d_asci o)) as [|a0 l0]; [contradiction|]. apply bind_ok in JW. destruct JW as (f & JW & Q). injection Q as <-. exists f. rewrite OW. split; auto.
      destruct (c23 show rnd 64 na dets Y (stream fs (a0 :: l0)) HW) as (f' & W1 & W2' & _); auto.
      { intros ->. destruct WF as (_ & _ & D1 & _). unfold dot, Sigma in D1. cbn [length seq sum] in D1. discriminate D1. }
      { intros b Hb. apply (in_space_wf 64 na); auto. apply VD; auto. }
      { nia. }
      { lia. }
      rewrite W1 in JW. injection JW as <-. exact W2'.
  Qed.
End JOBS.

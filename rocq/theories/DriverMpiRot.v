(** The driver's ASCI jobs with natural-orbital rotations on several ranks. *)
From Coq Require Import Ascii String QArith Qcanon ZArith NArith Bool.
From Verif Require AsciContrib.
From Verif Require Import Base Bits BitsProofs SD Spec SDProofs SDProofs2 SDProofs3 SDProofs4 Sums FockSpec SlaterCondon Ham HamProofs HamProofs2 HamProofs3 PropsHamGlue Nondet Mem Text IO IOSpec IOGlue Dense DenseSpec DenseProofs DiisSpec Diis Davidson DavSpec DavProofs2 DavProofs5 DavProofs8
  Mcscf McscfSpec CasciSpec McscfGlue2 Asci AsciSpec AsciIter AsciGlue AsciPar AsciParSpec AsciParProofs4 AsciParGlue2 AsciRot AsciRotSpec AsciRotProofs AsciRotGlue AsciRotPar AsciRotParSpec AsciRotParProofs AsciRotParGlue FreezeSpec FreezeProofs2 FreezeProofs4 FreezeGlue FreezeGlue2 Ini IniSpec IniGlue Driver DriverSpec DriverProofs DriverProofs2 DriverProofs3 DriverProofs4
  RotInvSpec RotInvProofs4 RotInvGlue DriverRot DriverMpi DriverMpiProofs DriverMpiProofs2.
Local Open Scope nat_scope.

Section NEAR.
  Variables (root : Qc -> Qc) (syev : nat -> list Qc -> res (list Qc * list Qc)) (m : mcscf_options) (na ne P level fu : nat).
  Hypothesis Hna : na <= 32.
  Hypothesis HR : exact_root root.
  Hypothesis HS : eigensolver syev.
  Local Notation thr := (k_ci_matel m).
  Hypothesis Hthr : (0 <= thr)%Qc.
  Hypothesis HP : 1 < P.
  Variables (aT : nat -> nat -> Qc) (aV : nat -> nat -> nat -> nat -> Qc).
  Hypothesis Sa : symmetric2 na aT.
  Hypothesis Sv : eightfold na aV.
  Variables (dbg : bool) (st : Asci.settings) (rs : rot_settings).
  Hypothesis Hd : dbg = true -> ne < na.
  Local Notation p := (par_of P fu m level).
  Notation exact_size TV := (length (fst TV) = na * na /\ length (snd TV) = na * na * (na * na)).
  Local Notation turned := (turned na aT aV).
  Local Notation close_to := (close_to m na).
  Definition kept_mpi (TV : list Qc * list Qc) (s : wfn_state) : Prop :=
    exact_size TV /\ turned (at2 (fst TV) na) (at4 (snd TV) na) /\ valid_dets 64 na ne ne (wfn_dets s) /\ length (snd s) = wfn_size s /\
    exists T V Y, turned T V /\ close_to T V (wfn_dets s) Y (wfn_energy s).
  Lemma iter_close TV g k s ss b : symmetric2 na (at2 (fst TV) na) -> eightfold na (at4 (snd TV) na) -> valid_dets 64 na ne ne (wfn_dets s) -> length (snd s) = wfn_size s ->
    Nat.min (ncdets_max st) (wfn_size s) <= k -> (Z.of_nat (k * P) < 2 ^ 31)%Z ->
    asci_iter_mpi root syev p g dbg 64 st (held na TV) k s (Ok ss) -> common ss = Ok b ->
    valid_dets 64 na ne ne (wfn_dets b) /\ length (snd b) = wfn_size b /\ close_to (at2 (fst TV) na) (at4 (snd TV) na) (wfn_dets b) (snd b) (wfn_energy b).
  Proof.
    intros S2 S4 VA LA Hm HM H Hc. assert (HW : spin_width 64) by (left; reflexivity). assert (H32 : na <= 64 / 2) by exact Hna.
    assert (Vs : forall p q r s, p < na -> q < na -> r < na -> s < na -> at4 (snd TV) na p q r s = at4 (snd TV) na r s p q) by (intros p1 q r s' Hp Hq Hr Hs; apply S4; auto).
    assert (Vx : forall p q r s, p < na -> q < na -> r < na -> s < na -> at4 (snd TV) na p q r s = at4 (snd TV) na q p s r).
    { intros p1 q r s' Hp Hq Hr Hs. destruct (S4 p1 q r s') as (E1 & E2); auto. rewrite E2. destruct (S4 q p1 r s') as (E3 & _); auto.
      rewrite E3. destruct (S4 r s' q p1) as (_ & E4); auto. rewrite E4. apply S4; auto. }
    assert (Hd2 : dbg = true -> ne < norb (held na TV) /\ ne < norb (held na TV)) by (intros D; split; exact (Hd D)).
    pose proof (iter_mpi_ok root syev 64 HW (held na TV) H32 Vs p dbg st ne ne Hd2 ltac:(cbn [p_ranks par_of]; lia) Hthr g k s VA LA Hm HM ss H) as (b' & -> & VB & PB).
    rewrite common_repeat in Hc by (cbn [p_ranks par_of]; lia). injection Hc as ->.
    pose proof (iter_mpi_variational root syev 64 HW (held na TV) H32 Vs p dbg st ne ne Hd2 ltac:(cbn [p_ranks par_of]; lia) Hthr g k s ltac:(intros p1 q Hp Hq; apply S2; auto) Vx HR HS VA LA Hm HM _ H) as F.
    assert (VV : variational 64 (held na TV) thr b). { rewrite Forall_forall in F. apply F. cbn [p_ranks par_of]. destruct P; [lia|left; reflexivity]. }
    destruct PB as (_ & _ & LB & _). destruct VV as (N1 & X1 & _). split; [exact VB|]. split; [exact LB|]. split; [exact LB|]. split; [exact N1|].
    unfold wfn_size in X1. rewrite <- X1. unfold held. cbn [fst snd]. apply ci_truncated; auto.
  Qed.
  Hypothesis HA : all_eigenpairs syev.
  Hypothesis H0 : 0 < na.
  Hypothesis HM : (Z.of_nat (ntdets_max st * P) < 2 ^ 31)%Z.
  Hypothesis Hg : 1 <= grow_factor st.
  Lemma grow_close_mpi fuel g : forall TV s, kept_mpi TV s -> wfn_size s <= ntdets_max st ->
    if_returns (asci_grow_rot_mpi root syev syev fuel p g dbg 64 na st rs TV s) (fun r => kept_mpi (snd r) (fst r) /\ wfn_size (fst r) = ntdets_max st).
  Proof.
    assert (HW : spin_width 64) by (left; reflexivity). assert (H32 : na <= 64 / 2) by exact Hna.
    induction fuel as [|f IH]; intros TV [[E0 wfn] X] K S2; cbn [asci_grow_rot_mpi].
    - destruct (Nat.ltb_spec (length wfn) (ntdets_max st)) as [Hl|Hl]; [apply returns_det; discriminate|].
      apply returns_ret. split; [exact K|]. cbn [fst snd]. unfold wfn_size in *. cbn [fst snd] in *. lia.
    - destruct (Nat.ltb_spec (length wfn) (ntdets_max st)) as [Hl|Hl].
      2:{ apply returns_ret. split; [exact K|]. cbn [fst snd]. unfold wfn_size in *. cbn [fst snd] in *. lia. }
      destruct TV as [T V]. destruct K as (SZ & Tu & HV & LX & _). cbn [fst snd] in Tu. destruct (turned_sym na aT aV Sa Sv _ _ Tu) as (S2' & S4).
      assert (PS : pair_symmetric na (at4 V na)) by (intros p1 q r s Hp Hq Hr Hs; apply S4; auto).
      rewrite (span_held na (fst (T, V)) (snd (T, V))) by (unfold roomy; cbn [fst snd] in *; lia). cbn [fst snd].
      eapply returns_bind with (P := fun h => h = held na (T, V)); [intros a Ha; unfold det in Ha; congruence|]. intros h ->.
      set (s := (E0, wfn, X)) in *. change (length wfn) with (wfn_size s) in *.
      set (tg := Nat.min (Nat.max (ntdets_min st) (wfn_size s * grow_factor st)) (ntdets_max st)).
      assert (LL : Nat.min (ncdets_max st) (wfn_size s) <= tg). { assert (wfn_size s <= wfn_size s * grow_factor st) by nia. unfold tg. lia. }
      assert (HMt : (Z.of_nat (tg * P) < 2 ^ 31)%Z) by (unfold tg; nia).
      eapply returns_bind with (P := fun ss => asci_iter_mpi root syev p (g f) dbg 64 st (held na (T, V)) tg s (Ok ss)); [intros a Ha; exact Ha|]. intros ss Hss.
      eapply returns_bind with (P := fun b => common ss = Ok b); [intros a Ha; unfold det in Ha; congruence|]. intros s1 Hs1.
      destruct (iter_close (T, V) (g f) tg s ss s1 S2' S4 HV LX LL HMt Hss Hs1) as (V1 & LX1 & CL). cbn [fst snd] in CL.
      destruct s1 as [[E wfn1] X1]. change (length wfn1) with (wfn_size (E, wfn1, X1)). set (m1 := (E, wfn1, X1)) in *.
      destruct (Nat.ltb_spec (wfn_size m1) tg) as [|Hge]; [apply returns_det; discriminate|].
      assert (Sm' : wfn_size m1 <= ntdets_max st).
      { pose proof (iter_mpi_ok root syev 64 HW (held na (T, V)) H32 PS p dbg st ne ne ltac:(intros D; split; exact (Hd D)) ltac:(cbn [p_ranks par_of]; lia) Hthr (g f) tg s HV LX LL HMt ss Hss) as (b' & -> & _ & PB).
        rewrite common_repeat in Hs1 by (cbn [p_ranks par_of]; lia). injection Hs1 as ->. destruct PB as (_ & Hlen & _). unfold tg in Hlen. lia. }
      destruct (grow_with_rot rs && (rot_size_start rs <=? wfn_size m1)) eqn:Er.
      + eapply returns_bind; [apply (rotation_mpi_ok root syev syev 64 na ne ne HA HW H0 H32 p dbg ltac:(intros D; split; exact (Hd D)) ltac:(cbn [p_ranks par_of]; lia) Hthr wfn1 X1 T V V1 LX1 SZ PS)|].
        { change (length wfn1) with (wfn_size m1). cbn [p_ranks par_of]. nia. }
        intros [[T' V'] X'] (SZ' & PS' & NR). specialize (NR E). fold m1 in NR.
        apply (IH (T', V') (E, wfn1, X')); [|exact Sm'].
        split; [exact SZ'|]. split.
        * destruct NR as ((g1 & G & occ & U & _ & _ & Ro) & _). cbn [fst snd] in *. destruct Tu as (U0 & Ru). exists (product na U0 U). exact (rotated_trans na U0 U _ _ _ _ _ _ Ru Ro).
        * split; [exact V1|]. split; [exact (proj1 (proj2 NR))|]. exists (at2 T na), (at4 V na), X1. split; [exact Tu|exact CL].
      + apply (IH (T, V) m1); [|exact Sm']. split; [exact SZ|]. split; [exact Tu|]. split; [exact V1|]. split; [exact LX1|]. exists (at2 T na), (at4 V na), X1. split; [exact Tu|exact CL].
  Qed.
End NEAR.

Section LAST.
  Variables (root : Qc -> Qc) (syev : nat -> list Qc -> res (list Qc * list Qc)) (p : par) (dbg : bool) (W : nat) (st : Asci.settings) (h : ints).
  Variables Q R : wfn_state -> Prop.
  Hypothesis Step : forall g m a ss b, Q a -> Nat.min (ncdets_max st) (wfn_size a) <= m -> (Z.of_nat (m * p_ranks p) < 2 ^ 31)%Z ->
    asci_iter_mpi root syev p g dbg W st h m a (Ok ss) -> common ss = Ok b -> Q b /\ R b.
  Lemma refine_mpi_last g m : (Z.of_nat (m * p_ranks p) < 2 ^ 31)%Z -> forall n s s', Q s -> wfn_size s = m ->
    refine_loop_mpi root syev n p g dbg W st h m s (Ok s') -> Q s' /\ R s' /\ wfn_size s' = m.
  Proof.
    intros HM. induction n as [|n IH]; intros s s' Qs Sz H; cbn [refine_loop_mpi] in H; [discriminate H|].
    apply nd_inv in H. destruct H as (ss & H1 & H). apply DavProofs2.det_inv in H. destruct H as (b & Eb & H).
    destruct (Nat.eqb_spec (length (snd (fst b))) m) as [Lb|Lb]; cbn [negb] in H; [|discriminate H].
    assert (Qb : Q b /\ R b). { eapply Step; [exact Qs| |exact HM|exact H1|exact (eq_sym Eb) || exact Eb]. lia. }
    destruct (abs_lt _ _); [red in H; injection H as ->; split; [apply Qb|split; [apply Qb|exact Lb]]|]. exact (IH b s' (proj1 Qb) Lb H).
  Qed.
End LAST.

Section JOBS.
  Variables (root : Qc -> Qc) (syev : nat -> list Qc -> res (list Qc * list Qc)) (syev_ld : nat -> list Qc -> nat -> res (list Qc * list Qc))
            (gelss : nat -> list Qc -> list Qc -> res (list Qc)) (expm : nat -> list Qc -> res (list Qc))
            (rnd : Q -> res Qc) (show : Qc -> text) (dec : list N -> Qc).
  Variables (P : nat) (dbg : bool) (fs : text -> option text) (fsb : text -> option (list N)).
  Variables (name fname : text) (c : content) (nel : Z) (es : list integral) (o : driver_options).
  Local Notation run g fuel := (driver_mpi root syev syev_ld gelss expm rnd show dec P g fuel dbg fs fsb (Some name)).
  Local Notation no := (max_index es).
  Local Notation ni := (d_ninactive o).
  Local Notation na := (d_nactive o).
  Local Notation ne := (Z.to_nat nel).
  Hypothesis Hin : input_file fs name c.
  Hypothesis Hask : asks_for c fname nel.
  Hypothesis Hfci : fcidump_file rnd fs fname es.
  Hypothesis Hconf : configured rnd c (max_index es) o.
  Hypothesis Hjob : d_job o = JobCI.
  Hypothesis HV : d_mp2 o = true -> orthonormal_vectors syev_ld.
  Hypothesis Hel : ne <= na.
  Hypothesis Hthr : (0 <= k_ci_matel (d_mcscf o))%Qc.
  Hypothesis HR : exact_root root.
  Hypothesis HS : eigensolver syev.
  Hypothesis HA : all_eigenpairs syev.
  Hypothesis H0 : 0 < na.
  Hypothesis HP : 1 < P.
  Lemma asci_rot_mpi_run n0 : d_exp o = ExpASCI -> (dbg = true -> ne < na) -> (1 <= k_grow (d_asci o))%Z -> starting_point rnd fs (d_asci o) na ne n0 ->
    (Z.max (Z.of_nat n0) (k_ntdets_max (d_asci o)) * Z.of_nat P < 2 ^ 31)%Z ->
    forall W2 g fuel out, no <= W2 / 2 -> run g fuel (Ok out) ->
    exists U gT gV Ua TA VA dets Y E D Z, rotated no U (file_T es) (file_V es) gT gV /\ (d_mp2 o = false -> gT = file_T es /\ gV = file_V es) /\
      rotated na Ua (active_T ni gT gV) (active_V ni gV) TA VA /\
      valid_dets 64 na ne ne dets /\ length dets = Nat.max n0 (Z.to_nat (k_ntdets_max (d_asci o))) /\ length Y = length dets /\ dot (length dets) Y Y = 1%Qc /\
      E = (core_energy ni gT gV + expectation (length dets) (ci_matrix 64 (mk_ints na TA VA) 0%Qc dets) Y)%Qc /\
      whole_space 64 na ne ne D /\ wave_function W2 no ni na ne gT gV D Z E /\
      (Qcabs (out_E out - (first_core es + E)) <= inject (length dets * length dets) * k_ci_matel (d_mcscf o))%Qc /\
      out_dets out = [] /\ (k_wfn_out (d_asci o) = [] -> out_wfn out = None) /\
      (k_wfn_out (d_asci o) <> [] -> (0 < k_refine (d_asci o))%Z -> (forall v, In v Y -> prints show rnd v) ->
         exists f, out_wfn out = Some f /\ read_wavefunction rnd 64 f = Ok (dets, Y)).
  Proof.
    intros Hexp Hdbg Hg Hst HZ. destruct (sizes rnd c nel es o Hconf Hel) as (Hi & H32). assert (HW : spin_width 64) by (left; reflexivity).
    intros W2 g fuel out H2 H.
    destruct (run_parts_mpi root syev syev_ld gelss expm rnd show dec P dbg fs fsb name fname c nel es o Hin Hask Hfci Hconf) as (T & V & LT & LV & ST & SV & K0).
    destruct (K0 g fuel out H) as (T' & V' & Fi & TA & VA & Ei & w & level & OB & AH & IE & J & OW & _). clear K0 H.
    destruct (file_sym es no) as (St0 & Sv0). destruct (orbitals_used syev_ld rnd c nel es o Hconf HV T V T' V' LT LV ST SV OB) as (LT' & LV' & U & gT & gV & RO & ST' & SV' & GF).
    clear LT LV ST SV OB T V. destruct (rotated_sym no U (file_T es) (file_V es) gT gV St0 Sv0 RO) as (St & Sv). rename T' into T. rename V' into V.
    unfold job_part_mpi in J. rewrite Hjob, Hexp in J. apply nd_inv in J. destruct J as ((E0 & l) & J & J'). red in J'. cbn [fst snd] in J'. injection J' as QE QD QW.
    destruct (hfacts W2 no ni na T V Fi TA VA Ei gT gV) as (L1 & L2 & S2 & S4); auto.
    destruct (active_of W2 no ni na T V Fi TA VA Ei gT gV H2 H32 Hi LT' LV' ST' SV' St Sv AH IE) as (M2 & M4 & EI).
    set (aT := at2 TA na) in *. set (aV := at4 VA na) in *. set (mo := d_mcscf o) in *.
    unfold driver_asci_mpi in J. cbv zeta in J. apply DavProofs2.det_inv in J. destruct J as (h & Jh & J). rewrite span_held in Jh by (split; cbn [fst snd]; lia). injection Jh as <-.
    apply DavProofs2.det_inv in J. destruct J as (s0 & Jg & J). apply nd_inv in J. destruct J as ((s1 & TV) & JG & J). cbn [fst snd] in J.
    set (p := par_of P fuel mo level) in *. set (st := asci_settings (d_asci o)) in *.
    assert (RG : (0 <= k_ntdets_max (d_asci o) < 2 ^ 64)%Z). { destruct Hconf as (_ & _ & _ & _ & _ & _ & _ & _ & _ & _ & (G & _) & _). eapply (chosen_size_range c); [|exact G]. split; [discriminate|reflexivity]. }
    assert (HM : (Z.of_nat (ntdets_max st * P) < 2 ^ 31)%Z) by (cbn [st ntdets_max asci_settings]; nia).
    assert (Hgr : 1 <= grow_factor st) by (cbn [st grow_factor asci_settings]; lia).
    assert (Start : kept_mpi mo na ne aT aV (TA, VA) s0 /\ wfn_size s0 = n0 /\ 1 <= n0).
    { assert (Vs : forall p q r s, p < na -> q < na -> r < na -> s < na -> at4 VA na p q r s = at4 VA na r s p q) by (intros p1 q r s Hp Hq Hr Hs; apply S4; auto).
      assert (Tn : turned na aT aV aT aV) by (exists identity; apply rotated_id).
      assert (CL : forall dets Y e, length Y = length dets -> dot (length dets) Y Y = 1%Qc -> e = expectation (length dets) (ci_matrix 64 (mk_ints na aT aV) 0%Qc dets) Y -> close_to mo na aT aV dets Y e).
      { intros dets Y e A B ->. split; auto. split; auto. match goal with |- (Qcabs ?x <= _)%Qc => replace x with 0%Qc by ring end.
        change (Qcabs 0) with 0%Qc. apply qmul_nonneg; [apply inject_nonneg|exact Hthr]. }
      assert (Rm : length (fst (TA, VA)) = na * na /\ length (snd (TA, VA)) = na * na * (na * na)) by (split; cbn [fst snd]; lia).
      unfold driver_guess in Jg. destruct Hst as [(Hw & ->)|(f & ds & C & Hw & HE & Hf & Hr & Hne & Hv & HD & ->)].
      - rewrite Hw in Jg. destruct (canonical_hf_ok 64 ne ne eq_refl) as (D & HD & WD & BA & BB); [cbn; lia..|]. rewrite HD in Jg. cbn [bind] in Jg.
        destruct (hf_valid na ne D Hel H32 WD BA BB) as (V1 & V2 & V3). rewrite (c13 64 (held na (TA, VA)) D D ne ne HW H32 Vs V1 V1 V2 V2 V3 V3) in Jg. cbn [bind] in Jg. injection Jg as <-.
        split; [|split; [reflexivity|lia]].
        assert (VD : valid_dets 64 na ne ne [D]). { split; [constructor; [intros []|constructor]|]. intros b [<-|[]]; auto. }
        split; [exact Rm|]. split; [exact Tn|]. split; [exact VD|]. split; [reflexivity|]. exists aT, aV, [1%Qc]. split; [exact Tn|]. cbn [wfn_dets wfn_energy fst snd]. apply CL; auto.
        unfold expectation, matvec, Sigma. cbn [length seq sum nth]. rewrite ci_zero. cbn [nth]. unfold held. cbn [norb T_pq V_pqrs fst snd]. unfold aT, aV. ring.
      - destruct (k_wfn_in (d_asci o)) as [|ch rest] eqn:EW; [contradiction|]. unfold stream in Jg. rewrite Hf, Hr in Jg. cbn [bind] in Jg. rewrite HE in Jg.
        assert (LC : length C = length ds) by (eapply read_lengths; eauto).
        unfold held in Jg. cbn [fst snd] in Jg. rewrite (file_energy_ok na TA VA ds C ne) in Jg; auto. cbn [bind] in Jg. injection Jg as <-. split; [|split; [reflexivity|destruct ds; [contradiction|cbn; lia]]].
        split; [exact Rm|]. split; [exact Tn|]. split; [exact Hv|]. split; [exact LC|]. exists aT, aV, C. split; [exact Tn|]. apply CL; auto. }
    destruct Start as (P0 & Z0 & N0).
    assert (Grown : kept_mpi mo na ne aT aV TV s1 /\ wfn_size s1 = Nat.max n0 (ntdets_max st)).
    { destruct (Nat.le_gt_cases n0 (ntdets_max st)) as [L|L].
      - rewrite Nat.max_r by lia.
        pose proof (grow_close_mpi root syev mo na ne P level fuel H32 HR HS Hthr HP aT aV S2 S4 dbg st (mk_rot (k_rot (d_asci o)) (Z.to_nat (k_rot_start (d_asci o)))) Hdbg HA H0 HM Hgr fuel (g false) (TA, VA) s0 P0) as G.
        exact (G ltac:(lia) _ JG).
      - rewrite Nat.max_l by lia. destruct s0 as ((a0 & b0) & c0). pose proof Z0 as Z0'. unfold wfn_size in Z0'. cbn [fst snd] in Z0'.
        assert (LL : (length b0 <? ntdets_max st) = false) by (apply Nat.ltb_ge; lia).
        destruct fuel; cbn [asci_grow_rot_mpi] in JG; rewrite LL in JG; red in JG; injection JG as -> ->; split; auto. }
    clear JG P0. destruct Grown as (P1 & Z1).
    apply DavProofs2.det_inv in J. destruct J as (h & Jh & J). rewrite span_held in Jh by (destruct P1 as ((PL1 & PL2) & _); split; cbn [fst snd]; rewrite ?PL1, ?PL2; apply Nat.le_refl). injection Jh as <-; replace (held na (fst TV, snd TV)) with (held na TV) in J by (destruct TV; reflexivity).
    apply nd_inv in J. destruct J as (((e & dets) & Y) & JR & J). apply DavProofs2.det_inv in J. destruct J as (wf' & JW & J). red in J. injection J as QE0 QL. subst wf'.
    assert (Fin : kept_mpi mo na ne aT aV TV (e, dets, Y) /\ length dets = wfn_size s1 /\ ((0 < k_refine (d_asci o))%Z -> exists T V, turned na aT aV T V /\ close_to mo na T V dets Y e)).
    { destruct (Z.eqb_spec (k_refine (d_asci o)) 0) as [Ez|Ez].
      - assert (QQ : s1 = (e, dets, Y)) by (red in JR; congruence). rewrite QQ in *. split; [exact P1|]. split; [reflexivity|lia].
      - destruct P1 as (R1 & R2 & R3 & R4 & R5). destruct (turned_sym na aT aV S2 S4 _ _ R2) as (S2' & S4').
        set (PP := fun s : wfn_state => valid_dets 64 na ne ne (wfn_dets s) /\ length (snd s) = wfn_size s).
        set (QQ := fun s : wfn_state => close_to mo na (at2 (fst TV) na) (at4 (snd TV) na) (wfn_dets s) (snd s) (wfn_energy s)).
        assert (Step : forall g k a ss b, PP a -> Nat.min (ncdets_max st) (wfn_size a) <= k -> (Z.of_nat (k * P) < 2 ^ 31)%Z ->
          asci_iter_mpi root syev p g dbg 64 st (held na TV) k a (Ok ss) -> common ss = Ok b -> PP b /\ QQ b).
        { intros g' k a ss b (VA1 & LA) Hm HMm Hab Hc. destruct (iter_close root syev mo na ne P level fuel H32 HR HS Hthr HP dbg st Hdbg TV g' k a ss b S2' S4' VA1 LA Hm HMm Hab Hc) as (A & B & C). split; [split; auto|exact C]. }
        unfold asci_refine_mpi in JR.
        destruct (refine_mpi_last root syev p dbg 64 st (held na TV) PP QQ Step (g true) (wfn_size s1)) with (2 := conj R3 R4) (3 := @eq_refl nat (wfn_size s1)) (4 := JR) as ((Pf & Lf) & Qf & Q).
        { rewrite Z1. cbn [p p_ranks par_of st ntdets_max asci_settings]. nia. }
        unfold QQ in Qf. cbn [wfn_dets wfn_energy fst snd] in Pf, Qf, Lf.
        split; [|split; [exact Q|]].
        + split; [exact R1|]. split; [exact R2|]. split; [exact Pf|]. split; [exact Lf|]. exists (at2 (fst TV) na), (at4 (snd TV) na), Y. auto.
        + intros _. exists (at2 (fst TV) na), (at4 (snd TV) na). auto. }
    destruct Fin as ((_ & _ & VD & _ & T1 & V1 & Y1 & Tu & CL) & LD & CL').
    assert (Pick : exists T2 V2 Y2, turned na aT aV T2 V2 /\ close_to mo na T2 V2 dets Y2 e /\ ((0 < k_refine (d_asci o))%Z -> Y2 = Y)).
    { destruct (Z.ltb_spec 0 (k_refine (d_asci o))) as [G|G].
      - destruct (CL' G) as (T2 & V2 & A & B). exists T2, V2, Y. auto.
      - exists T1, V1, Y1. split; [exact Tu|]. split; [exact CL|lia]. }
    clear T1 V1 Y1 Tu CL CL'. destruct Pick as (T2 & V2 & Y2 & (Ua & Tu) & (LY & NY & CL) & QY). cbn [wfn_dets wfn_energy fst snd] in VD.
    assert (Tu' : rotated na Ua (active_T ni gT gV) (active_V ni gV) T2 V2) by (apply (rotated_same na Ua aT (active_T ni gT gV) aV (active_V ni gV) T2 V2 M2 M4 Tu)).
    assert (Sg : symmetric2 na (active_T ni gT gV) /\ eightfold na (active_V ni gV)).
    { split; [intros p1 q Hp Hq; rewrite <- !M2 by auto; apply S2; auto|intros p1 q r s Hp Hq Hr Hs; rewrite <- !M4 by auto; apply S4; auto]. }
    assert (FS : full_state 64 na ne ne (active_T ni gT gV) (active_V ni gV) (expectation (length dets) (ci_matrix 64 (mk_ints na T2 V2) 0%Qc dets) Y2)).
    { eapply (rot_dets 64 na); eauto. }
    destruct FS as (D & Z & WD & LZ & NZ & EZ).
    exists U, gT, gV, Ua, T2, V2, dets, Y2. eexists. exists D, Z. split; [exact RO|]. split; [exact GF|]. split; [exact Tu'|]. split; [exact VD|].
    split; [rewrite LD, Z1; reflexivity|]. split; [exact LY|]. split; [exact NY|]. split; [reflexivity|]. split; [exact WD|]. split.
    { rewrite <- EZ. apply state_fun; auto. { intros p1 q r s Hp Hq Hr Hs. apply Sv; auto. } destruct WD as (WD1 & WD2). split; auto. intros d Hd. apply WD2; auto. }
    split. { rewrite QE, QE0, EI. match goal with |- (Qcabs ?x <= _)%Qc => match type of CL with (Qcabs ?y <= _)%Qc => replace x with y by ring end end. exact CL. }
    split; [exact QD|]. split; intros Hw.
    - rewrite Hw in JW. injection JW as <-. rewrite OW. exact QW.
    - intros Rf PV. rewrite (QY Rf) in *. destruct (k_wfn_out (d_asci o)) as [|a0 l0]; [contradiction|]. apply bind_ok in JW. destruct JW as (f & JW & Q). injection Q as <-. exists f. rewrite OW. split; auto.
      destruct (c23 show rnd 64 na dets Y (stream fs (a0 :: l0)) HW) as (f' & W1 & W2' & _); auto.
      { intros ->. unfold dot, Sigma in NY. cbn [length seq sum] in NY. discriminate NY. }
      { intros b Hb. apply (in_space_wf 64 na); auto. apply VD; auto. }
      { rewrite LD, Z1. cbn [st ntdets_max asci_settings]. nia. }
      { lia. }
      rewrite W1 in JW. injection JW as <-. exact W2'.
  Qed.
End JOBS.

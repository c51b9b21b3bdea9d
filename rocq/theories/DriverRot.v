(** The driver's ASCI jobs with natural-orbital rotations. *)
From Coq Require Import Ascii String QArith Qcanon ZArith NArith Bool.
From Verif Require AsciContrib.
From Verif Require Import Base Bits BitsProofs SD Spec SDProofs SDProofs2 SDProofs3 SDProofs4 Sums FockSpec SlaterCondon Ham HamProofs HamProofs2 HamProofs3 PropsHamGlue Nondet Mem Text IO IOSpec IOGlue Dense DenseSpec DenseProofs DiisSpec Diis Davidson DavSpec DavProofs2 DavProofs5 DavProofs8
  Mcscf McscfSpec CasciSpec McscfGlue2 Asci AsciSpec AsciIter AsciGlue AsciRot AsciRotSpec AsciRotProofs AsciRotGlue FreezeSpec FreezeProofs2 FreezeProofs4 FreezeGlue FreezeGlue2 Ini IniSpec IniGlue Driver DriverSpec DriverProofs DriverProofs2 DriverProofs3 DriverProofs4
  RotInvSpec RotInvProofs4 RotInvGlue.
Local Open Scope nat_scope.

Lemma refine_last W st h dg dbg (P Q : wfn_state -> Prop) n : (forall m a b, P a -> asci_iter dbg W st h dg m a (Ok b) -> P b /\ Q b) ->
  forall k s s', P s -> refine_loop k dbg W st h dg n s (Ok s') -> P s' /\ Q s'.
Proof.
  intros HP. induction k as [|k IH]; intros s s' Hs H; cbn [refine_loop] in H; [discriminate H|].
  apply nd_inv in H. destruct H as (s1 & H1 & H). destruct (HP n s s1 Hs H1) as (P1 & Q1).
  destruct (negb _); [discriminate H|]. destruct (abs_lt _ _); [red in H; injection H as ->; auto|]. exact (IH s1 s' P1 H).
Qed.
Lemma last_def {A} (l : list A) : forall b d d', last (b :: l) d = last (b :: l) d'.
Proof. induction l as [|a l IH]; intros b d d'; [reflexivity|]. change (last (a :: l) d = last (a :: l) d'). apply IH. Qed.
Lemma path_last {A} (R : A -> A -> Prop) (P : A -> Prop) : (forall a b, P a -> R a b -> P b) -> forall l a, P a -> path R (a :: l) -> P (last (a :: l) a).
Proof.
  intros H. induction l as [|b l IH]; intros a Pa Pt; [exact Pa|]. destruct Pt as [P1 P2]. change (P (last (b :: l) a)). rewrite (last_def l b a b). apply IH; [exact (H a b Pa P1)|exact P2].
Qed.
Section NEAR.
  Variables (root : Qc -> Qc) (syev : nat -> list Qc -> res (list Qc * list Qc)) (m : mcscf_options) (na ne : nat).
  Hypothesis Hna : na <= 32.
  Hypothesis HR : exact_root root.
  Hypothesis HS : eigensolver syev.
  Local Notation thr := (k_ci_matel m).
  Hypothesis Hthr : (0 <= thr)%Qc.
  (** [e] is close to the energy of the normalised wave function [dets], [Y] with the integrals [T], [V] *)
  Definition close_to (T : nat -> nat -> Qc) (V : nat -> nat -> nat -> nat -> Qc) (dets : list N) (Y : list Qc) (e : Qc) : Prop :=
    length Y = length dets /\ dot (length dets) Y Y = 1%Qc /\
    (Qcabs (e - expectation (length dets) (ci_matrix 64 (mk_ints na T V) 0%Qc dets) Y) <= inject (length dets * length dets) * thr)%Qc.
  Lemma diag_close TV dets Y e : symmetric2 na (at2 (fst TV) na) -> eightfold na (at4 (snd TV) na) -> valid_dets 64 na ne ne dets ->
    ci_diag_of root syev m (held na TV) dets (Ok (e, Y)) -> close_to (at2 (fst TV) na) (at4 (snd TV) na) dets Y e.
  Proof.
    intros S2 S4 (ND & A) R. assert (H32 : na <= 64 / 2) by exact Hna. assert (HW : spin_width 64) by (left; reflexivity). unfold ci_diag_of in R.
    pose proof (ci_diag root syev 64 (held na TV) thr dets ne ne (Z.to_nat (k_ci_sub m)) (k_ci_tol m) [] e Y HW H32) as L. cbn [held norb T_pq V_pqrs] in L.
    destruct L as (L & _); auto. { intros p q r s Hp Hq Hr Hs. apply S4; auto. }
    pose proof (ci_diag_variational root syev 64 (held na TV) thr dets ne ne (Z.to_nat (k_ci_sub m)) (k_ci_tol m) [] e Y HW H32) as K. cbn [held norb T_pq V_pqrs] in K.
    destruct K as (K1 & K2 & _); auto.
    { intros p q r s Hp Hq Hr Hs. destruct (S4 p q r s) as (E1 & E2); auto. split; auto. rewrite E2. destruct (S4 q p r s) as (E3 & _); auto.
      rewrite E3. destruct (S4 r s q p) as (_ & E4); auto. rewrite E4. apply S4; auto. }
    { intros [|j]; reflexivity. }
    split; [exact L|]. split; [exact K1|]. rewrite <- K2. unfold held. cbn [fst snd]. apply ci_truncated; auto.
  Qed.
  Hypothesis HA : all_eigenpairs syev.
  Hypothesis H0 : 0 < na.
  Variables (aT : nat -> nat -> Qc) (aV : nat -> nat -> nat -> nat -> Qc).
  Hypothesis Sa : symmetric2 na aT.
  Hypothesis Sv : eightfold na aV.
  Variables (dbg : bool) (st : Asci.settings) (rs : rot_settings).
  Hypothesis Hd : dbg = true -> ne < na.
  Hypothesis Hmax : (N.of_nat (ntdets_max st) < 2 ^ 64)%N.
  Hypothesis Hg : 2 <= grow_factor st.
  Local Notation dg := (ci_diag_of root syev m).
  Definition turned (T : nat -> nat -> Qc) (V : nat -> nat -> nat -> nat -> Qc) : Prop := exists U, rotated na U aT aV T V.
  Definition kept (TV : list Qc * list Qc) (s : wfn_state) : Prop :=
    roomy na TV /\ turned (at2 (fst TV) na) (at4 (snd TV) na) /\ valid_dets 64 na ne ne (wfn_dets s) /\
    exists T V Y, turned T V /\ close_to T V (wfn_dets s) Y (wfn_energy s).
  Lemma turned_sym T V : turned T V -> symmetric2 na T /\ eightfold na V.
  Proof. intros (U & R). exact (rotated_sym na U aT aV T V Sa Sv R). Qed.
  Lemma grow_close fuel : forall TV s, kept TV s -> 1 <= wfn_size s -> wfn_size s <= ntdets_max st ->
    if_returns (asci_grow_rot syev fuel dbg 64 na st rs dg TV s) (fun r => kept (snd r) (fst r) /\ wfn_size (fst r) = ntdets_max st).
  Proof.
    assert (HW : spin_width 64) by (left; reflexivity). assert (H32 : na <= 64 / 2) by exact Hna.
    induction fuel as [|f IH]; intros TV [[E0 wfn] X] K S1 S2; cbn [asci_grow_rot].
    - destruct (Nat.ltb_spec (length wfn) (ntdets_max st)) as [Hl|Hl]; [apply returns_det; discriminate|].
      apply returns_ret. split; [exact K|]. cbn [fst snd]. unfold wfn_size in *. cbn [fst snd] in *. lia.
    - destruct (Nat.ltb_spec (length wfn) (ntdets_max st)) as [Hl|Hl].
      2:{ apply returns_ret. split; [exact K|]. cbn [fst snd]. unfold wfn_size in *. cbn [fst snd] in *. lia. }
      destruct TV as [T V]. destruct K as (R & Tu & HV & _). cbn [fst snd] in Tu |- *. destruct (turned_sym _ _ Tu) as (S2' & S4).
      assert (PS : pair_symmetric na (at4 V na)) by (intros p q r s Hp Hq Hr Hs; apply S4; auto).
      rewrite span_held by exact R.
      eapply returns_bind with (P := fun h => h = held na (T, V)); [intros a Ha; unfold det in Ha; congruence|]. intros h ->.
      set (s := (E0, wfn, X)) in *. change (length wfn) with (wfn_size s) in *. fold (grow_to st s).
      pose proof (grow_strict st s Hg S1 Hl) as Hs.
      assert (LL : Nat.min (ncdets_max st) (wfn_size s) <= grow_to st s) by lia.
      assert (L64 : (N.of_nat (grow_to st s) < 2 ^ 64)%N) by (unfold grow_to; lia).
      eapply returns_bind with (P := fun m1 => asci_iter dbg 64 st (held na (T, V)) (dg (held na (T, V))) (grow_to st s) s (Ok m1)); [intros a Ha; exact Ha|].
      intros m1 Hm. destruct (iter_len dbg 64 st _ _ (grow_to st s) s LL L64 m1 Hm) as [Lm Dm].
      assert (Hd2 : dbg = true -> ne < na /\ ne < na) by (intros D; split; exact (Hd D)).
      pose proof (iter_valid 64 HW (held na (T, V)) H32 PS dbg st ne ne Hd2 (dg (held na (T, V))) (grow_to st s) s HV m1 Hm) as Vm. cbn [held norb] in Vm.
      pose proof (diag_close (T, V) _ _ _ S2' S4 Vm Dm) as CL. cbn [fst snd] in CL.
      destruct m1 as [[E wfn1] X1]. change (length wfn1) with (wfn_size (E, wfn1, X1)). set (m1 := (E, wfn1, X1)) in *.
      destruct (Nat.ltb_spec (wfn_size m1) (grow_to st s)) as [|Hge]; [apply returns_det; discriminate|].
      assert (Sm : wfn_size m1 = grow_to st s) by lia. assert (Sm' : wfn_size m1 <= ntdets_max st) by (unfold grow_to in Sm; lia).
      destruct (grow_with_rot rs && (rot_size_start rs <=? wfn_size m1)) eqn:Er.
      + eapply returns_bind; [apply (rotation_ok syev 64 na ne ne HA HW H0 H32 dg wfn1 X1 T V Vm (proj1 CL) R)|].
        intros [[T' V'] X'] (LT & LV & NR). specialize (NR E). fold m1 in NR.
        apply (IH (T', V') (E, wfn1, X')); [|change (wfn_size (E, wfn1, X')) with (wfn_size m1); lia|exact Sm'].
        split; [unfold roomy in *; cbn [fst snd] in *; rewrite LT, LV; exact R|]. split.
        * destruct NR as (g & G & occ & U & E' & _ & _ & Ro & _). cbn [fst snd] in *. destruct Tu as (U0 & Ru). exists (product na U0 U). exact (rotated_trans na U0 U _ _ _ _ _ _ Ru Ro).
        * split; [exact Vm|]. exists (at2 T na), (at4 V na), X1. split; [exact Tu|exact CL].
      + apply (IH (T, V) m1); [|lia|exact Sm']. split; [exact R|]. split; [exact Tu|]. split; [exact Vm|]. exists (at2 T na), (at4 V na), X1. split; [exact Tu|exact CL].
  Qed.
End NEAR.

Lemma active_of W2 no ni na T V Fi TA VA Ei gT gV : no <= W2 / 2 -> na <= 32 -> ni + na <= no -> length T = no * no -> length V = no * no * (no * no) ->
  same2 no (at2 T no) gT -> same4 no (at4 V no) gV -> symmetric2 no gT -> eightfold no gV ->
  active_hamiltonian no na ni T no V no (repeat 0%Qc (no * no)) no (repeat 0%Qc (na * na)) na (repeat 0%Qc (na * na * (na * na))) na = Ok (Fi, TA, VA) ->
  inactive_energy ni T no Fi no = Ok Ei ->
  same2 na (at2 TA na) (active_T ni gT gV) /\ same4 na (at4 VA na) (active_V ni gV) /\ Ei = core_energy ni gT gV.
Proof.
  intros H2 H32 Hi LT LV ST SV St Sv AH IE.
  destruct (code_facts 64 W2 no ni na T V (repeat 0%Qc (no * no)) (repeat 0%Qc (na * na)) (repeat 0%Qc (na * na * (na * na))) no no no) with (Fi' := Fi) (TA' := TA) (VA' := VA) (Ei := Ei) as (_ & _ & M2 & M4 & EI);
    eauto using hT, hV, hF, hTs, hVs; try (rewrite repeat_length; lia); try (left; reflexivity); try exact H32.
  assert (FT : forall p q, p < ni + na -> q < ni + na -> at2 T no p q = gT p q) by (intros; apply ST; lia).
  assert (FV : forall p q r s, p < ni + na -> q < ni + na -> r < ni + na -> s < ni + na -> at4 V no p q r s = gV p q r s) by (intros; apply SV; lia).
  split; [|split].
  - intros p q Hp Hq. rewrite M2 by auto. unfold active_T, shift2, inactive_fock. rewrite FT by lia. f_equal. apply Sigma_ext. intros k Hk. rewrite !FV by lia. reflexivity.
  - intros p q r s Hp Hq Hr Hs. rewrite M4 by auto. unfold active_V, shift4. apply FV; lia.
  - rewrite EI. unfold core_energy. f_equal.
    + apply Sigma_ext. intros k Hk. rewrite FT by lia. reflexivity.
    + apply Sigma_ext. intros k Hk. apply Sigma_ext. intros l Hl. rewrite !FV by lia. reflexivity.
Qed.
Section JOBS.
  Variables (root : Qc -> Qc) (syev : nat -> list Qc -> res (list Qc * list Qc)) (syev_ld : nat -> list Qc -> nat -> res (list Qc * list Qc))
            (gelss : nat -> list Qc -> list Qc -> res (list Qc)) (expm : nat -> list Qc -> res (list Qc))
            (rnd : Q -> res Qc) (show : Qc -> text) (dec : list N -> Qc).
  Variables (dbg : bool) (fs : text -> option text) (fsb : text -> option (list N)).
  Variables (name fname : text) (c : content) (nel : Z) (es : list integral) (o : driver_options).
  Local Notation run fuel := (driver root syev syev_ld gelss expm rnd show dec fuel dbg fs fsb (Some name)).
  Local Notation no := (max_index es).
  Local Notation ni := (d_ninactive o).
  Local Notation na := (d_nactive o).
  Local Notation ne := (Z.to_nat nel).
  Hypothesis Hin : input_file fs name c.
  Hypothesis Hask : asks_for c fname nel.
  Hypothesis Hfci : fcidump_file rnd fs fname es.
  Hypothesis Hconf : configured rnd c (max_index es) o.
  Hypothesis Hjob : d_job o = JobCI.
  Hypothesis HV : d_mp2 o = true -> orthonormal_vectors syev_ld.
  Hypothesis Hel : ne <= na.
  Hypothesis Hthr : (0 <= k_ci_matel (d_mcscf o))%Qc.
  Hypothesis HR : exact_root root.
  Hypothesis HS : eigensolver syev.
  Hypothesis HA : all_eigenpairs syev.
  Hypothesis H0 : 0 < na.
  Lemma asci_rot_run n0 : d_exp o = ExpASCI -> (dbg = true -> ne < na) -> (2 <= k_grow (d_asci o))%Z -> starting_point rnd fs (d_asci o) na ne n0 ->
    forall W2 fuel out, no <= W2 / 2 -> run fuel (Ok out) ->
    exists U gT gV Ua TA VA dets Y E D Z, rotated no U (file_T es) (file_V es) gT gV /\ (d_mp2 o = false -> gT = file_T es /\ gV = file_V es) /\
      rotated na Ua (active_T ni gT gV) (active_V ni gV) TA VA /\
      valid_dets 64 na ne ne dets /\ length dets = Nat.max n0 (Z.to_nat (k_ntdets_max (d_asci o))) /\ length Y = length dets /\ dot (length dets) Y Y = 1%Qc /\
      E = (core_energy ni gT gV + expectation (length dets) (ci_matrix 64 (mk_ints na TA VA) 0%Qc dets) Y)%Qc /\
      whole_space 64 na ne ne D /\ wave_function W2 no ni na ne gT gV D Z E /\
      (Qcabs (out_E out - (first_core es + E)) <= inject (length dets * length dets) * k_ci_matel (d_mcscf o))%Qc /\
      out_dets out = [] /\ (k_wfn_out (d_asci o) = [] -> out_wfn out = None) /\
      (k_wfn_out (d_asci o) <> [] -> (0 < k_refine (d_asci o))%Z -> (forall v, In v Y -> prints show rnd v) -> (N.of_nat (length dets) < 2 ^ 31)%N ->
         exists f, out_wfn out = Some f /\ read_wavefunction rnd 64 f = Ok (dets, Y)).
  Proof.
    intros Hexp Hdbg Hg Hst. destruct (sizes rnd c nel es o Hconf Hel) as (Hi & H32). assert (HW : spin_width 64) by (left; reflexivity).
    intros W2 fuel out H2 H.
    destruct (run_parts root syev syev_ld gelss expm rnd show dec dbg fs fsb name fname c nel es o Hin Hask Hfci Hconf) as (T & V & LT & LV & ST & SV & P).
    destruct (P fuel out H) as (T' & V' & Fi & TA & VA & Ei & w & OB & AH & IE & J & OW & _). clear P H.
    destruct (file_sym es no) as (St0 & Sv0). destruct (orbitals_used syev_ld rnd c nel es o Hconf HV T V T' V' LT LV ST SV OB) as (LT' & LV' & U & gT & gV & RO & ST' & SV' & GF).
    clear LT LV ST SV OB T V. destruct (rotated_sym no U (file_T es) (file_V es) gT gV St0 Sv0 RO) as (St & Sv). rename T' into T. rename V' into V.
    unfold job_part in J. rewrite Hjob, Hexp in J. apply nd_inv in J. destruct J as ((E0 & l) & J & J'). red in J'. cbn [fst snd] in J'. injection J' as QE QD QW.
    destruct (hfacts W2 no ni na T V Fi TA VA Ei gT gV) as (L1 & L2 & S2 & S4); auto.
    destruct (active_of W2 no ni na T V Fi TA VA Ei gT gV H2 H32 Hi LT' LV' ST' SV' St Sv AH IE) as (M2 & M4 & EI).
    set (aT := at2 TA na) in *. set (aV := at4 VA na) in *. set (mo := d_mcscf o) in *.
    unfold driver_asci_run in J. cbv zeta in J. apply DavProofs2.det_inv in J. destruct J as (h & Jh & J). rewrite span_held in Jh by (split; cbn [fst snd]; lia). injection Jh as <-.
    apply DavProofs2.det_inv in J. destruct J as (s0 & Jg & J). apply nd_inv in J. destruct J as ((s1 & TV) & JG & J). cbn [fst snd] in J.
    set (st := asci_settings (d_asci o)) in *. fold mo in JG, J, Jg.
    assert (Start : kept mo na ne aT aV (TA, VA) s0 /\ wfn_size s0 = n0 /\ 1 <= n0).
    { assert (Vs : forall p q r s, p < na -> q < na -> r < na -> s < na -> at4 VA na p q r s = at4 VA na r s p q) by (intros p q r s Hp Hq Hr Hs; apply S4; auto).
      assert (Tn : turned na aT aV aT aV) by (exists identity; apply rotated_id).
      assert (CL : forall dets Y e, length Y = length dets -> dot (length dets) Y Y = 1%Qc -> e = expectation (length dets) (ci_matrix 64 (mk_ints na aT aV) 0%Qc dets) Y -> close_to mo na aT aV dets Y e).
      { intros dets Y e A B ->. split; auto. split; auto. match goal with |- (Qcabs ?x <= _)%Qc => replace x with 0%Qc by ring end.
        change (Qcabs 0) with 0%Qc. apply qmul_nonneg; [apply inject_nonneg|exact Hthr]. }
      assert (Rm : roomy na (TA, VA)) by (split; cbn [fst snd]; lia).
      unfold driver_guess in Jg. destruct Hst as [(Hw & ->)|(f & ds & C & Hw & HE & Hf & Hr & Hne & Hv & HD & ->)].
      - rewrite Hw in Jg. destruct (canonical_hf_ok 64 ne ne eq_refl) as (D & HD & WD & BA & BB); [cbn; lia..|]. rewrite HD in Jg. cbn [bind] in Jg.
        destruct (hf_valid na ne D Hel H32 WD BA BB) as (V1 & V2 & V3). rewrite (c13 64 (held na (TA, VA)) D D ne ne HW H32 Vs V1 V1 V2 V2 V3 V3) in Jg. cbn [bind] in Jg. injection Jg as <-.
        split; [|split; [reflexivity|lia]].
        assert (VD : valid_dets 64 na ne ne [D]). { split; [constructor; [intros []|constructor]|]. intros b [<-|[]]; auto. }
        split; [exact Rm|]. split; [exact Tn|]. split; [exact VD|]. exists aT, aV, [1%Qc]. split; [exact Tn|]. cbn [wfn_dets wfn_energy fst snd]. apply CL; auto.
        unfold expectation, matvec, Sigma. cbn [length seq sum nth]. rewrite ci_zero. cbn [nth]. unfold held. cbn [norb T_pq V_pqrs fst snd]. unfold aT, aV. ring.
      - destruct (k_wfn_in (d_asci o)) as [|ch rest] eqn:EW; [contradiction|]. unfold stream in Jg. rewrite Hf, Hr in Jg. cbn [bind] in Jg. rewrite HE in Jg.
        assert (LC : length C = length ds) by (eapply read_lengths; eauto).
        unfold held in Jg. cbn [fst snd] in Jg. rewrite (file_energy_ok na TA VA ds C ne) in Jg; auto. cbn [bind] in Jg. injection Jg as <-. split; [|split; [reflexivity|destruct ds; [contradiction|cbn; lia]]].
        split; [exact Rm|]. split; [exact Tn|]. split; [exact Hv|]. exists aT, aV, C. split; [exact Tn|]. apply CL; auto. }
    destruct Start as (P0 & Z0 & N0).
    assert (Grown : kept mo na ne aT aV TV s1 /\ wfn_size s1 = Nat.max n0 (ntdets_max st)).
    { destruct (Nat.le_gt_cases n0 (ntdets_max st)) as [L|L].
      - rewrite Nat.max_r by lia.
        assert (RG : (0 <= k_ntdets_max (d_asci o) < 2 ^ 64)%Z). { destruct Hconf as (_ & _ & _ & _ & _ & _ & _ & _ & _ & _ & (G & _) & _). eapply (chosen_size_range c); [|exact G]. split; [discriminate|reflexivity]. }
        assert (Hmax : (N.of_nat (ntdets_max st) < 2 ^ 64)%N) by (cbn [st ntdets_max asci_settings]; lia).
        assert (Hgr : 2 <= grow_factor st) by (cbn [st grow_factor asci_settings]; lia).
        pose proof (grow_close root syev mo na ne H32 HR HS Hthr HA H0 aT aV S2 S4 dbg st (mk_rot (k_rot (d_asci o)) (Z.to_nat (k_rot_start (d_asci o)))) Hdbg Hmax Hgr fuel (TA, VA) s0 P0) as G.
        exact (G ltac:(lia) ltac:(lia) _ JG).
      - rewrite Nat.max_l by lia. destruct s0 as ((a0 & b0) & c0). pose proof Z0 as Z0'. unfold wfn_size in Z0'. cbn [fst snd] in Z0'.
        assert (LL : (length b0 <? ntdets_max st) = false) by (apply Nat.ltb_ge; lia).
        destruct fuel; cbn [asci_grow_rot] in JG; rewrite LL in JG; red in JG; injection JG as -> ->; split; auto. }
    clear JG P0. destruct Grown as (P1 & Z1).
    apply DavProofs2.det_inv in J. destruct J as (h & Jh & J). rewrite span_held in Jh by (apply P1). injection Jh as <-.
    apply nd_inv in J. destruct J as (((e & dets) & Y) & JR & J). apply DavProofs2.det_inv in J. destruct J as (wf' & JW & J). red in J. injection J as QE0 QL. subst wf'.
    assert (Fin : kept mo na ne aT aV TV (e, dets, Y) /\ length dets = wfn_size s1 /\ ((0 < k_refine (d_asci o))%Z -> exists T V, turned na aT aV T V /\ close_to mo na T V dets Y e)).
    { destruct (Z.eqb_spec (k_refine (d_asci o)) 0) as [Ez|Ez].
      - assert (QQ : s1 = (e, dets, Y)) by (red in JR; congruence). rewrite QQ in *. split; [exact P1|]. split; [reflexivity|lia].
      - destruct (c36_refine 64 (held na TV) dbg st (ci_diag_of root syev mo (held na TV)) s1 _ JR) as (Q & _).
        destruct P1 as (R1 & R2 & R3 & R4). destruct (turned_sym na aT aV S2 S4 _ _ R2) as (S2' & S4').
        set (PP := fun s : wfn_state => valid_dets 64 na ne ne (wfn_dets s)). set (QQ := fun s : wfn_state => close_to mo na (at2 (fst TV) na) (at4 (snd TV) na) (wfn_dets s) (snd s) (wfn_energy s)).
        assert (Step : forall m a b, PP a -> asci_iter dbg 64 st (held na TV) (ci_diag_of root syev mo (held na TV)) m a (Ok b) -> PP b /\ QQ b).
        { intros m a b VA1 Hab. assert (VB : PP b).
          { destruct (c53 64 (held na TV) dbg st ne ne (ci_diag_of root syev mo (held na TV)) a HW H32) as (K & _); [intros p q r s Hp Hq Hr Hs; apply S4'; auto|intros Hd; specialize (Hdbg Hd); split; exact Hdbg|exact VA1|]. apply (K m b Hab). }
          split; auto. apply iter_diag in Hab. exact (diag_close root syev mo na ne H32 HR HS Hthr TV _ _ _ S2' S4' VB Hab). }
        destruct (refine_last 64 st (held na TV) (ci_diag_of root syev mo (held na TV)) dbg PP QQ _ Step _ _ _ R3 JR) as (Pf & Qf). unfold PP, QQ in Pf, Qf. cbn [wfn_dets wfn_energy fst snd] in Pf, Qf.
        split; [|split; [exact Q|]].
        + split; [exact R1|]. split; [exact R2|]. split; [exact Pf|]. exists (at2 (fst TV) na), (at4 (snd TV) na), Y. auto.
        + intros _. exists (at2 (fst TV) na), (at4 (snd TV) na). auto. }
    destruct Fin as ((_ & _ & VD & T1 & V1 & Y1 & Tu & CL) & LD & CL').
    assert (Pick : exists T2 V2 Y2, turned na aT aV T2 V2 /\ close_to mo na T2 V2 dets Y2 e /\ ((0 < k_refine (d_asci o))%Z -> Y2 = Y)).
    { destruct (Z.ltb_spec 0 (k_refine (d_asci o))) as [G|G].
      - destruct (CL' G) as (T2 & V2 & A & B). exists T2, V2, Y. auto.
      - exists T1, V1, Y1. split; [exact Tu|]. split; [exact CL|lia]. }
    clear T1 V1 Y1 Tu CL CL'. destruct Pick as (T2 & V2 & Y2 & (Ua & Tu) & (LY & NY & CL) & QY). cbn [wfn_dets wfn_energy fst snd] in VD.
    assert (Tu' : rotated na Ua (active_T ni gT gV) (active_V ni gV) T2 V2) by (apply (rotated_same na Ua aT (active_T ni gT gV) aV (active_V ni gV) T2 V2 M2 M4 Tu)).
    assert (Sg : symmetric2 na (active_T ni gT gV) /\ eightfold na (active_V ni gV)).
    { split; [intros p q Hp Hq; rewrite <- !M2 by auto; apply S2; auto|intros p q r s Hp Hq Hr Hs; rewrite <- !M4 by auto; apply S4; auto]. }
    assert (FS : full_state 64 na ne ne (active_T ni gT gV) (active_V ni gV) (expectation (length dets) (ci_matrix 64 (mk_ints na T2 V2) 0%Qc dets) Y2)).
    { eapply (rot_dets 64 na); eauto. }
    destruct FS as (D & Z & WD & LZ & NZ & EZ).
    exists U, gT, gV, Ua, T2, V2, dets, Y2. eexists. exists D, Z. split; [exact RO|]. split; [exact GF|]. split; [exact Tu'|]. split; [exact VD|].
    split; [rewrite LD, Z1; reflexivity|]. split; [exact LY|]. split; [exact NY|]. split; [reflexivity|]. split; [exact WD|]. split.
    { rewrite <- EZ. apply state_fun; auto. { intros p q r s Hp Hq Hr Hs. apply Sv; auto. } destruct WD as (WD1 & WD2). split; auto. intros d Hd. apply WD2; auto. }
    split. { rewrite QE, QE0, EI. match goal with |- (Qcabs ?x <= _)%Qc => match type of CL with (Qcabs ?y <= _)%Qc => replace x with y by ring end end. exact CL. }
    split; [exact QD|]. split; intros Hw.
    - rewrite Hw in JW. injection JW as <-. rewrite OW. exact QW.
    - intros Rf PV LN. rewrite (QY Rf) in *. destruct (k_wfn_out (d_asci o)) as [|a0 l0]; [contradiction|]. apply bind_ok in JW. destruct JW as (f & JW & Q). injection Q as <-. exists f. rewrite OW. split; auto.
      destruct (c23 show rnd 64 na dets Y (stream fs (a0 :: l0)) HW) as (f' & W1 & W2' & _); auto.
      { intros ->. unfold dot, Sigma in NY. cbn [length seq sum] in NY. discriminate NY. }
      { intros b Hb. apply (in_space_wf 64 na); auto. apply VD; auto. }
      { lia. }
      rewrite W1 in JW. injection JW as <-. exact W2'.
  Qed.
End JOBS.

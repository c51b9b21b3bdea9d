(** Integrals and energies of the driver. *)
From Coq Require Import Ascii String QArith Qcanon ZArith NArith Bool.
From Verif Require Import Base Bits SD Spec DenseEx McscfProofs MemProofs SparseProofs1 RdmIOProofs LinRespProofs FockMatProofs Mp2Proofs RotProofs DenseGlue McscfProofs AsciRotProofs Sums FockSpec SlaterCondon Ham HamProofs Nondet Mem Text IO IOSpec IOGlue FcidumpProofs Dense DenseSpec DenseProofs DiisSpec Diis Davidson DavSpec DavProofs2 DavProofs8
  Mcscf McscfSpec CasciSpec McscfGlue2 Asci AsciSpec AsciIter AsciGlue AsciRot AsciRotSpec AsciRotGlue FreezeSpec FreezeGlue2 Ini IniSpec IniGlue Driver DriverSpec DriverProofs.
Local Open Scope nat_scope.

Lemma in_fold_max a l : In a l -> a <= fold_right Nat.max 0 l.
Proof. induction l as [|b l IH]; intros H; [destruct H|]. cbn [fold_right]. destruct H as [<-|H]; [lia|]. specialize (IH H). lia. Qed.
Lemma index_bound rnd ls es : data_lines rnd ls es -> forall e i, In e es -> In i (indices e) -> (N.of_nat i < 2 ^ 31)%N.
Proof.
  induction 1 as [|l ls es H D IH|l ls e es H D IH]; intros e' i He Hi; [destruct He|eauto|].
  destruct He as [<-|He]; [|eauto]. destruct e as ((((p & q) & r) & s) & v). destruct H as (a & b & c & d & x & _ & (_ & _ & _ & A) & (_ & _ & _ & B) & (_ & _ & _ & C) & (_ & _ & _ & E) & _).
  cbn [indices] in Hi. destruct Hi as [<-|[<-|[<-|[<-|[]]]]]; auto.
Qed.
Lemma max_index_bound rnd ls es : data_lines rnd ls es -> (Z.of_nat (max_index es) < 2 ^ 31)%Z.
Proof.
  intros H. unfold max_index. assert (G : forall i, In i (flat_map indices es) -> (N.of_nat i < 2 ^ 31)%N).
  { intros i Hi. apply in_flat_map in Hi. destruct Hi as (e & He & Hi). eapply index_bound; eauto. }
  change (2 ^ 31)%N with 2147483648%N in G. change (2 ^ 31)%Z with 2147483648%Z. revert G. clear. induction (flat_map indices es) as [|a l IH]; intros G; cbn [fold_right]; [lia|].
  assert (N.of_nat a < 2147483648)%N by (apply G; left; auto). specialize (IH (fun i Hi => G i (or_intror Hi))). lia.
Qed.
Lemma last_value_ext P Q es v : (forall e, P e = Q e) -> last_value P es v = last_value Q es v.
Proof. intros H. unfold last_value. revert v. induction es as [|e es IH]; intros v; cbn [fold_left]; auto. rewrite H. apply IH. Qed.
Lemma same_pair_sym a b p q : same_pair a b p q = same_pair a b q p.
Proof. unfold same_pair. destruct ((a =? p) && (b =? q)), ((a =? q) && (b =? p)); reflexivity. Qed.
Lemma file_sym es n : symmetric2 n (file_T es) /\ eightfold n (file_V es).
Proof.
  split.
  - intros p q _ _. apply last_value_ext. intros ((((a & b) & c) & d) & v). cbn [one_at]. f_equal. apply same_pair_sym.
  - intros p q r s _ _ _ _. split; apply last_value_ext; intros ((((a & b) & c) & d) & v); cbn [two_at].
    + rewrite orb_comm. reflexivity.
    + rewrite (same_pair_sym a b (S p)), (same_pair_sym c d (S p)). reflexivity.
Qed.
Lemma integrals_ok rnd f es : data_lines rnd (lines f) es -> (forall e, In e es -> proper e) ->
  exists T V, driver_integrals rnd f = Ok (max_index es, first_core es, T, V) /\
    List.length T = max_index es * max_index es /\ List.length V = max_index es * max_index es * (max_index es * max_index es) /\
    same2 (max_index es) (at2 T (max_index es)) (file_T es) /\ same4 (max_index es) (at4 V (max_index es)) (file_V es).
Proof.
  intros D P. destruct (c24_read rnd f es D) as (R1 & R2). set (n := max_index es) in *.
  destruct (c24_one rnd f es D P (repeat 0%Qc (n * n)) (repeat_length _ _)) as (T & R3 & L3 & E3).
  destruct (c24_two rnd f es D (repeat 0%Qc (n * n * (n * n)))) as (V & R4 & L4 & E4). { rewrite repeat_length. fold n. ring. }
  fold n in R3, L3, E3, R4, L4, E4. exists T, V. unfold driver_integrals. rewrite R1. cbn [bind]. rewrite R2. cbn [bind]. fold n. rewrite R3. cbn [bind]. rewrite R4. cbn [bind].
  split; auto. split; auto. split. { rewrite L4, repeat_length. reflexivity. } split.
  - intros p q Hp Hq. specialize (E3 p q 0%Qc Hp Hq). unfold pos2 in E3. unfold at2. rewrite Nat.mul_comm. rewrite E3, nth_repeat. reflexivity.
  - intros p q r s Hp Hq Hr Hs. specialize (E4 p q r s 0%Qc Hp Hq Hr Hs). unfold pos4 in E4. unfold at4.
    match goal with |- nth ?i V 0%Qc = _ => match type of E4 with nth ?j V 0%Qc = _ => replace i with j by ring end end.
    rewrite E4, nth_repeat. reflexivity.
Qed.
Lemma frozen_state_ext W n ni nt a b T T' V V' E : same2 n T T' -> same4 n V V' -> frozen_state W n ni nt a b T V E -> frozen_state W n ni nt a b T' V' E.
Proof.
  intros S2 S4 ((dets & Y & H1 & H2 & H3 & H4 & H5) & B). split.
  - exists dets, Y. split; auto. split; auto. split; auto. split; auto. rewrite <- H5. symmetry. apply expectation_ext. intros i j Hi Hj. apply ci_same; auto.
  - intros D b' HD SB. apply (B D b' HD). eapply spectrum_ext; [|exact SB]. intros i j Hi Hj. apply ci_same; [intros p q Hp Hq; symmetry; apply S2; auto|intros p q r s Hp Hq Hr Hs; symmetry; apply S4; auto].
Qed.

(** MP2 natural orbitals of a run that returned *)
Lemma natural_inv syev norb no nv T LDT V LDV C LDC ON C' : norb = no + nv -> fits2 T LDT norb norb -> fits4 V LDV norb -> fits2 C LDC norb norb ->
  (forall p q, p < norb -> q < norb -> at2 C LDC p q = 0%Qc) ->
  let eps := orbital_energy no (at2 T LDT) (at4 V LDV) in let t := amplitude no (at4 V LDV) eps in
  mp2_natural_orbitals syev norb no nv T LDT V LDV C LDC = Ok (ON, C') ->
  exists A w, List.length A = List.length C /\ (forall p q, p < norb -> q < norb -> at2 A LDC p q = (- mp2_density no nv t p q)%Qc) /\
    syev norb A LDC = Ok (C', w).
Proof.
  intros En HT HV HC HZ eps t. unfold mp2_natural_orbitals. 
  assert (Hd : (forall i j a b, i < no -> j < no -> a < nv -> b < nv -> denominator no eps i j a b <> 0%Qc) \/
    exists i j a b, i < no /\ j < no /\ a < nv /\ b < nv /\ denominator no eps i j a b = 0%Qc).
  { assert (D : forall n (P : nat -> Prop), (forall i, i < n -> P i \/ ~ P i) -> (forall i, i < n -> P i) \/ exists i, i < n /\ ~ P i).
    { induction n as [|n IH]; intros P HP; [left; lia|]. destruct (IH P) as [H|(i & H1 & H2)]; [intros; apply HP; lia| |right; exists i; auto].
      destruct (HP n) as [H1|H1]; [lia| |right; exists n; auto]. left. intros i Hi. destruct (Nat.eq_dec i n) as [->|]; auto. apply H. lia. }
    assert (D4 : (forall i, i < no -> forall j, j < no -> forall a, a < nv -> forall b, b < nv -> denominator no eps i j a b <> 0%Qc) \/
      exists i, i < no /\ exists j, j < no /\ exists a, a < nv /\ exists b, b < nv /\ ~ denominator no eps i j a b <> 0%Qc).
    { assert (NN : forall (A B : Prop), A \/ B -> (A -> B -> False) -> A \/ ~ A) by tauto.
      assert (DD : forall n (P Q : nat -> Prop), (forall i, i < n -> P i \/ Q i) -> (forall i, i < n -> P i -> Q i -> False) -> (forall i, i < n -> P i) \/ exists i, i < n /\ Q i).
      { intros n P Q H1 H2. destruct (D n P) as [H|(i & Hi & H)]; [intros i Hi; apply (NN (P i) (Q i)); auto; intros; eapply H2; eauto|left; exact H|]. right. exists i. split; auto. destruct (H1 i Hi); [contradiction|auto]. }
      apply DD; [|intros i _ H (j & Hj & a & Ha & b & Hb & K); apply K, H; auto]. intros i Hi.
      apply DD; [|intros j _ H (a & Ha & b & Hb & K); apply K, H; auto]. intros j Hj.
      apply DD; [|intros a _ H (b & Hb & K); apply K, H; auto]. intros a Ha.
      apply DD; [|intros b _ H K; apply K, H]. intros b Hb. destruct (Qc_eq_dec (denominator no eps i j a b) 0%Qc); tauto. }
    destruct D4 as [H|(i & Hi & j & Hj & a & Ha & b & Hb & K)]; [left; intros; apply H; auto|right]. exists i, j, a, b. repeat (split; auto).
    destruct (Qc_eq_dec (denominator no eps i j a b) 0%Qc); tauto. }
  destruct Hd as [Hd|(i & j & a & b & Hi & Hj & Ha & Hb & Hz)].
  2:{ intros H. exfalso. apply bind_ok in H. destruct H as (x & Hx & _). unfold mp2_1rdm in Hx. cbv zeta in Hx.
      destruct (canonical_ok norb no T LDT V LDV (repeat 0%Qc norb) ltac:(lia) HT HV ltac:(rewrite repeat_length; lia)) as (e & E1 & L1 & E2 & _). rewrite E1 in Hx. cbn [bind] in Hx.
      rewrite (mp2_t2_zero no nv V LDV e _ i j a b) in Hx; auto; [discriminate Hx|rewrite <- En; exact HV|rewrite L1, repeat_length; lia|rewrite repeat_length; lia|].
      etransitivity; [|exact Hz]. unfold denominator. cbv beta. rewrite !E2 by lia. reflexivity. }
  destruct (mp2_1rdm_ok norb no nv T LDT V LDV C LDC En HT HV HC Hd) as (E & P & -> & _ & LP & Hoo & Hvv & Hr). cbn [bind].
  match goal with |- context [foldM (loop2 norb norb) ?f P] =>
    destruct (foldM_cells 0%Qc f (fun pq : nat * nat => fst pq + snd pq * LDC) (fun _ c => (- c)%Qc) (loop2 norb norb) P (List.length P)) as (A & EA & LA & HA & _) end; auto.
  { apply nodup_map_inj; [apply nodup_loop2|]. intros [p q] [p' q'] H H' E'. apply in_loop2 in H, H'. cbn in E'. destruct HC as [HL _].
    apply (pos2_inj LDC) in E'; [|lia|lia]. destruct E'; subst; auto. }
  { intros [p q] H. apply in_loop2 in H. cbn. rewrite LP. apply HC; tauto. }
  { intros s [p q] H Ls. apply in_loop2 in H. cbn [fst snd]. assert (p + q * LDC < List.length s) by (rewrite Ls, LP; apply HC; tauto).
    rewrite (at_ok _ _ 0%Qc) by auto. cbn [bind]. apply put_ok; auto. }
  rewrite EA. cbn [bind]. intros H. apply bind_ok in H. destruct H as ((C1 & w) & Hs & H). apply bind_ok in H. destruct H as (ON' & _ & H). injection H as _ <-.
  exists A, w. split; [congruence|]. split; [|exact Hs].
  intros p q Hp Hq. unfold at2. transitivity (- nth (p + q * LDC) P 0)%Qc; [apply (HA (p, q)); apply in_loop2; auto|]. f_equal.
  unfold mp2_density. destruct HC as [HL HB].
  destruct (Nat.ltb_spec p no) as [a|a], (Nat.ltb_spec q no) as [b|b], (Nat.leb_spec no p) as [c|c], (Nat.leb_spec no q) as [d|d]; try lia; cbn [andb].
  + apply (Hoo p q); auto.
  + rewrite Hr; [apply HZ; auto| |]; intros i j Hi Hj E'; apply (pos2_inj LDC) in E'; lia.
  + rewrite Hr; [apply HZ; auto| |]; intros i j Hi Hj E'; apply (pos2_inj LDC) in E'; lia.
  + rewrite <- Hvv by lia. unfold at2. f_equal. f_equal; [lia|]. f_equal. lia.
Qed.
Lemma density_sym no nv V eps : pair_symmetric (no + nv) V -> symmetric2 (no + nv) (mp2_density no nv (amplitude no V eps)).
Proof.
  intros H p q Hp Hq. destruct (c48_sym no nv V eps) as (A & B). unfold mp2_density.
  destruct (Nat.ltb_spec p no), (Nat.ltb_spec q no), (Nat.leb_spec no p), (Nat.leb_spec no q); try lia; cbn [andb]; auto. apply B; auto; lia.
Qed.
Lemma rotated_same n U T T0 V V0 T' V' : same2 n T T0 -> same4 n V V0 -> rotated n U T V T' V' -> rotated n U T0 V0 T' V'.
Proof.
  intros S2 S4 (O & A & B). split; auto. split.
  - intros p q Hp Hq. rewrite A by auto. apply congruence2_ext; auto.
  - intros p q r s Hp Hq Hr Hs. rewrite B by auto. apply congruence4_ext; auto.
Qed.
Lemma rotated_id n T V : rotated n identity T V T V.
Proof.
  split; [apply identity_orthogonal|]. split.
  - intros p q Hp Hq. rewrite congruence2_id; auto.
  - intros p q r s Hp Hq Hr Hs. rewrite congruence4_id; auto.
Qed.
Lemma rotated_sym n U T V T' V' : symmetric2 n T -> eightfold n V -> rotated n U T V T' V' -> symmetric2 n T' /\ eightfold n V'.
Proof.
  intros S2 S4 (O & A & B). split.
  - intros p q Hp Hq. rewrite !A by auto. apply congruence2_sym; auto.
  - apply (same4_eight n (congruence4 n U V)); [intros p q r s Hp Hq Hr Hs; symmetry; apply B; auto|apply congruence4_eight; auto].
Qed.
Lemma orbitals_ok syev_ld mp2 no nocc T V T' V' fT fV : orthonormal_vectors syev_ld -> 0 < no ->
  List.length T = no * no -> List.length V = no * no * (no * no) -> same2 no (at2 T no) fT -> same4 no (at4 V no) fV -> symmetric2 no fT -> eightfold no fV ->
  driver_orbitals syev_ld mp2 no nocc T V = Ok (T', V') ->
  List.length T' = no * no /\ List.length V' = no * no * (no * no) /\
  exists U gT gV, rotated no U fT fV gT gV /\ same2 no (at2 T' no) gT /\ same4 no (at4 V' no) gV /\ (mp2 = false -> gT = fT /\ gV = fV).
Proof.
  intros HV H0 LT LV ST SV St Sv H. unfold driver_orbitals in H. destruct mp2.
  - destruct (Nat.ltb_spec no nocc) as [L|L]; [discriminate H|]. apply bind_ok in H. destruct H as ((ON & C') & HN & HR).
    assert (FT : fits2 T no no no) by (split; [lia|intros i j A B; rewrite LT; nia]).
    assert (FV : fits4 V no no). { split; [lia|]. intros i j k l A B C D. rewrite LV. assert (i + j * no < no * no) by nia. assert (k + l * no < no * no) by nia. nia. }
    destruct (natural_inv syev_ld no nocc (no - nocc) T no V no (repeat 0%Qc (no * no)) no ON C') as (A & w & LA & HA & HS); auto; [lia| | |].
    { split; [lia|intros i j A B; rewrite repeat_length; nia]. } { intros p q Hp Hq. unfold at2. apply nth_repeat. }
    rewrite repeat_length in LA.
    assert (SA : symmetric2 no (at2 A no)).
    { intros p q Hp Hq. rewrite !HA by auto. f_equal. pose proof (density_sym nocc (no - nocc) (at4 V no) (orbital_energy nocc (at2 T no) (at4 V no))) as K. 
      replace (nocc + (no - nocc)) with no in K by lia. apply K; auto. intros a b c d Ha Hb Hc Hd. rewrite !SV by auto. apply Sv; auto. }
    destruct (HV no A no C' w HS LA SA) as (LC & OC). cbn [snd] in HR.
    destruct (rotate_ok (2 * no) no H0 ltac:(rewrite Nat.mul_comm, Nat.div_mul by lia; lia) C' T V LC) as (T2 & V2 & R & L1 & L2 & S1 & S2); [split; cbn [fst snd]; lia|]. rewrite R in HR. injection HR as <- <-.
    split; [lia|]. split; [lia|]. exists (at2 C' no), (at2 T2 no), (at4 V2 no). split; [apply (rotated_same no (at2 C' no) (at2 T no) fT (at4 V no) fV); auto; split; auto|].
    split; [intros p q _ _; reflexivity|]. split; [intros p q r s _ _ _ _; reflexivity|discriminate].
  - injection H as <- <-. split; auto. split; auto. exists identity, fT, fV. split; [apply rotated_id|]. split; auto.
Qed.
Section RUN.
  Variables (root : Qc -> Qc) (syev : nat -> list Qc -> res (list Qc * list Qc)) (syev_ld : nat -> list Qc -> nat -> res (list Qc * list Qc))
            (gelss : nat -> list Qc -> list Qc -> res (list Qc)) (expm : nat -> list Qc -> res (list Qc))
            (rnd : Q -> res Qc) (show : Qc -> text) (dec : list N -> Qc).
  Variables (dbg : bool) (fs : text -> option text) (fsb : text -> option (list N)).
  Variables (name fname : text) (c : content) (nel : Z) (es : list integral) (o : driver_options).
  Hypothesis Hin : input_file fs name c.
  Hypothesis Hask : asks_for c fname nel.
  Hypothesis Hfci : fcidump_file rnd fs fname es.
  Hypothesis Hconf : configured rnd c (max_index es) o.
  Local Notation run fuel := (driver root syev syev_ld gelss expm rnd show dec fuel dbg fs fsb (Some name)).
  Local Notation no := (max_index es).
  Local Notation ni := (d_ninactive o).
  Local Notation na := (d_nactive o).
  Local Notation ne := (Z.to_nat nel).

  Definition job_part fuel E_core T V Ei TA VA : nd (Qc * list (Qc * text) * option text) :=
    match d_job o with
    | JobCI =>
      match d_exp o with
      | ExpCAS => any r <- driver_cas root syev fuel o ne Ei E_core TA VA; ret (fst r, snd r, None)
      | ExpASCI => any r <- driver_asci_run root syev rnd show fuel dbg fs o ne Ei E_core TA VA (stream fs (k_wfn_out (d_asci o))); ret (fst r, [], snd r)
      end
    | JobMCSCF => any E <- driver_mcscf_run root syev gelss expm dec fuel fsb o no ne E_core T V; ret (E, [], None)
    end.
  Lemma run_parts : exists T V,
    List.length T = no * no /\ List.length V = no * no * (no * no) /\ same2 no (at2 T no) (file_T es) /\ same4 no (at4 V no) (file_V es) /\
    forall fuel out, run fuel (Ok out) ->
    exists T' V' Fi TA VA Ei w, driver_orbitals syev_ld (d_mp2 o) no (ni + ne) T V = Ok (T', V') /\
      active_hamiltonian no na ni T' no V' no (repeat 0%Qc (no * no)) no (repeat 0%Qc (na * na)) na (repeat 0%Qc (na * na * (na * na))) na = Ok (Fi, TA, VA) /\
      inactive_energy ni T' no Fi no = Ok Ei /\
      job_part fuel (first_core es) T' V' Ei TA VA (Ok (out_E out, out_dets out, w)) /\ out_wfn out = w /\
      (d_fci_out o = [] -> out_fcidump out = None) /\
      (d_fci_out o <> [] -> exists f, write_fcidump show false no T' no V' no (first_core es) = Ok f /\ out_fcidump out = Some f).
  Proof.
    destruct Hin as (fi & is & F1 & F2 & F3 & ->). destruct Hfci as (ff & G1 & G2 & G3).
    destruct (ini_reads fi is F2 F3) as (d & P1 & P2 & _).
    destruct (integrals_ok rnd ff es G2 G3) as (T & V & I1 & L1 & L2 & S1 & S2). exists T, V. split; auto. split; auto. split; auto. split; auto.
    intros fuel out H. unfold driver in H. apply DavProofs2.det_inv in H. destruct H as (n & N1 & H). injection N1 as <-.
    rewrite F1, P1 in H. apply DavProofs2.det_inv in H. destruct H as (d' & N1 & H). injection N1 as <-.
    rewrite (proj2 (required_ok d (contents is) P2 fname nel) Hask) in H. apply DavProofs2.det_inv in H. destruct H as (r & N1 & H). injection N1 as <-.
    unfold stream at 1 in H. rewrite G1, I1 in H. apply DavProofs2.det_inv in H. destruct H as (r & N1 & H). injection N1 as <-.
    rewrite (proj2 (setup_ok rnd d (contents is) P2 no o (max_index_bound _ _ _ G2)) Hconf) in H. apply DavProofs2.det_inv in H. destruct H as (r & N1 & H). injection N1 as <-.
    cbv zeta in H. apply DavProofs2.det_inv in H. destruct H as ((T' & V') & O1 & H). apply DavProofs2.det_inv in H. destruct H as (((Fi & TA) & VA) & A1 & H).
    apply DavProofs2.det_inv in H. destruct H as (Ei & E1 & H). apply nd_inv in H. destruct H as (((E0 & dets) & w) & J & H).
    apply DavProofs2.det_inv in H. destruct H as (fo & FO & H). red in H. injection H as ->. exists T', V', Fi, TA, VA, Ei, w. cbn [out_E out_dets out_wfn out_fcidump].
    split; auto. split; auto. split; auto. split; [exact J|]. split; auto. split.
    - intros E. rewrite E in FO. injection FO as <-. reflexivity.
    - intros E. destruct (d_fci_out o); [contradiction|]. apply bind_ok in FO. destruct FO as (f & W1 & W2). injection W2 as <-. eauto.
  Qed.
End RUN.

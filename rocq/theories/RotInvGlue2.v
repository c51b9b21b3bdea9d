(** Orbital rotations: the integral transformations, CASSCF, ASCI with rotations and the
    standalone program. *)
From Coq Require Import Ascii String QArith Qcanon ZArith NArith Bool.
From Verif Require Import Base Bits SD Spec Sums FockSpec SlaterCondon Ham Nondet Text IO IOSpec Dense DenseSpec DenseProofs DenseEx DiisSpec Diis Davidson DavSpec DavEx
  Mcscf McscfSpec CasciSpec McscfProofs McscfGlue McscfGlue2 Asci AsciSpec AsciRot AsciRotSpec AsciRotGlue FreezeSpec FreezeProofs4 FreezeGlue FreezeGlue2 Ini IniSpec Driver DriverSpec DriverProofs4 DriverGlue
  RotInvSpec RotInvProofs4 RotInvGlue.
Local Open Scope nat_scope.

Lemma transformed W no na nb T V C T0 V0 T1 V1 : 0 < no -> no <= W / 2 -> fits2 T no no no -> fits4 V no no -> fits2 C no no no -> fits2 T0 no no no -> fits4 V0 no no ->
  orthogonal no (at2 C no) -> two_index_transform no no T no C no T0 no = Ok T1 -> four_index_transform no no V no C no V0 no = Ok V1 ->
  forall D, whole_space W no na nb D ->
    similar (length D) (ci_matrix W (mk_ints no (at2 T no) (at4 V no)) 0%Qc D) (ci_matrix W (mk_ints no (at2 T1 no) (at4 V1 no)) 0%Qc D).
Proof.
  intros H0 Hno FT FV FC FT0 FV0 OC E1 E2 D HD.
  destruct (two_index_ok no no T no C no T0 no H0 H0 FT FC FT0) as (X & EX & _ & AX & _). rewrite E1 in EX. injection EX as <-.
  destruct (four_index_packed no no V C no V0 no H0 H0 FV FC FV0) as (X & EX & _ & AY & _). rewrite E2 in EX. injection EX as <-.
  apply (rot_similar W no Hno (at2 C no) _ _ _ _) with (na := na) (nb := nb); [|exact HD]. split; [exact OC|]. split; [intros p q Hp Hq; apply AX; auto|intros p q r s Hp Hq Hr Hs; apply AY; auto].
Qed.
(** one wave function in an active space of rotated orbitals *)
Lemma active_full W W2 no ni na U T V T' V' : na <= W / 2 -> no <= W2 / 2 -> ni + na <= no -> rotated no U T V T' V' -> exchange_symmetric no V' ->
  forall dets Y nalpha nbeta, valid_dets W na nalpha nbeta dets -> length Y = length dets -> dot (length dets) Y Y = 1%Qc ->
  full_state W2 no (ni + nalpha) (ni + nbeta) T V (core_energy ni T' V' + expectation (length dets) (ci_matrix W (mk_ints na (active_T ni T' V') (active_V ni V')) 0%Qc dets) Y)%Qc.
Proof.
  intros Hna Hno Hi R EX dets Y a b (ND & VD) LY Y1. apply (frozen_full W2 no Hno U T T' V V' R ni (ni + na)).
  exact (frozen_state_of W W2 no ni na T' V' Hno Hna Hi EX dets Y a b ND LY VD Y1).
Qed.
Section CASSCF.
  Variables (root : Qc -> Qc) (syev : nat -> list Qc -> res (list Qc * list Qc)) (gelss : nat -> list Qc -> list Qc -> res (list Qc)) (expm : nat -> list Qc -> res (list Qc)) (st : Mcscf.settings)
    (nalpha nbeta no ni na nv : nat) (E_core : Qc) (T : list Qc) (LDT : nat) (V A1 A2 : list Qc).
  Lemma casscf_full : orbital_problem no ni na nv T LDT V -> density_room na A1 A2 -> rotations_or_tolerance root (orb_grad_tol st) ni na nv ->
    least_squares gelss -> exponential expm -> (enable_diis st = true -> 0 < diis_nkeep st) ->
    na <= 32 -> nalpha <= na -> nbeta <= na -> (0 <= ci_matel_tol st)%Qc -> exact_root root -> eigensolver syev ->
    exists f0, forall W2 fuel E B1 B2 it conv, f0 <= fuel -> no <= W2 / 2 ->
      casscf_diis root syev gelss expm fuel st nalpha nbeta no ni na nv E_core T LDT V no na na A1 A2 (Ok (E, B1, B2, (it, conv))) -> 0 < it ->
      exists E', full_state W2 no (ni + nalpha) (ni + nbeta) (at2 T LDT) (at4 V no) E' /\
        (Qcabs (E - (E_core + E')) <= inject ((binom na nalpha * binom na nbeta) * (binom na nalpha * binom na nbeta)) * ci_matel_tol st)%Qc.
  Proof.
    intros HP HD HR HL HE HK Hn Ha Hb Ht XR XE.
    destruct (last_point root syev gelss expm st nalpha nbeta no ni na nv E_core T LDT V A1 A2 HP HD HR HL HE HK Hn Ha Hb Ht XR XE) as (f0 & K). exists f0.
    intros W2 fuel E B1 B2 it conv Hf Hno H Hit. destruct (K fuel E B1 B2 it conv Hf H Hit) as (_ & U & T' & V' & TA & VA & e & R & (_ & _ & M2 & M4) & G & EE & _).
    destruct G as (dets & Y & WS & LY & _ & Y1 & Y2 & _). destruct HP as (Hsum & Hna & _ & _ & St & Sv).
    destruct (DriverProofs2.rotated_sym no U _ _ _ _ St Sv R) as (_ & Sv').
    assert (EX : exchange_symmetric no V') by (intros p q r s Hp Hq Hr Hs; apply Sv'; auto).
    assert (HW : na <= 64 / 2) by exact Hn.
    eexists. split.
    - apply (active_full 64 W2 no ni na U _ _ T' V' HW Hno ltac:(lia) R EX dets Y nalpha nbeta); auto. destruct WS as (ND & I). split; auto. intros d Hd. apply I, Hd.
    - rewrite <- (whole_length 64 na nalpha nbeta dets) by (auto; left; reflexivity).
      rewrite (expectation_ext _ _ (ci_matrix 64 (mk_ints na (active_T ni T' V') (active_V ni V')) (ci_matel_tol st) dets)) in Y2.
      2:{ intros i j _ _. unfold ci_matrix. cbn [norb T_pq V_pqrs]. rewrite (ham_same 64 na _ (active_T ni T' V') _ (active_V ni V') _ _ M2 M4). reflexivity. }
      rewrite EE, <- Y2. pose proof (ci_truncated 64 (mk_ints na (active_T ni T' V') (active_V ni V')) (ci_matel_tol st) dets Y Ht Y1) as X.
      match goal with |- (Qcabs ?x <= _)%Qc => match type of X with (Qcabs ?y <= _)%Qc => replace x with y by ring end end. exact X.
  Qed.
End CASSCF.
Lemma asci_rot_similar : forall syev W n na nb dbg st rs dg fuel TV s,
  all_eigenpairs syev -> spin_width W -> 0 < n -> n <= W / 2 ->
  (dbg = true -> na < n /\ nb < n) -> one_each dg ->
  (N.of_nat (ntdets_max st) < 2 ^ 64)%N -> 2 <= grow_factor st ->
  n * n <= List.length (fst TV) -> n * n * (n * n) <= List.length (snd TV) ->
  pair_symmetric n (at4 (snd TV) n) ->
  1 <= wfn_size s -> wfn_size s <= ntdets_max st -> valid_dets W n na nb (wfn_dets s) ->
  if_returns (asci_grow_rot syev fuel dbg W n st rs dg TV s) (fun r =>
    forall D, whole_space W n na nb D ->
      similar (length D) (ci_matrix W (mk_ints n (at2 (fst TV) n) (at4 (snd TV) n)) 0%Qc D)
        (ci_matrix W (mk_ints n (at2 (fst (snd r)) n) (at4 (snd (snd r)) n)) 0%Qc D)).
Proof.
  intros syev W n na nb dbg st rs dg fuel TV s H1 H2 H3 H4 H5 H6 H7 H8 H9 H10 H11 H12 H13 H14 r Hr D HD.
  destruct (c61_orthogonal syev W n na nb dbg st rs dg fuel TV s H1 H2 H3 H4 H5 H6 H7 H8 H9 H10 H11 H12 H13 H14 r Hr) as (U & R).
  exact (rot_similar W n H4 U _ _ _ _ R na nb D HD).
Qed.
Section DRIVER.
  Variables (root : Qc -> Qc) (syev : nat -> list Qc -> res (list Qc * list Qc)) (syev_ld : nat -> list Qc -> nat -> res (list Qc * list Qc))
            (gelss : nat -> list Qc -> list Qc -> res (list Qc)) (expm : nat -> list Qc -> res (list Qc))
            (rnd : Q -> res Qc) (show : Qc -> text) (dec : list N -> Qc).
  Variables (dbg : bool) (fs : text -> option text) (fsb : text -> option (list N)).
  Variables (name : text) (ne : nat) (es : list integral) (o : driver_options).
  Hypothesis HA : asked rnd fs name ne es o.
  Local Notation run fuel := (driver root syev syev_ld gelss expm rnd show dec fuel dbg fs fsb (Some name)).
  Local Notation no := (max_index es).
  Local Notation ni := (d_ninactive o).
  Local Notation na := (d_nactive o).
  Local Notation nv := (d_nvirtual o).
  Lemma wave_full W2 U T V dets Y E : no <= W2 / 2 -> rotated no U (file_T es) (file_V es) T V -> wave_function W2 no ni na ne T V dets Y E ->
    full_state W2 no (ni + ne) (ni + ne) (file_T es) (file_V es) E.
  Proof. intros H R (_ & _ & _ & _ & F). exact (frozen_full W2 no H U _ T _ V R ni (ni + na) (ni + ne) (ni + ne) E F). Qed.
  Lemma cas_full : d_job o = JobCI -> d_exp o = ExpCAS -> (d_mp2 o = true -> orthonormal_vectors syev_ld) -> ne <= na -> (0 <= k_ci_matel (d_mcscf o))%Qc -> exact_root root -> eigensolver syev ->
    exists f0, forall W2 fuel out, no <= W2 / 2 -> f0 <= fuel -> run fuel (Ok out) ->
    exists E, full_state W2 no (ni + ne) (ni + ne) (file_T es) (file_V es) E /\
      (Qcabs (out_E out - (first_core es + E)) <= inject ((binom na ne * binom na ne) * (binom na ne * binom na ne)) * k_ci_matel (d_mcscf o))%Qc.
  Proof.
    intros J X M L P R S. destruct (cas_energy root syev syev_ld gelss expm rnd show dec dbg fs fsb name ne es o HA J X M L P R S) as (f0 & K). exists f0.
    intros W2 fuel out Hno Hf H. destruct (K W2 fuel out Hno Hf H) as (U & T & V & dets & Y & E & RT & _ & _ & WF & B & _). exists E. split; [exact (wave_full W2 U T V dets Y E Hno RT WF)|exact B].
  Qed.
  Lemma asci_full n0 : d_job o = JobCI -> d_exp o = ExpASCI -> (d_mp2 o = true -> orthonormal_vectors syev_ld) -> ne <= na -> (0 <= k_ci_matel (d_mcscf o))%Qc -> exact_root root -> eigensolver syev ->
    (dbg = true -> ne < na) -> k_rot (d_asci o) = false -> starting_point rnd fs (d_asci o) na ne n0 -> (2 <= k_grow (d_asci o))%Z ->
    forall W2 fuel out, no <= W2 / 2 -> run fuel (Ok out) ->
    exists E, full_state W2 no (ni + ne) (ni + ne) (file_T es) (file_V es) E /\
      let m := Nat.max n0 (Z.to_nat (k_ntdets_max (d_asci o))) in
      (Qcabs (out_E out - (first_core es + E)) <= inject (m * m) * k_ci_matel (d_mcscf o))%Qc.
  Proof.
    intros J X M L P R S Db Rt St G W2 fuel out Hno H.
    destruct (asci_energy root syev syev_ld gelss expm rnd show dec dbg fs fsb name ne es o HA n0 J X M L P R S Db Rt St W2 fuel out Hno H) as (U & T & V & dets & Y & E & RT & _ & WF & B & Le & _).
    exists E. split; [exact (wave_full W2 U T V dets Y E Hno RT WF)|]. cbv zeta. rewrite <- (Le G). exact B.
  Qed.
  Lemma mcscf_full : d_job o = JobMCSCF -> d_rdm o = [] -> (d_mp2 o = true -> orthonormal_vectors syev_ld) -> 0 < ne -> ne <= na -> (0 <= k_ci_matel (d_mcscf o))%Qc -> exact_root root -> eigensolver syev ->
    least_squares gelss -> exponential expm -> (k_diis (d_mcscf o) = true -> (0 < k_diis_nkeep (d_mcscf o))%Z) -> rotations_or_tolerance root (k_orb_tol (d_mcscf o)) ni na nv ->
    exists f0, forall W2 fuel out, no <= W2 / 2 -> f0 <= fuel -> run fuel (Ok out) ->
    exists U T V dets E, rotated no U (file_T es) (file_V es) T V /\ whole_space 64 na ne ne dets /\
      full_state W2 no (ni + ne) (ni + ne) (file_T es) (file_V es) E /\
      (Qcabs (out_E out - (first_core es + E)) <= neglected ni na T V (k_ci_matel (d_mcscf o)) dets)%Qc.
  Proof.
    intros J X M L0 L P R S G E1 K1 Q. destruct (mcscf_energy root syev syev_ld gelss expm rnd show dec dbg fs fsb name ne es o HA J X M L0 L P R S G E1 K1 Q) as (f0 & K). exists f0.
    intros W2 fuel out Hno Hf H. destruct (K W2 fuel out Hno Hf H) as (U & T & V & dets & Y & E & RT & WS & WF & B & _). exists U, T, V, dets, E. split; [exact RT|]. split; [exact WS|]. split; [exact (wave_full W2 U T V dets Y E Hno RT WF)|exact B].
  Qed.
End DRIVER.

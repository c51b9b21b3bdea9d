(** C66: the driver's runs, in terms of what its input files ask for. *)
From Coq Require Import Ascii String QArith Qcanon ZArith NArith Bool.
From Verif Require Import Base Bits SD Spec Sums FockSpec Ham Nondet Mem Text IO IOSpec IOGlue FcidumpProofs FcidumpProofs2 Dense DenseSpec DiisSpec Diis Davidson DavSpec DavProofs2 Mcscf McscfSpec CasciSpec Asci AsciSpec AsciRot AsciRotSpec
  FreezeSpec Ini IniSpec IniGlue Driver DriverSpec DriverProofs DriverProofs2 DriverProofs3 DriverProofs4.
Local Open Scope nat_scope.

Lemma nbind_err {A B} (m : res A) (f : A -> nd B) e r : m = Err e -> nbind (det m) f r -> r = Err e.
Proof. intros -> [(e' & E & ->)|(a & E & _)]; [injection E as ->; reflexivity|discriminate E]. Qed.
Lemma stoul_throws t e : stoul t = Err e -> e = Throw.
Proof. unfold stoul. destruct (take_sign _) as (neg & s). destruct (take_while is_digit s); [congruence|]. cbv zeta. destruct (_ <? _)%Z; congruence. Qed.

Section GLUE.
  Variables (root : Qc -> Qc) (syev : nat -> list Qc -> res (list Qc * list Qc)) (syev_ld : nat -> list Qc -> nat -> res (list Qc * list Qc))
            (gelss : nat -> list Qc -> list Qc -> res (list Qc)) (expm : nat -> list Qc -> res (list Qc))
            (rnd : Q -> res Qc) (show : Qc -> text) (dec : list N -> Qc).
  Variables (dbg : bool) (fs : text -> option text) (fsb : text -> option (list N)).
  Local Notation run fuel := (driver root syev syev_ld gelss expm rnd show dec fuel dbg fs fsb).

  Lemma no_argument fuel r : run fuel None r -> r = Err Throw.
  Proof. intros R. eapply nbind_err; [|exact R]. reflexivity. Qed.
  Lemma no_input fuel name r : fs name = None -> run fuel (Some name) r -> r = Err Throw.
  Proof.
    intros H R. unfold driver in R. destruct R as [(e & E & _)|(n & E & R)]; [discriminate E|]. injection E as <-. rewrite H in R. eapply nbind_err; [|exact R]. reflexivity.
  Qed.
  Lemma past_input fuel name c r : input_file fs name c -> run fuel (Some name) r ->
    exists d, (forall s k, query_name s -> query_name k ->
       get_string d (query s k) = match c_value c s k with Some v => Ok v | None => Err Throw end /\
       contains_data d (query s k) = Ok (match c_value c s k with Some _ => true | None => false end)) /\
    ((exists e, driver_required d = Err e /\ r = Err Throw) \/
     exists fname nel, asks_for c fname nel /\
       ((exists e, driver_integrals rnd (stream fs fname) = Err e /\ r = Err e) \/
        exists norb E T V, driver_integrals rnd (stream fs fname) = Ok (norb, E, T, V) /\
          ((exists e, driver_setup rnd d norb = Err e /\ r = Err e) \/ exists o, driver_setup rnd d norb = Ok o))).
  Proof.
    intros (f & is & F1 & F2 & F3 & ->) R. destruct (ini_reads f is F2 F3) as (d & P1 & P2 & _). exists d. split; [exact P2|].
    unfold driver in R. destruct R as [(e & E & _)|(n & E & R)]; [discriminate E|]. injection E as <-. rewrite F1, P1 in R.
    destruct R as [(e & E & _)|(d' & E & R)]; [discriminate E|]. injection E as ->.
    destruct R as [(e & E & ->)|((fname & nel) & E & R)].
    - left. exists e. split; auto. f_equal. unfold driver_required in E.
      destruct (P2 (lit "CI") (lit "FCIDUMP")) as (A & _); [apply query_name_dec; reflexivity..|]. destruct (P2 (lit "CI") (lit "NALPHA")) as (B & _); [apply query_name_dec; reflexivity..|].
      destruct (P2 (lit "CI") (lit "NBETA")) as (C & _); [apply query_name_dec; reflexivity..|].
      change (lit "CI.FCIDUMP") with (query (lit "CI") (lit "FCIDUMP")) in E. change (lit "CI.NALPHA") with (query (lit "CI") (lit "NALPHA")) in E. change (lit "CI.NBETA") with (query (lit "CI") (lit "NBETA")) in E.
      unfold get_size in E. rewrite A, B, C in E. destruct (c_value _ _ (lit "FCIDUMP")); [|cbn in E; congruence]. cbn [bind] in E. destruct (c_value _ _ (lit "NALPHA")) as [t1|]; [|cbn in E; congruence]. cbn [bind] in E.
      destruct (stoul t1) as [na|e1] eqn:E1; [|cbn [bind] in E; apply stoul_throws in E1; congruence]. cbn [bind] in E. destruct (c_value _ _ (lit "NBETA")) as [t2|]; [|cbn in E; congruence]. cbn [bind] in E.
      destruct (stoul t2) as [nb|e2] eqn:E2; [|cbn [bind] in E; apply stoul_throws in E2; congruence]. cbn [bind] in E. destruct (negb (na =? nb)%Z); congruence.
    - right. exists fname, nel. split; [exact (proj1 (required_ok d (contents is) P2 fname nel) (eq_sym E))|].
      destruct R as [(e & E' & ->)|((((norb & Ec) & T) & V) & E' & R)]; [left; exists e; split; auto|]. right. exists norb, Ec, T, V. split; auto.
      destruct R as [(e & E2 & ->)|(o & E2 & _)]; [left; exists e; auto|right; exists o; auto].
  Qed.
  Lemma bad_input fuel name c r : input_file fs name c -> (forall fname nel, ~ asks_for c fname nel) -> run fuel (Some name) r -> r = Err Throw.
  Proof. intros F N R. destruct (past_input fuel name c r F R) as (d & _ & [(e & _ & E)|(fname & nel & A & _)]); [exact E|destruct (N _ _ A)]. Qed.
  Lemma no_integrals fuel name c fname nel r : input_file fs name c -> asks_for c fname nel -> fs fname = None -> run fuel (Some name) (Ok r) -> False.
  Proof.
    intros F A N R. destruct (past_input fuel name c (Ok r) F R) as (d & P2 & [(e & _ & E)|(fname' & nel' & A' & K)]); [discriminate E|].
    assert (fname' = fname). { destruct A as ((t & A & ->) & _). destruct A' as ((t' & A' & ->) & _). congruence. } subst fname'.
    unfold stream in K. rewrite N in K. destruct K as [(e & _ & E)|(norb & Ec & T & V & K & [(e & _ & E)|(o & E)])]; try discriminate E.
    assert (norb = 0) by (vm_compute in K; congruence). subst norb.
    apply (setup_ok rnd d c P2) in E; [|reflexivity]. destruct E as (_ & _ & _ & _ & _ & L & _). lia.
  Qed.
  Lemma settings_ok fuel name c out : input_file fs name c -> run fuel (Some name) (Ok out) ->
    exists fname nel, asks_for c fname (Z.of_nat nel) /\ fs fname <> None /\
      forall es, fcidump_file rnd fs fname es -> exists o, asked rnd fs name nel es o.
  Proof.
    intros F R. destruct (past_input fuel name c (Ok out) F R) as (d & P2 & [(e & _ & E)|(fname & nel & A & K)]); [discriminate E|].
    assert (N : (0 <= nel)%Z). { destruct A as (_ & (t & _ & A) & _). apply stoul_range in A. lia. }
    exists fname, (Z.to_nat nel). rewrite Z2Nat.id by lia. split; auto. split. { intros N'. exact (no_integrals fuel name c fname nel out F A N' R). }
    intros es G. destruct K as [(e & _ & E)|(norb & Ec & T & V & K & [(e & _ & E)|(o & E)])]; try discriminate E.
    pose proof G as (f & G1 & G2 & G3). destruct (integrals_ok rnd f es G2 G3) as (T' & V' & I & _). unfold stream in K. rewrite G1, I in K. assert (norb = max_index es) by congruence. subst norb.
    apply (setup_ok rnd d c P2) in E; [|apply (max_index_bound _ _ _ G2)]. exists o, c, fname. rewrite Z2Nat.id by lia. auto.
  Qed.

  Variables (name : text) (ne : nat) (es : list integral) (o : driver_options).
  Hypothesis HA : asked rnd fs name ne es o.
  Local Notation no := (max_index es).
  Local Notation ni := (d_ninactive o).
  Local Notation na := (d_nactive o).
  Local Notation nv := (d_nvirtual o).
  Lemma cas_energy : d_job o = JobCI -> d_exp o = ExpCAS -> (d_mp2 o = true -> orthonormal_vectors syev_ld) -> ne <= na -> (0 <= k_ci_matel (d_mcscf o))%Qc -> exact_root root -> eigensolver syev ->
    exists f0, forall W2 fuel out, no <= W2 / 2 -> f0 <= fuel -> run fuel (Some name) (Ok out) ->
    exists U gT gV dets Y E, rotated no U (file_T es) (file_V es) gT gV /\ (d_mp2 o = false -> gT = file_T es /\ gV = file_V es) /\
      whole_space 64 na ne ne dets /\ wave_function W2 no ni na ne gT gV dets Y E /\
      (Qcabs (out_E out - (first_core es + E)) <= inject ((binom na ne * binom na ne) * (binom na ne * binom na ne)) * k_ci_matel (d_mcscf o))%Qc /\
      (if k_dets (d_print o) then printed (k_dets_thr (d_print o)) dets Y (out_dets out) else out_dets out = []) /\ out_wfn out = None.
  Proof.
    destruct HA as (c & fname & F & A & G & C). intros J X M L T R S.
    destruct (cas_run root syev syev_ld gelss expm rnd show dec dbg fs fsb name fname c (Z.of_nat ne) es o F A G C J M ltac:(rewrite Nat2Z.id; exact L) T R S X) as (f0 & K).
    rewrite Nat2Z.id in K. exists f0. exact K.
  Qed.
  Lemma asci_energy n0 : d_job o = JobCI -> d_exp o = ExpASCI -> (d_mp2 o = true -> orthonormal_vectors syev_ld) -> ne <= na -> (0 <= k_ci_matel (d_mcscf o))%Qc -> exact_root root -> eigensolver syev ->
    (dbg = true -> ne < na) -> k_rot (d_asci o) = false -> starting_point rnd fs (d_asci o) na ne n0 ->
    forall W2 fuel out, no <= W2 / 2 -> run fuel (Some name) (Ok out) ->
    exists U gT gV dets Y E, rotated no U (file_T es) (file_V es) gT gV /\ (d_mp2 o = false -> gT = file_T es /\ gV = file_V es) /\
      wave_function W2 no ni na ne gT gV dets Y E /\
      (Qcabs (out_E out - (first_core es + E)) <= inject (length dets * length dets) * k_ci_matel (d_mcscf o))%Qc /\
      ((2 <= k_grow (d_asci o))%Z -> length dets = Nat.max n0 (Z.to_nat (k_ntdets_max (d_asci o)))) /\
      out_dets out = [] /\ (k_wfn_out (d_asci o) = [] -> out_wfn out = None) /\
      (k_wfn_out (d_asci o) <> [] -> (forall v, In v Y -> prints show rnd v) -> (N.of_nat (length dets) < 2 ^ 31)%N ->
         exists f, out_wfn out = Some f /\ read_wavefunction rnd 64 f = Ok (dets, Y)).
  Proof.
    destruct HA as (c & fname & F & A & G & C). intros J X M L T R S D O P.
    pose proof (asci_run root syev syev_ld gelss expm rnd show dec dbg fs fsb name fname c (Z.of_nat ne) es o F A G C J M ltac:(rewrite Nat2Z.id; exact L) T R S n0 X) as K.
    rewrite Nat2Z.id in K. exact (K D O P).
  Qed.
  Lemma mcscf_energy : d_job o = JobMCSCF -> d_rdm o = [] -> (d_mp2 o = true -> orthonormal_vectors syev_ld) -> 0 < ne -> ne <= na -> (0 <= k_ci_matel (d_mcscf o))%Qc -> exact_root root -> eigensolver syev ->
    least_squares gelss -> exponential expm -> (k_diis (d_mcscf o) = true -> (0 < k_diis_nkeep (d_mcscf o))%Z) -> rotations_or_tolerance root (k_orb_tol (d_mcscf o)) ni na nv ->
    exists f0, forall W2 fuel out, no <= W2 / 2 -> f0 <= fuel -> run fuel (Some name) (Ok out) ->
    exists U gT gV dets Y E, rotated no U (file_T es) (file_V es) gT gV /\ whole_space 64 na ne ne dets /\ wave_function W2 no ni na ne gT gV dets Y E /\
      (Qcabs (out_E out - (first_core es + E)) <= neglected ni na gT gV (k_ci_matel (d_mcscf o)) dets)%Qc /\ out_dets out = [] /\ out_wfn out = None.
  Proof.
    destruct HA as (c & fname & F & A & G & C). intros J D M P L T R S LS EX K RT.
    pose proof (mcscf_run root syev syev_ld gelss expm rnd show dec dbg fs fsb name fname c (Z.of_nat ne) es o F A G C J M) as Q.
    rewrite Nat2Z.id in Q. apply Q; auto.
  Qed.
  Lemma fcidump_written : d_mp2 o = false -> forall fuel out, run fuel (Some name) (Ok out) ->
    (d_fci_out o = [] -> out_fcidump out = None) /\
    (d_fci_out o <> [] -> (forall p q, p < no -> q < no -> prints show rnd (file_T es p q)) -> (forall p q r s, p < no -> q < no -> r < no -> s < no -> prints show rnd (file_V es p q r s)) -> prints show rnd (first_core es) ->
       exists f es', out_fcidump out = Some f /\ data_lines rnd (lines f) es' /\ (forall e, In e es' -> proper e) /\ max_index es' = no /\ first_core es' = first_core es /\
         same2 no (file_T es') (file_T es) /\ same4 no (file_V es') (file_V es)).
  Proof.
    destruct HA as (c & fname & F & A & G & C). intros M fuel out R.
    destruct (run_parts root syev syev_ld gelss expm rnd show dec dbg fs fsb name fname c (Z.of_nat ne) es o F A G C) as (T & V & LT & LV & ST & SV & P).
    destruct (P fuel out R) as (T' & V' & Fi & TA & VA & Ei & w & OB & _ & _ & _ & _ & W0 & W1). rewrite M in OB. injection OB as <- <-. split; [exact W0|].
    intros O PT PV PE. destruct (W1 O) as (f & WF & OF). destruct (file_sym es no) as (St & Sv).
    assert (BN : (N.of_nat no < 2 ^ 31)%N). { destruct G as (ff & _ & G2 & _). pose proof (max_index_bound _ _ _ G2). lia. }
    assert (KT : forall i j, i < no -> j < no -> i + j * no < length T) by (intros i j Hi Hj; rewrite LT; nia).
    assert (PO : forall i j k l, i + j * no + k * no * no + l * no * no * no = i + j * no + (k + l * no) * (no * no)) by (intros; ring).
    assert (KV : forall i j k l, i < no -> j < no -> k < no -> l < no -> i + j * no + k * no * no + l * no * no * no < length V).
    { intros i j k l Hi Hj Hk Hl. rewrite PO, LV. assert (i + j * no < no * no) by nia. assert (k + l * no < no * no) by nia. nia. }
    assert (TT : forall i j, i < no -> j < no -> nth (i + j * no) T 0%Qc = file_T es i j) by (intros i j Hi Hj; apply (ST i j Hi Hj)).
    assert (VV : forall i j k l, i < no -> j < no -> k < no -> l < no -> nth (i + j * no + k * no * no + l * no * no * no) V 0%Qc = file_V es i j k l).
    { intros i j k l Hi Hj Hk Hl. rewrite <- (SV i j k l Hi Hj Hk Hl). unfold at4. reflexivity. }
    destruct (written_data show rnd no T no V no (first_core es)) as (f' & es' & W2 & D2 & Q2 & M2 & C2); auto.
    { intros i j Hi Hj. rewrite TT by auto. auto. } { intros i j k l Hi Hj Hk Hl. rewrite VV by auto. auto. }
    rewrite W2 in WF. injection WF as ->. exists f, es'. split; auto. split; auto. split; auto. split; auto. split; auto.
    destruct (c24_round_trip show rnd no T no V no (first_core es)) as (f'' & W3 & _ & _ & R1 & R2); auto.
    { intros i j Hi Hj. rewrite TT by auto. auto. } { intros i j k l Hi Hj Hk Hl. rewrite VV by auto. auto. }
    { intros i j Hi Hj. rewrite !TT by auto. apply St; auto. }
    { intros i j k l Hi Hj Hk Hl. rewrite !VV by auto. destruct (Sv i j k l Hi Hj Hk Hl) as (S1 & S2). split; auto. split; auto. rewrite S1. rewrite (proj2 (Sv k l i j Hk Hl Hi Hj)). apply Sv; auto. }
    rewrite W2 in W3. injection W3 as <-. split.
    - destruct (R1 (repeat 0%Qc (no * no))) as (T1 & X1 & _ & N1); [apply repeat_length|].
      destruct (c24_one rnd f es' D2 Q2 (repeat 0%Qc (no * no))) as (T2 & X2 & _ & N2); [rewrite M2; apply repeat_length|]. rewrite M2 in X2, N2. rewrite X1 in X2. injection X2 as <-.
      intros p q Hp Hq. rewrite <- TT by auto. rewrite <- N1 by auto. rewrite N2 by auto. rewrite nth_repeat. reflexivity.
    - destruct (R2 (repeat 0%Qc (no * (no * (no * no))))) as (T1 & X1 & _ & N1); [apply repeat_length|].
      destruct (c24_two rnd f es' D2 (repeat 0%Qc (no * (no * (no * no))))) as (T2 & X2 & _ & N2); [rewrite M2; apply repeat_length|]. rewrite M2 in X2, N2. rewrite X1 in X2. injection X2 as <-.
      intros p q r s Hp Hq Hr Hs. rewrite <- VV by auto. rewrite <- N1 by auto. rewrite N2 by auto. rewrite nth_repeat. reflexivity.
  Qed.
End GLUE.

Lemma missing_input root syev syev_ld gelss expm rnd show dec dbg fs fsb fuel :
  (forall r, driver root syev syev_ld gelss expm rnd show dec fuel dbg fs fsb None r -> r = Err Throw) /\
  (forall name r, fs name = None -> driver root syev syev_ld gelss expm rnd show dec fuel dbg fs fsb (Some name) r -> r = Err Throw) /\
  (forall name c r, input_file fs name c -> (forall fname nel, ~ asks_for c fname nel) ->
     driver root syev syev_ld gelss expm rnd show dec fuel dbg fs fsb (Some name) r -> r = Err Throw) /\
  (forall name c fname nel out, input_file fs name c -> asks_for c fname nel -> fs fname = None ->
     ~ driver root syev syev_ld gelss expm rnd show dec fuel dbg fs fsb (Some name) (Ok out)).
Proof.
  split; [exact (no_argument root syev syev_ld gelss expm rnd show dec dbg fs fsb fuel)|].
  split; [exact (no_input root syev syev_ld gelss expm rnd show dec dbg fs fsb fuel)|]. split; [exact (bad_input root syev syev_ld gelss expm rnd show dec dbg fs fsb fuel)|].
  exact (no_integrals root syev syev_ld gelss expm rnd show dec dbg fs fsb fuel).
Qed.

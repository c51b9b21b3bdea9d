(** Freezing composed with the solvers: the statements of Props_Freeze.v. *)
From Coq Require Import QArith Qcanon.
From Verif Require Import Base SD Spec Sums FockSpec FockProofs SlaterCondon Ham DenseSpec Dense DenseProofs FockMatProofs DiisSpec Nondet Davidson DavSpec McscfSpec CasciSpec
  SDProofs SDProofs2 HamProofs HamProofs2 HamProofs3 PropsHamGlue SDProofs3 AsciSort Mcscf McscfProofs McscfProofs2 McscfProofs6 McscfGlue DavProofs DavProofs5 McscfGlue2 McscfGlue3
  FreezeSpec FreezeProofs FreezeProofs2 FreezeProofs3 FreezeGlue FreezeProofs4.
Local Open Scope nat_scope.

Section S.
  Variables (W W2 no ni na : nat) (T : nat -> nat -> Qc) (V : nat -> nat -> nat -> nat -> Qc).
  Hypothesis Hno : no <= W2 / 2.
  Hypothesis Hna : na <= W / 2.
  Hypothesis Hi : ni + na <= no.
  Hypothesis Sy : exchange_symmetric no V.

  Lemma frozen_state_of dets Y nalpha nbeta : NoDup dets -> length Y = length dets ->
    (forall d, In d dets -> in_space W na d /\ size_is (alpha W d) nalpha /\ size_is (beta W d) nbeta) ->
    dot (length dets) Y Y = 1%Qc ->
    frozen_state W2 no ni (ni + na) (ni + nalpha) (ni + nbeta) T V
      (core_energy ni T V + expectation (length dets) (ci_matrix W (mk_ints na (active_T ni T V) (active_V ni V)) 0%Qc dets) Y)%Qc.
  Proof.
    intros ND LY A D1. assert (A' : forall d, In d dets -> in_space W na d) by (intros d Hd; apply A; auto). split.
    - exists (map (freeze W W2 ni) dets), Y. rewrite map_length. split; [apply (NoDup_freeze W W2 no ni na); auto|]. split; auto. split; [|split; auto].
      + intros x Hx. apply in_map_iff in Hx. destruct Hx as (d & <- & Hd). destruct (A d Hd) as (P1 & P2 & P3).
        destruct (freeze_electrons W W2 ni na no d nalpha nbeta) as (X1 & X2 & X3); auto. split; auto. split; auto. split; auto.
        intros s p. rewrite (str_freeze W W2 ni na) by (auto; lia). rewrite tb_freeze_string. split; intros Hp.
        * apply Nat.ltb_lt in Hp. rewrite Hp. reflexivity.
        * destruct (Nat.ltb_spec p ni); [lia|]. cbn [orb]. destruct P1 as (Q1 & Q2). destruct s; cbn [str]; [apply Q2|apply Q1]; lia.
      + rewrite (expectation_freeze W W2 no ni na) by auto. rewrite D1. ring.
    - intros D b HD HB. pose proof (variational_freeze W W2 no ni na T V Hno Hna Hi Sy D dets nalpha nbeta b HD ND A HB Y) as S1. rewrite D1, Qcmult_1_r in S1.
      apply Qcle_minus_iff in S1. apply Qcle_minus_iff.
      match goal with |- (0 <= ?x)%Qc => match type of S1 with (0 <= ?y)%Qc => replace x with y by ring end end. exact S1.
  Qed.
End S.

Lemma expectation_ext n A B Y : (forall i j, i < n -> j < n -> A i j = B i j) -> expectation n A Y = expectation n B Y.
Proof.
  intros H. unfold expectation, matvec. unfold Sigma at 1 3. apply sum_ext. intros i Hi. apply in_seq in Hi. f_equal. unfold Sigma. apply sum_ext. intros j Hj. apply in_seq in Hj.
  rewrite H by lia. reflexivity.
Qed.
Lemma spectrum_ext n A B b : (forall i j, i < n -> j < n -> A i j = B i j) -> spectrum_above n A b -> spectrum_above n B b.
Proof. intros H S x. rewrite <- (expectation_ext n A B x H). apply S. Qed.
Lemma sum_const_len {A} (l : list A) x : sum l (fun _ => x) = (inject (length l) * x)%Qc.
Proof. induction l as [|a l IH]; cbn [sum length]; [change (inject 0) with 0%Qc; ring|]. rewrite inject_S, IH. ring. Qed.
Lemma inject_times a b : inject (a * b) = (inject a * inject b)%Qc.
Proof. induction a as [|a IH]; cbn [Nat.mul]; [change (inject 0) with 0%Qc; ring|]. rewrite inject_plus, inject_S, IH. ring. Qed.
Lemma whole_length W n na nb dets : spin_width W -> n <= W / 2 -> na <= n -> nb <= n -> whole_space W n na nb dets -> length dets = binom n na * binom n nb.
Proof.
  intros HW Hn Ha Hb (ND' & SP). assert (EW : Nat.even W = true) by (destruct HW as [->| ->]; reflexivity).
  destruct (hilbert_spec W n na nb EW Hn Ha Hb) as (ds & _ & ND & Ld & I).
  rewrite <- Ld. apply Nat.le_antisymm; apply NoDup_incl_length; auto; intros b Hb'; [apply I|apply SP]; [apply SP|apply I]; exact Hb'.
Qed.
Lemma ci_truncated W h thr dets Y : (0 <= thr)%Qc -> dot (length dets) Y Y = 1%Qc ->
  (Qcabs (expectation (length dets) (ci_matrix W h thr dets) Y - expectation (length dets) (ci_matrix W h 0%Qc dets) Y) <= inject (length dets * length dets) * thr)%Qc.
Proof.
  intros Ht D. eapply Qcle_trans.
  - unfold expectation, Sigma. apply (abs_sum _ _ _ (fun _ => sum (seq 0 (length dets)) (fun _ => thr))). intros i Hi. apply in_seq in Hi.
    unfold matvec, Sigma. rewrite <- !sum_scale. apply abs_sum. intros j Hj. apply in_seq in Hj. rewrite ci_zero. unfold ci_matrix. cbv zeta.
    set (x := ham _ _ _ _ _ _). pose proof (unit_product Y _ i j D ltac:(lia) ltac:(lia)) as U. set (a := nth i Y 0%Qc) in *. set (b := nth j Y 0%Qc) in *.
    destruct (qlt thr (Qcabs x)) eqn:E2.
    + match goal with |- (Qcabs ?y <= _)%Qc => replace y with 0%Qc by ring end. exact Ht.
    + match goal with |- (Qcabs ?y <= _)%Qc => replace y with (- (1) * (a * b * x))%Qc by ring end. rewrite !qabs_mult. rewrite <- qabs_mult. change (Qcabs (- (1))%Qc) with 1%Qc. rewrite Qcmult_1_l.
      apply qlt_false in E2. eapply Qcle_trans; [apply Qcmult_le_compat_r; [exact U|apply qabs_nonneg]|]. rewrite Qcmult_1_l. exact E2.
  - rewrite !sum_const_len, seq_length, inject_times. match goal with |- (?x <= ?y)%Qc => replace x with y by ring end. apply Qcle_refl.
Qed.
Lemma ci_same W n T T' V V' dets i j : same2 n T T' -> same4 n V V' -> ci_matrix W (mk_ints n T V) 0%Qc dets i j = ci_matrix W (mk_ints n T' V') 0%Qc dets i j.
Proof. intros HT HV. rewrite !ci_zero. cbn [norb T_pq V_pqrs]. apply ham_ext; auto. Qed.

Section Code.
  Variables (W W2 no ni na : nat) (T V Fi TA VA : list Qc) (LDT LDV LDF : nat).
  Hypothesis HW : spin_width W.
  Hypothesis Hna : na <= W / 2.
  Hypothesis Hno : no <= W2 / 2.
  Hypothesis Hi : ni + na <= no.
  Hypothesis FT : fits2 T LDT no no.
  Hypothesis FV : fits4 V LDV no.
  Hypothesis FF : fits2 Fi LDF no no.
  Hypothesis FA : na * na <= length TA.
  Hypothesis FVA : na * na * (na * na) <= length VA.
  Hypothesis St : symmetric2 no (at2 T LDT).
  Hypothesis Sv : eightfold no (at4 V LDV).
  Variables (Fi' TA' VA' : list Qc) (Ei : Qc).
  Hypothesis R1 : active_hamiltonian no na ni T LDT V LDV Fi LDF TA na VA na = Ok (Fi', TA', VA').
  Hypothesis R2 : inactive_energy ni T LDT Fi' LDF = Ok Ei.

  Lemma exch : exchange_symmetric no (at4 V LDV).
  Proof. intros p q r s Hp Hq Hr Hs. apply Sv; auto. Qed.
  Lemma code_facts : length TA' = length TA /\ length VA' = length VA /\ same2 na (at2 TA' na) (active_T ni (at2 T LDT) (at4 V LDV)) /\
    same4 na (at4 VA' na) (active_V ni (at4 V LDV)) /\ Ei = core_energy ni (at2 T LDT) (at4 V LDV).
  Proof.
    destruct (active_hamiltonian_ok no na ni T LDT V LDV Fi LDF TA na VA na Hi FT FV FF) as (F1' & F2' & F3' & E & F1 & F2 & F3).
    { split; auto. intros i j H1 H2. nia. }
    { split; auto. intros i j k l H1 H2 H3 H4. assert (A1 : i + j * na < na * na) by nia. assert (A2 : k + l * na < na * na) by nia. nia. }
    rewrite R1 in E. injection E as <- <- <-. split; [apply F2|]. split; [apply F3|]. split; [intros p q Hp Hq; apply F2; auto|].
    split; [intros p q r s Hp Hq Hr Hs; apply F3; auto|].
    rewrite inactive_energy_ok in R2. 2:{ apply (fits2_le _ _ no no); auto; lia. } 2:{ apply (fits2_le _ _ no no); auto; try lia. eapply fits2_filled; eauto. }
    injection R2 as <-. unfold core_energy. unfold Sigma. rewrite <- sum_plus. apply sum_ext. intros i Hh. apply in_seq in Hh.
    destruct F1 as (_ & F1 & _). rewrite F1 by lia. unfold inactive_fock, Sigma. unfold two. ring.
  Qed.
  Lemma code_sym : symmetric2 na (at2 TA' na) /\ eightfold na (at4 VA' na).
  Proof.
    destruct code_facts as (_ & _ & M2 & M4 & _). split.
    - intros p q Hp Hq. rewrite !M2 by auto. apply (active_T_sym no ni na); auto.
    - intros p q r s Hp Hq Hr Hs. rewrite !M4 by auto. apply (active_V_eight no ni na); auto.
  Qed.
  Lemma frozen_near thr sds nalpha nbeta e Y : NoDup sds -> length Y = length sds -> (0 <= thr)%Qc ->
    (forall b, In b sds -> in_space W na b /\ size_is (alpha W b) nalpha /\ size_is (beta W b) nbeta) ->
    dot (length sds) Y Y = 1%Qc -> expectation (length sds) (ci_matrix W (mk_ints na (at2 TA' na) (at4 VA' na)) thr sds) Y = e ->
    exists E, frozen_state W2 no ni (ni + na) (ni + nalpha) (ni + nbeta) (at2 T LDT) (at4 V LDV) E /\ (Qcabs (Ei + e - E) <= inject (length sds * length sds) * thr)%Qc.
  Proof.
    intros ND LY Ht A D1 EE. destruct code_facts as (_ & _ & M2 & M4 & Q). 
    eexists. split; [apply (frozen_state_of W W2 no ni na (at2 T LDT) (at4 V LDV) Hno Hna Hi exch sds Y nalpha nbeta); auto|].
    pose proof (ci_truncated W (mk_ints na (at2 TA' na) (at4 VA' na)) thr sds Y Ht D1) as K. rewrite EE in K.
    rewrite (expectation_ext _ (ci_matrix W (mk_ints na (at2 TA' na) (at4 VA' na)) 0%Qc sds) (ci_matrix W (mk_ints na (active_T ni (at2 T LDT) (at4 V LDV)) (active_V ni (at4 V LDV))) 0%Qc sds)) in K
      by (intros; apply ci_same; auto).
    rewrite Q. match goal with |- (Qcabs ?x <= _)%Qc => match type of K with (Qcabs ?y <= _)%Qc => replace x with y by ring end end. exact K.
  Qed.
  Lemma frozen_selected root syev thr sds nalpha nbeta max_m tol C e Y : NoDup sds -> (0 <= thr)%Qc ->
    (forall b, In b sds -> in_space W na b /\ size_is (alpha W b) nalpha /\ size_is (beta W b) nbeta) ->
    exact_root root -> eigensolver syev -> (forall j, nth j C 0%Qc = 0%Qc) ->
    selected_ci_diag root syev W (mk_ints na (at2 TA' na) (at4 VA' na)) sds thr max_m tol C (Ok (e, Y)) ->
    exists E, frozen_state W2 no ni (ni + na) (ni + nalpha) (ni + nbeta) (at2 T LDT) (at4 V LDV) E /\ (Qcabs (Ei + e - E) <= inject (length sds * length sds) * thr)%Qc.
  Proof.
    intros ND Ht A HR HS HC R. destruct code_sym as (S2 & S4).
    pose proof (ci_diag root syev W (mk_ints na (at2 TA' na) (at4 VA' na)) thr sds nalpha nbeta max_m tol C e Y HW Hna) as L. cbn [norb T_pq V_pqrs] in L.
    destruct L as (L & _); auto. { intros p q r s Hp Hq Hr Hs. apply S4; auto. }
    pose proof (ci_diag_variational root syev W (mk_ints na (at2 TA' na) (at4 VA' na)) thr sds nalpha nbeta max_m tol C e Y HW Hna) as K. cbn [norb T_pq V_pqrs] in K.
    destruct K as (K1 & K2 & _); auto.
    { intros p q r s Hp Hq Hr Hs. destruct (S4 p q r s) as (E1 & E2); auto. split; auto. rewrite E2. destruct (S4 q p r s) as (E3 & _); auto.
      rewrite E3. destruct (S4 r s q p) as (_ & E4); auto. rewrite E4. apply S4; auto. }
    apply (frozen_near thr sds nalpha nbeta e Y); auto.
  Qed.
  Lemma frozen_casci root syev st nalpha nbeta : nalpha <= na -> nbeta <= na -> (0 <= ci_matel_tol st)%Qc -> exact_root root -> eigensolver syev ->
    exists f0, forall fuel Z1 Z2 e B1 B2 Y, f0 <= fuel -> zeros (na * na) Z1 -> zeros (na * na * (na * na)) Z2 ->
      compute_casci_rdms root syev fuel W st na nalpha nbeta TA' VA' Z1 Z2 [] (Ok (e, B1, B2, Y)) ->
      exists E, frozen_state W2 no ni (ni + na) (ni + nalpha) (ni + nbeta) (at2 T LDT) (at4 V LDV) E /\
        (Qcabs (Ei + e - E) <= inject ((binom na nalpha * binom na nbeta) * (binom na nalpha * binom na nbeta)) * ci_matel_tol st)%Qc.
  Proof.
    intros Ha Hb Ht HR HS.
    destruct (casci_ground root syev W st na nalpha nbeta HW ltac:(lia) Ha Hb Ht HR HS) as (f0 & H).
    exists f0. intros fuel Z1 Z2 e B1 B2 Y Hf ZZ1 ZZ2 R. destruct code_facts as (L1 & L2 & M2 & M4 & EE). destruct code_sym as (S2 & S4).
    destruct (H fuel TA' VA' Z1 Z2 e B1 B2 Y) as (_ & _ & G & _); auto; try lia.
    destruct G as (dets & Y' & (ND & WS) & LY & _ & K1 & K2 & _).
    assert (LD : length dets = binom na nalpha * binom na nbeta). { apply (whole_length W na nalpha nbeta); auto; try lia. split; auto. }
    rewrite <- LD. apply (frozen_near (ci_matel_tol st) dets nalpha nbeta e Y'); auto. intros d Hd. apply WS; auto.
  Qed.
End Code.

(** The statements of Props_Freeze.v. *)
From Coq Require Import QArith Qcanon.
From Verif Require Import Base Bits BitsProofs SD Spec SDProofs SDProofs2 SDProofs4 SDProofs5 Sums
  FockSpec FockProofs SlaterCondon Ham HamProofs HamProofs2 HamProofs3 DenseSpec Dense DenseProofs FockMatProofs DenseGlue DenseEx DavSpec McscfSpec PropsHamGlue
  FreezeSpec FreezeProofs FreezeProofs2 FreezeProofs3.
Local Open Scope nat_scope.

(** ** electrons *)
Lemma size_freeze_string ni s n : size_is s n -> size_is (freeze_string ni s) (ni + n).
Proof.
  intros (l & ND & I & L). exists (seq 0 ni ++ map (fun p => p + ni) l). split; [|split].
  - apply NoDup_app.
    + apply seq_NoDup.
    + apply NoDup_map_inj; auto. intros a b _ _ E. lia.
    + intros x A B. apply in_seq in A. apply in_map_iff in B. destruct B as (y & <- & _). lia.
  - intros i. rewrite tb_freeze_string, in_app_iff, in_seq, in_map_iff. destruct (Nat.ltb_spec i ni); cbn [orb].
    + split; auto. intros _. left. lia.
    + rewrite <- I. split.
      * intros [A|(y & <- & A)]; [lia|]. replace (y + ni - ni) with y by lia. auto.
      * intros A. right. exists (i - ni). split; [lia|auto].
  - rewrite app_length, seq_length, map_length, L. reflexivity.
Qed.
Lemma freeze_electrons W W2 ni na no b nalpha nbeta : ni + na <= no -> no <= W2 / 2 -> in_space W na b -> size_is (alpha W b) nalpha -> size_is (beta W b) nbeta ->
  in_space W2 no (freeze W W2 ni b) /\ size_is (alpha W2 (freeze W W2 ni b)) (ni + nalpha) /\ size_is (beta W2 (freeze W W2 ni b)) (ni + nbeta).
Proof.
  intros Hi Hno S A B. split; [apply (freeze_in_space W W2 ni na); auto; lia|].
  pose proof (str_freeze W W2 ni na ltac:(lia) b false S) as E1. pose proof (str_freeze W W2 ni na ltac:(lia) b true S) as E2. cbn [str] in E1, E2.
  rewrite E1, E2. split; apply size_freeze_string; auto.
Qed.

(** ** the code's matrix elements *)
Lemma ham_ext W n T T' V V' b k : same2 n T T' -> same4 n V V' -> ham W n T V b k = ham W n T' V' b k.
Proof.
  intros HT HV. unfold ham, one_body, two_body. f_equal; [|f_equal].
  - apply sum_ext. intros s _. apply sum_ext. intros p Hp. apply sum_ext. intros q Hq. apply in_seq in Hp, Hq. rewrite HT by lia. reflexivity.
  - apply sum_ext. intros s _. apply sum_ext. intros t _. apply sum_ext. intros p Hp. apply sum_ext. intros q Hq.
    apply sum_ext. intros r Hr. apply sum_ext. intros u Hu. apply in_seq in Hp, Hq, Hr, Hu. rewrite HV by lia. reflexivity.
Qed.
Lemma freeze_code W W2 no ni na T LDT V LDV Fi LDF TA VA : spin_width W -> spin_width W2 -> na <= W / 2 -> no <= W2 / 2 -> ni + na <= no ->
  fits2 T LDT no no -> fits4 V LDV no -> fits2 Fi LDF no no -> fits2 TA na na na -> fits4 VA na na -> exchange_symmetric no (at4 V LDV) ->
  exists Fi' TA' VA' E, active_hamiltonian no na ni T LDT V LDV Fi LDF TA na VA na = Ok (Fi', TA', VA') /\
    inactive_energy ni T LDT Fi' LDF = Ok E /\ E = core_energy ni (at2 T LDT) (at4 V LDV) /\
    forall b k nalpha nbeta, in_space W na b -> in_space W na k ->
      size_is (alpha W b) nalpha -> size_is (alpha W k) nalpha -> size_is (beta W b) nbeta -> size_is (beta W k) nbeta ->
      exists x, matrix_element W (mk_ints na (at2 TA' na) (at4 VA' na)) b k = Ok x /\
        matrix_element W2 (mk_ints no (at2 T LDT) (at4 V LDV)) (freeze W W2 ni b) (freeze W W2 ni k) = Ok ((if (b =? k)%N then E else 0) + x)%Qc.
Proof.
  intros HW HW2 Hna Hno Hi FT FV FF FA FVA Sy.
  destruct (active_hamiltonian_ok no na ni T LDT V LDV Fi LDF TA na VA na Hi FT FV FF FA FVA) as (Fi' & TA' & VA' & E & F1 & F2 & F3).
  exists Fi', TA', VA', (core_energy ni (at2 T LDT) (at4 V LDV)). split; auto. split; [|split; auto].
  { rewrite inactive_energy_ok. 2:{ apply (fits2_le _ _ no no); auto; lia. } 2:{ apply (fits2_le _ _ no no); auto; try lia. eapply fits2_filled; eauto. }
    f_equal. unfold core_energy. unfold Sigma. rewrite <- sum_plus. apply sum_ext. intros i Hh. apply in_seq in Hh.
    destruct F1 as (_ & F1 & _). rewrite F1 by lia. unfold inactive_fock, Sigma. unfold two. ring. }
  intros b k nalpha nbeta Sb Sk A1 A2 B1 B2.
  assert (M2 : same2 na (at2 TA' na) (active_T ni (at2 T LDT) (at4 V LDV))) by (intros p q Hp Hq; apply F2; auto).
  assert (M4 : same4 na (at4 VA' na) (active_V ni (at4 V LDV))) by (intros p q r s Hp Hq Hr Hs; apply F3; auto).
  exists (ham W na (active_T ni (at2 T LDT) (at4 V LDV)) (active_V ni (at4 V LDV)) b k). split.
  - rewrite (c13 W (mk_ints na (at2 TA' na) (at4 VA' na)) b k nalpha nbeta); auto; cbn [norb T_pq V_pqrs]; try lia.
    + f_equal. apply ham_ext; auto.
    + intros p q r s Hp Hq Hr Hs. rewrite !M4 by auto. unfold active_V, shift4. apply Sy; lia.
  - destruct (freeze_electrons W W2 ni na no b nalpha nbeta) as (X1 & X2 & X3); auto.
    destruct (freeze_electrons W W2 ni na no k nalpha nbeta) as (Y1 & Y2 & Y3); auto.
    rewrite (c13 W2 (mk_ints no (at2 T LDT) (at4 V LDV)) _ _ (ni + nalpha) (ni + nbeta)); auto; cbn [norb T_pq V_pqrs].
    f_equal. apply ham_freeze; auto.
Qed.

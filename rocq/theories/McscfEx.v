(** Concrete cases for C56-C60. *)
From Coq Require Import QArith Qcanon Qcabs.
From Verif Require Import Base SD Spec FockSpec SlaterCondon Ham Sums Nondet Asci Mem Dense DenseSpec Davidson DavSpec DavProofs DavProofs2 DavProofs8 DavEx PropsHamGlue Diis DiisSpec
  Mcscf McscfSpec CasciSpec McscfGlue.
Local Open Scope nat_scope.

(** a "matrix exponential" that is orthogonal: a quarter turn of the orbitals 1 and 2 *)
Definition turn4 : list Qc := map (fun x => match x with 0 | 6 | 15 => 1%Qc | 9 => (- (1))%Qc | _ => 0%Qc end) (seq 0 16).
Definition ex_expm (n : nat) (M : list Qc) : res (list Qc) := if n =? 4 then Ok turn4 else Err Throw.
Lemma ex_expm_ok : exponential ex_expm.
Proof.
  intros n M X H _ _. unfold ex_expm in H. destruct (Nat.eqb_spec n 4) as [->|]; [|discriminate]. injection H as <-. split; [reflexivity|].
  intros [|[|[|[|i]]]] [|[|[|[|j]]]] Hi Hj; try lia; apply Qc_is_canon; vm_compute; reflexivity.
Qed.
Definition no_gelss (n : nat) (B b : list Qc) : res (list Qc) := Err Throw.
Lemma no_gelss_ok : least_squares no_gelss. Proof. intros n B b c H. discriminate. Qed.
(** four orbitals, two of them active, two virtual; one electron *)
Definition z (k : Z) : Qc := Q2Qc (inject_Z k).
Definition exT : list Qc := [z 0; z 0; z 4; z 0;  z 0; z (-1); z 0; z 0;   z 4; z 0; q73; z 0;  z 0; z 0; z 0; z 5].
Definition exV : list Qc := repeat 0%Qc 256.
Definition exst : settings := mk_settings 1 (Q2Qc (1 # 2)) 1%Qc false 0 2 1%Qc 2 0%Qc.
Definition exA1 : list Qc := [half; 0%Qc; 0%Qc; half].
Definition exA2 : list Qc := repeat 0%Qc 16.
Lemma zero_eight n V : (forall x, nth x V 0%Qc = 0%Qc) -> eightfold n (at4 V n).
Proof. intros H p q r s _ _ _ _. unfold at4. rewrite !H. auto. Qed.
Lemma repeat_zero n x : nth x (repeat 0%Qc n) 0%Qc = 0%Qc.
Proof. destruct (Nat.lt_ge_cases x n); [apply nth_repeat|apply nth_overflow; rewrite repeat_length; lia]. Qed.
Lemma ex_problem : orbital_problem 4 0 2 2 exT 4 exV.
Proof.
  split; [reflexivity|]. split; [lia|]. split; [split; [lia|]; intros i j Hi Hj; change (length exT) with 16; lia|].
  split; [split; [lia|]; intros i j k l Hi Hj Hk Hl; unfold exV; rewrite repeat_length; nia|].
  split; [|apply zero_eight; intros; apply repeat_zero].
  intros [|[|[|[|i]]]] [|[|[|[|j]]]] Hi Hj; try lia; reflexivity.
Qed.
Ltac chk := first [reflexivity | vm_compute; reflexivity].
Definition exB1 : list Qc := [Q2Qc (16 # 25); Q2Qc (-12 # 25); Q2Qc (-12 # 25); Q2Qc (9 # 25)].
Lemma csr2_run : serial_selected_ci_diag ex_root ex_syev csr2 2 1%Qc [] (Ok ((- inject 3)%Qc, [q45; (- q35)%Qc])).
Proof. pose proof ex_ci as H. unfold selected_ci_diag in H. apply det_inv in H. destruct H as (c & E & H). rewrite mol2_matrix in E. injection E as <-. exact H. Qed.
Definition same_list (a b : list Qc) : bool := if list_eq_dec Qc_eq_dec a b then true else false.
Lemma same_list_ok a b : same_list a b = true -> a = b.
Proof. unfold same_list. destruct (list_eq_dec Qc_eq_dec a b); [auto|discriminate]. Qed.
Lemma okb2 (m : res (list Qc * list Qc)) a b : okb m (fun x => same_list (fst x) a && same_list (snd x) b) = true -> m = Ok (a, b).
Proof. intros H. apply okb_ok in H. destruct H as ([x y] & E & H). apply andb_true_iff in H. destruct H as [H1 H2]. apply same_list_ok in H1, H2. cbn [fst snd] in *. rewrite E, H1, H2. reflexivity. Qed.
Lemma ex_rdms : compute_casci_rdms ex_root ex_syev 3 64 exst 2 1 0 ex_M exA2 (repeat 0%Qc 4) exA2 [] (Ok ((- inject 3)%Qc, exB1, exA2, [q45; (- q35)%Qc])).
Proof.
  unfold compute_casci_rdms. eapply det_intro; [reflexivity|]. apply (det_intro _ _ dets2); [vm_compute; reflexivity|].
  right. exists ((- inject 3)%Qc, [q45; (- q35)%Qc]). split.
  - unfold selected_ci_diag. apply (det_intro _ _ csr2); [vm_compute; reflexivity|]. exact csr2_run.
  - apply (det_intro _ _ (exB1, exA2)); [apply okb2; vm_compute; reflexivity|]. reflexivity.
Qed.

(** ** runs as computations *)
Section RUN.
  Variables (root : Qc -> Qc) (gelss : nat -> list Qc -> list Qc -> res (list Qc)) (expm : nat -> list Qc -> res (list Qc))
    (rdms : rdm_functor) (st : settings) (nalpha nbeta no ni na nv : nat) (E_core : Qc) (T : list Qc) (LDT : nat) (V : list Qc) (LDV LDD1 LDD2 : nat).
  (** the start with passed densities *)
  Definition start_res (A1 A2 : list Qc) : res mstate :=
    do transT <- slice_ T 0 (no * no);
    do transV <- slice_ V 0 (no * no * (no * no));
    do H <- active_hamiltonian no na ni T LDT V LDV (repeat 0%Qc (no * no)) no (repeat 0%Qc (na * na)) na (repeat 0%Qc (na * na * (na * na))) na;
    let '(Fi, TA, VA) := H in
    do E_inactive <- inactive_energy ni T LDT Fi no;
    let E_inactive := (E_inactive + E_core)%Qc in
    do iAtr <- sumM 0%Qc (seq 0 na) (fun i => at_ A1 (i * (LDD1 + 1)));
    if qlt (Q2Qc (1 # 1000000)) (Qcabs (iAtr - inject nalpha - inject nbeta)) then Err Throw else
    do E_1RDM <- dot_ (na * na) A1 TA;
    do E_2RDM <- dot_ (na * na * (na * na)) A2 VA;
    do G <- gradient no ni na nv LDD1 LDD2 V LDV A1 A2 Fi (repeat 0%Qc (no * no)) (repeat 0%Qc (na * no)) (repeat 0%Qc (no * no)) (repeat 0%Qc (nv * (ni + na) + na * ni));
    let '(Fa, Q, F, OG) := G in
    do grad_nrm <- nrm2 root OG;
    Ok (mk_mstate (E_1RDM + E_2RDM + E_inactive)%Qc A1 A2 [] TA VA Fi Fa Q F OG transT transV
             (repeat 0%Qc (no * no)) (repeat 0%Qc (no * no)) (diis_new (diis_nkeep st)) (qlt grad_nrm (orb_grad_tol st))).
  Lemma start_run A1 A2 s : start_res A1 A2 = Ok s -> mcscf_start root rdms st nalpha nbeta no ni na nv E_core T LDT V LDV LDD1 LDD2 A1 A2 (Ok s).
  Proof.
    unfold start_res, mcscf_start. intros H.
    apply bind_inv in H. destruct H as (a1 & E1 & H). apply (det_intro _ _ _ _ E1).
    apply bind_inv in H. destruct H as (a2 & E2 & H). apply (det_intro _ _ _ _ E2).
    apply bind_inv in H. destruct H as ([[Fi TA] VA] & E3 & H). apply (det_intro _ _ _ _ E3).
    apply bind_inv in H. destruct H as (a4 & E4 & H). apply (det_intro _ _ _ _ E4).
    apply bind_inv in H. destruct H as (a5 & E5 & H). apply (det_intro _ _ _ _ E5).
    destruct (qlt _ _) in H |- *; [discriminate|]. right. exists (A1, A2, []). split; [reflexivity|].
    apply bind_inv in H. destruct H as (a6 & E6 & H). apply (det_intro _ _ _ _ E6).
    apply bind_inv in H. destruct H as (a7 & E7 & H). apply (det_intro _ _ _ _ E7).
    apply bind_inv in H. destruct H as ([[[Fa Q] F] OG] & E8 & H). apply (det_intro _ _ _ _ E8).
    apply bind_inv in H. destruct H as (a9 & E9 & H). apply (det_intro _ _ _ _ E9). exact (eq_sym H).
  Qed.
  (** one pass up to the CI, and after it *)
  Record before := mk_before { b_K : list Qc; b_U : list Qc; b_d : diis; b_T : list Qc; b_V : list Qc; b_Fi : list Qc; b_TA : list Qc; b_VA : list Qc; b_E : Qc; b_Z1 : list Qc; b_Z2 : list Qc }.
  Definition pre_res (iter : nat) (s : mstate) : res before :=
    do R <- rotate gelss expm st no ni na nv LDD1 iter s;
    let '(K, U, d) := R in
    do tT <- two_index_transform no no T LDT U no (m_T s) no;
    do tV <- four_index_transform no no V LDV U no (m_V s) no;
    do H <- active_hamiltonian no na ni tT no tV no (m_Fi s) no (m_TA s) na (m_VA s) na;
    let '(Fi, TA, VA) := H in
    do E_inactive <- inactive_energy ni tT no Fi no;
    do A1 <- zero_fill (na * na) (m_A1 s);
    do A2 <- zero_fill (na * na * (na * na)) (m_A2 s);
    Ok (mk_before K U d tT tV Fi TA VA (E_inactive + E_core)%Qc A1 A2).
  Definition post_res (s : mstate) (b : before) (r : Qc * list Qc * list Qc * list Qc) : res mstate :=
    let '(E, A1, A2, X) := r in
    do G <- gradient no ni na nv LDD1 LDD2 (b_V b) no A1 A2 (b_Fi b) (m_Fa s) (m_Q s) (repeat 0%Qc (length (m_F s))) (m_OG s);
    let '(Fa, Q, F, OG) := G in
    do grad_nrm <- nrm2 root OG;
    do rms <- fdiv grad_nrm (root (inject (nv * (ni + na) + na * ni)));
    Ok (mk_mstate (E + b_E b)%Qc A1 A2 X (b_TA b) (b_VA b) (b_Fi b) Fa Q F OG (b_T b) (b_V b) (b_U b) (b_K b) (b_d b) (qlt rms (orb_grad_tol st))).
  Lemma iter_run iter s b r s' : pre_res iter s = Ok b -> rdms na nalpha nbeta (b_TA b) (b_VA b) (b_Z1 b) (b_Z2 b) (m_X s) (Ok r) -> post_res s b r = Ok s' ->
    mcscf_iter root gelss expm rdms st nalpha nbeta no ni na nv E_core T LDT V LDV LDD1 LDD2 iter s (Ok s').
  Proof.
    unfold pre_res, mcscf_iter. intros H HR HP.
    apply bind_inv in H. destruct H as ([[K U] d] & E1 & H). apply (det_intro _ _ _ _ E1).
    apply bind_inv in H. destruct H as (tT & E2 & H). apply (det_intro _ _ _ _ E2).
    apply bind_inv in H. destruct H as (tV & E3 & H). apply (det_intro _ _ _ _ E3).
    apply bind_inv in H. destruct H as ([[Fi TA] VA] & E4 & H). apply (det_intro _ _ _ _ E4).
    apply bind_inv in H. destruct H as (a5 & E5 & H). apply (det_intro _ _ _ _ E5).
    apply bind_inv in H. destruct H as (a6 & E6 & H). apply (det_intro _ _ _ _ E6).
    apply bind_inv in H. destruct H as (a7 & E7 & H). apply (det_intro _ _ _ _ E7). injection H as <-. cbn [b_TA b_VA b_Z1 b_Z2] in HR.
    right. exists r. split; [exact HR|]. destruct r as [[[E A1] A2] X]. unfold post_res in HP. cbn [b_V b_Fi b_E b_K b_U b_d b_T b_TA b_VA] in HP.
    apply bind_inv in HP. destruct HP as ([[[Fa Q] F] OG] & E8 & H). apply (det_intro _ _ _ _ E8).
    apply bind_inv in H. destruct H as (a9 & E9 & H). apply (det_intro _ _ _ _ E9).
    apply bind_inv in H. destruct H as (a10 & E10 & H). apply (det_intro _ _ _ _ E10). exact (eq_sym H).
  Qed.
  Lemma impl_run A1 A2 s : start_res A1 A2 = Ok s -> forall it s', mcscf_loop root gelss expm rdms st nalpha nbeta no ni na nv E_core T LDT V LDV LDD1 LDD2 (max_macro_iter st) 0 s (Ok (s', it)) ->
    mcscf_impl root gelss expm rdms st nalpha nbeta no ni na nv E_core T LDT V LDV LDD1 LDD2 A1 A2 (Ok (m_E0 s', m_A1 s', m_A2 s', (it, m_conv s'))).
  Proof. intros H it s' HL. unfold mcscf_impl. right. exists s. split; [apply start_run; exact H|]. right. exists (s', it). split; [exact HL|]. reflexivity. Qed.
End RUN.
Definition sameq (a b : Qc) : bool := if Qc_eq_dec a b then true else false.
Lemma sameq_ok a b : sameq a b = true -> a = b.
Proof. unfold sameq. destruct (Qc_eq_dec a b); [auto|discriminate]. Qed.
Definition exR := ((- inject 3)%Qc, exB1, exA2, [q45; (- q35)%Qc]).
Lemma ex_run : casscf_diis ex_root ex_syev no_gelss ex_expm 3 exst 1 0 4 0 2 2 (z 10) exT 4 exV 4 2 2 exA1 exA2 (Ok (z 7, exB1, exA2, (1, true))).
Proof.
  set (m := do s <- start_res ex_root exst 1 0 4 0 2 2 (z 10) exT 4 exV 4 2 2 exA1 exA2;
            do b <- pre_res no_gelss ex_expm exst 4 0 2 2 (z 10) exT 4 exV 4 2 0 s;
            do s' <- post_res ex_root exst 4 0 2 2 2 2 s b exR;
            Ok (s, b, s')).
  destruct (okb_ok m (fun x => let '(s, b, s') := x in negb (m_conv s) && same_list (m_X s) [] && same_list (b_TA b) ex_M && same_list (b_VA b) exA2 &&
    same_list (b_Z1 b) (repeat 0%Qc 4) && same_list (b_Z2 b) exA2 && sameq (m_E0 s') (z 7) && same_list (m_A1 s') exB1 && same_list (m_A2 s') exA2 && m_conv s'))
    as ([[s b] s'] & E & H); [vm_compute; reflexivity|].
  unfold m in E. apply bind_inv in E. destruct E as (s0 & E1 & E). apply bind_inv in E. destruct E as (b0 & E2 & E). apply bind_inv in E. destruct E as (s1 & E3 & E). injection E as -> -> ->.
  repeat (apply andb_true_iff in H; destruct H as [H ?]). repeat match goal with X : same_list _ _ = true |- _ => apply same_list_ok in X | X : sameq _ _ = true |- _ => apply sameq_ok in X end.
  apply negb_true_iff in H. unfold casscf_diis.
  replace (z 7) with (m_E0 s') by assumption. replace exB1 with (m_A1 s') by assumption. replace (Ok (m_E0 s', m_A1 s', exA2, (1, true))) with (Ok (m_E0 s', m_A1 s', m_A2 s', (1, m_conv s'))) by congruence.
  eapply impl_run; [exact E1|]. change (max_macro_iter exst) with 1. cbn [mcscf_loop]. rewrite H.
  right. exists s'. split; [|reflexivity]. eapply iter_run; [exact E2| |exact E3].
  rewrite H7, H6, H5, H4, H8. exact ex_rdms.
Qed.

(** ** passed densities are not checked *)
Definition badT : list Qc := [z (-1); z 0; z 0; z 0].
Definition badA1 : list Qc := [z 3; z 0; z 0; z (-2)].
Definition padT : list Qc := [z (-1); z 1; z 1; z 0].
Definition padA1 : list Qc := [z 1; z 0; z 5; z 0; z 0; z 0].
Definition exst0 : settings := mk_settings 0 (Q2Qc (1 # 2)) 1%Qc false 0 2 1%Qc 2 0%Qc.
Definition exst3 : settings := mk_settings 0 (Q2Qc (1 # 2)) (z 3) false 0 2 1%Qc 2 0%Qc.
Lemma stop_run root gelss expm rdms st nalpha nbeta no ni na nv E_core T LDT V LDV LDD1 LDD2 A1 A2 E conv :
  okb (start_res root st nalpha nbeta no ni na nv E_core T LDT V LDV LDD1 LDD2 A1 A2) (fun s => Bool.eqb (m_conv s) conv && (m_conv s || (max_macro_iter st =? 0)) &&
    sameq (m_E0 s) E && same_list (m_A1 s) A1 && same_list (m_A2 s) A2) = true ->
  mcscf_impl root gelss expm rdms st nalpha nbeta no ni na nv E_core T LDT V LDV LDD1 LDD2 A1 A2 (Ok (E, A1, A2, (0, conv))).
Proof.
  intros H. apply okb_ok in H. destruct H as (s & E1 & H). repeat (apply andb_true_iff in H; destruct H as [H ?]).
  apply eqb_prop in H. apply same_list_ok in H0, H1. apply sameq_ok in H2.
  replace (Ok (E, A1, A2, (0, conv))) with (Ok (m_E0 s, m_A1 s, m_A2 s, (0, m_conv s))) by congruence.
  eapply impl_run; [exact E1|]. apply orb_prop in H3. destruct (max_macro_iter st) as [|k]; [reflexivity|]. cbn [mcscf_loop].
  destruct H3 as [->|X]; [reflexivity|discriminate].
Qed.
Lemma bad_run fuel : casscf_diis ex_root ex_syev no_gelss ex_expm fuel exst 1 0 2 0 2 0 (z 0) badT 2 exA2 2 2 2 badA1 exA2 (Ok (z (-3), badA1, exA2, (0, true))).
Proof. apply stop_run. vm_compute. reflexivity. Qed.
Lemma bad_problem T : length T = 4 -> symmetric2 2 (at2 T 2) -> orbital_problem 2 0 2 0 T 2 exA2.
Proof.
  intros L S. split; [reflexivity|]. split; [lia|]. split; [split; [lia|]; intros i j Hi Hj; lia|].
  split; [split; [lia|]; intros i j k l Hi Hj Hk Hl; change (length exA2) with 16; nia|]. split; [exact S|apply zero_eight; intros; apply repeat_zero].
Qed.
Lemma bad_trace : right_trace 2 1 0 (at2 badA1 2).
Proof. vm_compute. discriminate. Qed.
Lemma bad_matrix i j : i < 2 -> j < 2 -> ci_matrix 64 (mk_ints 2 (at2 badT 2) (at4 exA2 2)) 0%Qc dets2 i j = if (i =? 0) && (j =? 0) then (- (1))%Qc else 0%Qc.
Proof. intros Hi Hj. destruct i as [|[|i]], j as [|[|j]]; try lia; apply Qc_is_canon; vm_compute; reflexivity. Qed.
Lemma bad_spectrum : spectrum_above 2 (ci_matrix 64 (mk_ints 2 (at2 badT 2) (at4 exA2 2)) 0%Qc dets2) (- (1))%Qc.
Proof.
  intros x. unfold expectation, matvec, dot, Sigma. cbn [seq sum]. rewrite !bad_matrix by lia. cbn [Nat.eqb andb].
  set (a := nth 0 x 0%Qc). set (b := nth 1 x 0%Qc).
  replace (a * (- (1) * a + (0 * b + 0)) + (b * (0 * a + (0 * b + 0)) + 0))%Qc with (- (a * a))%Qc by ring.
  replace (- (1) * (a * a + (b * b + 0)))%Qc with (- (a * a) + - (b * b))%Qc by ring.
  rewrite <- (Qcplus_0_r (- (a * a))) at 2. apply Qcplus_le_compat; [apply Qcle_refl|].
  assert (Q : (0 <= b * b)%Qc) by (unfold Qcle, Qcmult; cbn [this Q2Qc]; change (this (Q2Qc 0)) with 0%Q; rewrite (Qred_correct (this b * this b)); exact (square_Q (this b))). apply Qcopp_le_compat in Q. exact Q.
Qed.
Lemma bad_space : whole_space 64 2 1 0 dets2.
Proof.
  destruct (SDProofs3.hilbert_spec 64 2 1 0 eq_refl) as (l & (f & Hf) & ND & _ & I); try (cbn; lia).
  specialize (Hf (4 + f) (Nat.le_add_l _ _)).
  assert (G : generate_hilbert_space (4 + f) 64 2 1 0 = Ok dets2) by (vm_compute; reflexivity).
  pose proof (eq_trans (eq_sym Hf) G) as X. injection X as ->. split; assumption.
Qed.
Lemma pad_run fuel : casscf_diis ex_root ex_syev no_gelss ex_expm fuel exst 1 0 2 0 2 0 (z 0) padT 2 exA2 2 3 2 padA1 exA2 (Ok (z 4, padA1, exA2, (0, true))).
Proof. apply stop_run. vm_compute. reflexivity. Qed.
Lemma pad_energy : total_energy 0 2 (at2 padT 2) (at4 exA2 2) (at2 padA1 3) (at4 exA2 2) = z (-1).
Proof. apply Qc_is_canon. vm_compute. reflexivity. Qed.
Lemma pad_trace : right_trace 2 1 0 (at2 padA1 3).
Proof. vm_compute. discriminate. Qed.
Lemma bad_room : density_room 2 badA1 exA2 /\ density_room 2 padA1 exA2 /\ density_room 2 exA1 exA2.
Proof. unfold density_room. cbn. lia. Qed.
Lemma ex_rotations root tol : rotations_or_tolerance root tol 0 2 2.
Proof. left. cbn. lia. Qed.
(** the first test, and no test *)
Definition exE : Qc := Q2Qc (19 # 2).
Lemma first_run fuel : casscf_diis ex_root ex_syev no_gelss ex_expm fuel exst3 1 0 4 0 2 2 (z 10) exT 4 exV 4 2 2 exA1 exA2 (Ok (exE, exA1, exA2, (0, false))).
Proof. apply stop_run. vm_compute. reflexivity. Qed.
Lemma stop_first fuel : casscf_diis ex_root ex_syev no_gelss ex_expm fuel exst0 1 0 4 0 2 2 (z 10) exT 4 exV 4 2 2 exA1 exA2 (Ok (exE, exA1, exA2, (0, false))).
Proof. apply stop_run. vm_compute. reflexivity. Qed.
Definition ex_grad := gradient_norm2 0 2 2 (at2 exT 4) (at4 exV 4) (at2 exA1 2) (at4 exA2 2).
Lemma first_norm : ex_root ex_grad = z 4 /\ (ex_root ex_grad / ex_root (inject (rot_size 0 2 2)) < z 3)%Qc.
Proof. split; [apply Qc_is_canon; vm_compute; reflexivity|vm_compute; reflexivity]. Qed.
(** two electrons of the same spin: the two-body density is not symmetric in its first pair *)
Lemma not_eightfold : exists g G, form_rdms 64 2 [(3%N, 1%Qc)] [(3%N, 1%Qc)] (fun _ _ => 0%Qc, Some (fun _ _ _ _ => 0%Qc)) = Ok (g, Some G) /\
  (in_space 64 2 3 /\ size_is (alpha 64 3) 2 /\ size_is (beta 64 3) 0) /\ G 0 1 0 1 = (- half)%Qc /\ G 1 0 0 1 = 0%Qc.
Proof.
  destruct (okb_ok (form_rdms 64 2 [(3%N, 1%Qc)] [(3%N, 1%Qc)] (fun _ _ => 0%Qc, Some (fun _ _ _ _ => 0%Qc))) (fun x => match snd x with Some G => sameq (G 0 1 0 1) (- half)%Qc && sameq (G 1 0 0 1) 0%Qc | None => false end))
    as ([g [G|]] & E & H); [vm_compute; reflexivity| |discriminate].
  exists g, G. split; [exact E|]. apply andb_true_iff in H. destruct H as [H1 H2]. split; [split; [spc|split; sz]|]. split; apply sameq_ok; assumption.
Qed.

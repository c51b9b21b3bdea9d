From Coq Require Import QArith Qcanon Sorting.Sorted.
From Verif Require Import Base SD Spec Nondet FockSpec SlaterCondon Ham HamProofs HamProofs5 Asci AsciSort Mem MemProofs Sums SparseSpec CsrView Sparse Spmv Dist Collective Diis
  DenseSpec DenseProofs DiisSpec DiisProofs DiisProofs2 RotProofs LinRespProofs ExpandProofs FockMatProofs PSpmvProofs2 Davidson DavSpec DavProofs DavProofs2 DavProofs3 DavProofs4
  SpmvGlue SparseGlue PropsHamGlue.
Local Open Scope nat_scope.

(** ** runs that never return *)
Lemma davidson_small root syev N max_m A op D tol X s : multiplies N A op -> Nat.min max_m N <= 1 -> ~ davidson root syev N max_m op D tol X (Ok s).
Proof.
  intros HO HM H. unfold davidson in H. destruct (run_start _ _ _ _ _ _ _ _ _ _ HO H) as (V & AV & v1 & _ & H1 & _ & _ & _ & _ & HL).
  replace (Nat.min max_m N - 1) with 0 in HL by lia. discriminate HL.
Qed.
Lemma davidson_eigenvector root syev N max_m A op D tol X mu s : multiplies N A op -> root 0%Qc = 0%Qc -> dot N X X = 1%Qc ->
  (forall i, i < N -> matvec N A X i = (mu * nth i X 0)%Qc) -> ~ davidson root syev N max_m op D tol X (Ok s).
Proof.
  intros HO R0 HX HA H. unfold davidson in H.
  destruct (run_start _ _ _ _ _ _ _ _ _ _ HO H) as (V & AV & v1 & LX & H1 & _ & _ & _ & (V0 & av & E0 & Lav & Fav & HG) & _).
  assert (FN : forall m, m < N -> nth m (firstn N X) 0%Qc = nth m X 0%Qc) by (intros m Hm; rewrite nth_firstn by exact Hm; reflexivity).
  assert (O1 : orthonormal N 1 V0).
  { apply orthonormal_1. rewrite E0, <- HX. unfold dot. apply Sigma_ext. intros m Hm. rewrite FN by exact Hm. reflexivity. }
  destruct (gs_inv _ _ _ _ _ _ O1 HG) as (_ & _ & OY & q & c & a & Ec & NZ & Q & FY).
  specialize (OY 0 (Nat.lt_0_succ 0)). rewrite E0 in OY.
  assert (Z : (c * dot N v1 v1 = 0)%Qc).
  { assert (E1 : dot N v1 av = (mu * dot N v1 X)%Qc).
    { unfold dot. rewrite <- Sigma_scale. apply Sigma_ext. intros m Hm. rewrite Fav by exact Hm.
      replace (matvec N A (firstn N X) m) with (matvec N A X m) by (unfold matvec; apply Sigma_ext; intros j Hj; rewrite FN by exact Hj; reflexivity).
      rewrite HA by exact Hm. ring. }
    assert (E2 : dot N v1 X = 0%Qc).
    { rewrite dot_comm, <- OY. apply dot_ext_l. intros m Hm. symmetry. apply FN. exact Hm. }
    assert (E3 : dot N v1 av = (a 0%nat * dot N v1 X + c * dot N v1 v1)%Qc).
    { unfold dot. rewrite <- !Sigma_scale, <- Sigma_plus. apply Sigma_ext. intros m Hm. rewrite FY by exact Hm.
      change (Sigma 1 (fun l => a l * nth m (nth l V0 []) 0))%Qc with (a 0%nat * nth m (nth 0 V0 []) 0 + 0)%Qc. rewrite E0, FN by exact Hm. ring. }
    rewrite E1, E2 in E3. transitivity (a 0%nat * 0 + c * dot N v1 v1)%Qc; [ring|]. rewrite <- E3. ring. }
  assert (Q0 : q = 0%Qc) by (rewrite <- Q, <- Qcmult_assoc, Z; ring). subst q. congruence.
Qed.

(** ** the smallest diagonal element *)
Lemma min_from_spec l : forall i best b pre, i = length pre -> best < i -> nth best pre 0%Qc = b -> (forall j, j < i -> (b <= nth j pre 0)%Qc) ->
  smallest_at (pre ++ l) (min_element_from i best b l).
Proof.
  induction l as [|x l IH]; intros i best b pre Hi Hb Eb Hm; cbn [min_element_from].
  - rewrite app_nil_r. split; [lia|]. intros j Hj. rewrite Eb. apply Hm. lia.
  - replace (pre ++ x :: l) with ((pre ++ [x]) ++ l) by (rewrite <- app_assoc; reflexivity).
    destruct (qlt x b) eqn:Q.
    + apply qlt_true in Q. apply IH; [rewrite app_length; cbn; lia|lia|rewrite app_nth2, Hi, Nat.sub_diag by lia; reflexivity|].
      intros j Hj. destruct (Nat.eq_dec j i) as [->|NE].
      * rewrite app_nth2, Hi, Nat.sub_diag by lia. apply Qcle_refl.
      * rewrite app_nth1 by lia. eapply Qcle_trans; [apply Qclt_le_weak; exact Q|]. apply Hm. lia.
    + apply qlt_false in Q. apply IH; [rewrite app_length; cbn; lia|lia|rewrite app_nth1 by lia; exact Eb|].
      intros j Hj. destruct (Nat.eq_dec j i) as [->|NE].
      * rewrite app_nth2, Hi, Nat.sub_diag by lia. exact Q.
      * rewrite app_nth1 by lia. apply Hm. lia.
Qed.
Lemma min_element_ok D : D <> [] -> smallest_at D (min_element D).
Proof.
  destruct D as [|x D]; [congruence|]. intros _. cbn [min_element]. apply (min_from_spec D 1 0 x [x]); [reflexivity|lia|reflexivity|].
  intros j Hj. assert (j = 0) by lia. subst. apply Qcle_refl.
Qed.

(** ** the serial solver on a sparse matrix *)
Lemma sparse_multiplies H : csr_wf H -> csr_n H = csr_m H -> always_multiplies (csr_m H) (csr_entry H) (sparse_action H (csr_m H)).
Proof.
  intros Wf En v av Lv Lav. unfold sparse_action. eapply always_weaken; [|apply (c41 1 1%Qc H v (csr_m H) 0%Qc av (csr_m H) Wf)].
  - cbn beta. intros w (Lw & F & _). split; [lia|]. intros i Hi. specialize (F 0 i (Nat.lt_0_succ 0) Hi).
    rewrite Nat.mul_0_l, Nat.add_0_r in F. rewrite F. rewrite En. unfold matvec, Sigma.
    transitivity (sum (seq 0 (csr_m H)) (fun j => csr_entry H i j * nth j v 0))%Qc; [|reflexivity].
    rewrite (sum_ext _ _ (fun j => csr_entry H i j * nth j v 0)%Qc); [ring|]. intros j Hj. reflexivity.
  - intros k Hk. rewrite En. nia.
  - lia.
  - intros k Hk. nia.
Qed.
Lemma resize_length n C : length (resize n C) = n.
Proof. unfold resize. rewrite app_length, firstn_length, repeat_length. lia. Qed.
Lemma diagonal_guess_ok H X X' : clean H -> 0 < csr_m H -> length X = csr_m H -> diagonal_guess H X = Ok X' ->
  exists i, smallest_at (diagonal H) i /\ length X' = csr_m H /\ nth i X' 0%Qc = 1%Qc /\ forall j, j <> i -> nth j X' 0%Qc = nth j X 0%Qc.
Proof.
  intros (Wf & En & ND) HM LX H0. unfold diagonal_guess in H0. destruct (c39_diag H Wf ND) as [ED _]. rewrite ED in H0. cbn in H0.
  fold (diagonal H) in H0. assert (LD : length (diagonal H) = csr_m H) by (unfold diagonal; rewrite map_length, seq_length; reflexivity).
  assert (S : smallest_at (diagonal H) (min_element (diagonal H))) by (apply min_element_ok; intros E; rewrite E in LD; cbn in LD; lia).
  apply (put_nth 0%Qc) in H0. destruct H0 as (_ & L & F). exists (min_element (diagonal H)). split; [exact S|]. split; [lia|]. split.
  - rewrite F, Nat.eqb_refl. reflexivity.
  - intros j NE. rewrite F. destruct (Nat.eqb_spec j (min_element (diagonal H))); [contradiction|reflexivity].
Qed.
Lemma diagonal_guess_total H X : clean H -> 0 < csr_m H -> length X = csr_m H -> exists X', diagonal_guess H X = Ok X'.
Proof.
  intros (Wf & En & ND) HM LX. unfold diagonal_guess. destruct (c39_diag H Wf ND) as [ED _]. rewrite ED. cbn. fold (diagonal H).
  assert (LD : length (diagonal H) = csr_m H) by (unfold diagonal; rewrite map_length, seq_length; reflexivity).
  assert (S : smallest_at (diagonal H) (min_element (diagonal H))) by (apply min_element_ok; intros E; rewrite E in LD; cbn in LD; lia).
  destruct S as [S _]. rewrite put_ok by lia. eauto.
Qed.
Lemma dot_unit n X i : i < n -> nth i X 0%Qc = 1%Qc -> (forall j, j <> i -> nth j X 0%Qc = 0%Qc) -> dot n X X = 1%Qc.
Proof.
  intros Hi E F. unfold dot. rewrite (Sigma_ext n _ (fun j => (if j =? i then 1 else 0) * nth j X 0)%Qc).
  - rewrite (Sigma_delta n i (fun j => nth j X 0%Qc)) by exact Hi. exact E.
  - intros j Hj. destruct (Nat.eqb_spec j i) as [->|NE]; [rewrite E; ring|rewrite F by exact NE; ring].
Qed.
Lemma expectation_unit n A X i : i < n -> nth i X 0%Qc = 1%Qc -> (forall j, j <> i -> nth j X 0%Qc = 0%Qc) -> expectation n A X = A i i.
Proof.
  intros Hi E F. unfold expectation. rewrite (Sigma_ext n _ (fun j => (if j =? i then 1 else 0) * matvec n A X j)%Qc).
  - rewrite (Sigma_delta n i (fun j => matvec n A X j)) by exact Hi. unfold matvec.
    rewrite (Sigma_ext n _ (fun j => (if j =? i then 1 else 0) * A i j)%Qc); [apply (Sigma_delta n i (fun j => A i j)); exact Hi|].
    intros j Hj. destruct (Nat.eqb_spec j i) as [->|NE]; [rewrite E; ring|rewrite F by exact NE; ring].
  - intros j Hj. destruct (Nat.eqb_spec j i) as [->|NE]; [rewrite E; ring|rewrite F by exact NE; ring].
Qed.

Lemma serial_inv root syev H max_m tol C E Y : clean H -> serial_selected_ci_diag root syev H max_m tol C (Ok (E, Y)) ->
  0 < csr_m H /\ exists it C', davidson root syev (csr_m H) max_m (sparse_action H (csr_m H)) (diagonal H) tol C' (Ok (it, E, Y)) /\ length C' = csr_m H /\
    ((keep_guess (resize (csr_m H) C) = Ok true /\ C' = resize (csr_m H) C) \/
     (keep_guess (resize (csr_m H) C) = Ok false /\ diagonal_guess H (resize (csr_m H) C) = Ok C')).
Proof.
  intros CL H0. pose proof CL as (Wf & En & ND). unfold serial_selected_ci_diag in H0.
  apply det_inv in H0. destruct H0 as (D & HD & H0). rewrite (proj1 (c39_diag H Wf ND)) in HD. injection HD as <-. fold (diagonal H) in H0.
  apply det_inv in H0. destruct H0 as (keep & HK & H0). apply det_inv in H0. destruct H0 as (C' & HC & H0).
  apply nd_inv in H0. destruct H0 as (((it & E') & Y') & HDav & H0). injection H0 as -> ->.
  assert (HM : 0 < csr_m H).
  { destruct (Nat.eq_dec (csr_m H) 0) as [Z|]; [|lia]. exfalso. unfold keep_guess, max_abs in HK.
    assert (L : length (resize (csr_m H) C) = 0) by (rewrite resize_length; exact Z). destruct (resize (csr_m H) C); [discriminate HK|discriminate L]. }
  split; [exact HM|]. exists it, C'. split; [exact HDav|].
  destruct keep.
  - injection HC as <-. split; [apply resize_length|]. left. auto.
  - split; [|right; auto]. destruct (diagonal_guess_ok H _ _ CL HM (resize_length _ _) HC) as (i & _ & L & _). exact L.
Qed.
Lemma serial_residual root syev H max_m tol C E Y : clean H -> serial_selected_ci_diag root syev H max_m tol C (Ok (E, Y)) ->
  length Y = csr_m H /\ (root (residual2 (csr_m H) (csr_entry H) E Y) < tol)%Qc.
Proof.
  intros CL H0. destruct (serial_inv _ _ _ _ _ _ _ _ CL H0) as (_ & it & C' & HD & _). destruct CL as (Wf & En & ND).
  destruct (run_converged _ _ _ _ _ _ _ _ _ _ _ _ (multiplies_of _ _ _ (sparse_multiplies H Wf En)) HD) as (_ & L & R). auto.
Qed.
(* no guess: nothing, or zeros, passed *)
Lemma resize_zero n C : (forall j, nth j C 0%Qc = 0%Qc) -> resize n C = repeat 0%Qc n.
Proof.
  intros H. unfold resize. apply (nth_ext' _ _ 0%Qc); [rewrite app_length, firstn_length, !repeat_length; lia|].
  intros i Hi. rewrite nth_repeat. destruct (Nat.lt_ge_cases i (length (firstn n C))) as [L|G].
  - rewrite app_nth1 by exact L. rewrite firstn_length in L. rewrite nth_firstn by lia. apply H.
  - rewrite app_nth2 by exact G. apply nth_repeat.
Qed.
Lemma serial_variational root syev H max_m tol C E Y : clean H -> symmetric2 (csr_m H) (csr_entry H) -> exact_root root -> eigensolver syev ->
  (forall j, nth j C 0%Qc = 0%Qc) ->
  serial_selected_ci_diag root syev H max_m tol C (Ok (E, Y)) ->
  dot (csr_m H) Y Y = 1%Qc /\ expectation (csr_m H) (csr_entry H) Y = E /\
  (forall i, i < csr_m H -> (E <= csr_entry H i i)%Qc) /\ forall b, spectrum_above (csr_m H) (csr_entry H) b -> (b <= E)%Qc.
Proof.
  intros CL SY HR HE HC H0. destruct (serial_inv _ _ _ _ _ _ _ _ CL H0) as (HM & it & C' & HD & LC & G). pose proof CL as (Wf & En & ND).
  rewrite (resize_zero _ _ HC) in G. destruct G as [(K & ->)|(K & G)].
  - exfalso. unfold keep_guess in K. destruct (csr_m H) as [|m]; [lia|]. cbn [repeat max_abs] in K.
    assert (MZ : max_from (fun a b => qlt (Qcabs a) (Qcabs b)) 0%Qc (repeat 0%Qc m) = 0%Qc).
    { clear. induction m as [|m IH]; [reflexivity|]. cbn [repeat max_from]. destruct (qlt (Qcabs 0) (Qcabs 0)); exact IH. }
    rewrite MZ in K. cbn in K. rewrite repeat_length in K. unfold fdiv in K. destruct (Qc_eq_dec (inject (S m)) 0) as [|NZ]; [discriminate|]. cbn in K.
    injection K as K. apply qlt_true in K.
    assert (P : (0 < 1 / inject (S m))%Qc).
    { unfold Qcdiv. rewrite Qcmult_1_l. clear - NZ. unfold inject in *. unfold Qclt, Qcinv. cbn [this Q2Qc]. rewrite !Qred_correct.
      apply Qinv_lt_0_compat. unfold Qlt. cbn. lia. }
    replace (Qcabs 0) with 0%Qc in K by (apply Qc_is_canon; reflexivity). exact (Qclt_not_le _ _ P (Qclt_le_weak _ _ K)).
  - destruct (diagonal_guess_ok H _ _ CL HM (repeat_length _ _) G) as (i & (Li & Si) & _ & E1 & F).
    assert (LD : length (diagonal H) = csr_m H) by (unfold diagonal; rewrite map_length, seq_length; reflexivity).
    rewrite LD in *.
    assert (F' : forall j, j <> i -> nth j C' 0%Qc = 0%Qc) by (intros j NE; rewrite F by exact NE; apply nth_repeat).
    destruct (run_variational _ _ _ _ _ _ _ _ _ _ _ _ (multiplies_of _ _ _ (sparse_multiplies H Wf En)) HR HE SY (dot_unit _ _ i Li E1 F') HD) as (A1 & A2 & A3 & A4).
    split; [exact A1|]. split; [exact A2|]. split; [|exact A4].
    intros j Hj. rewrite (expectation_unit _ _ _ i Li E1 F') in A3. eapply Qcle_trans; [exact A3|].
    specialize (Si j Hj). unfold diagonal in Si. rewrite !nth_map_seq in Si by assumption. exact Si.
Qed.

(** ** selected CI on determinants *)
Lemma sorted_nodup (l : list nat) : StronglySorted lt l -> NoDup l.
Proof.
  induction 1 as [|x l HS IH HF]; constructor; [|exact IH]. intros I. rewrite Forall_forall in HF. specialize (HF _ I). lia.
Qed.
Lemma ci_built W h thr sds na nb : spin_width W -> norb h <= W / 2 ->
  (forall p q r s, p < norb h -> q < norb h -> r < norb h -> s < norb h -> V_pqrs h p q r s = V_pqrs h r s p q) ->
  (forall b, In b sds -> in_space W (norb h) b /\ size_is (alpha W b) na /\ size_is (beta W b) nb) -> (0 <= thr)%Qc ->
  exists H, make_csr_hamiltonian W h thr sds = Ok H /\ clean H /\ csr_m H = length sds /\
    forall i j, i < length sds -> j < length sds -> csr_entry H i j = ci_matrix W h thr sds i j.
Proof.
  intros HW Hn Vs Hd Ht. destruct (c17 W h thr sds sds na nb HW Hn Vs) as (H & E & Em & En & Ei & Wf & L).
  { intros b Hb. right. auto. } { intros b Hb. right. auto. }
  destruct (c17_entry W h thr sds sds na nb HW Hn Vs Hd Hd Ht) as (H' & E' & F). rewrite E in E'. injection E' as <-.
  exists H. split; [exact E|]. split.
  - split; [exact Wf|]. split; [lia|]. intros i Hi. rewrite Em in Hi. destruct (L i Hi) as [S _]. apply sorted_nodup. exact S.
  - split; [exact Em|exact F].
Qed.
Lemma residual2_ext n A A' lam x : (forall i j, i < n -> j < n -> A i j = A' i j) -> residual2 n A lam x = residual2 n A' lam x.
Proof. intros H. unfold residual2, norm2, matvec. apply Sigma_ext. intros i Hi. rewrite (Sigma_ext n (fun j => A i j * nth j x 0)%Qc (fun j => A' i j * nth j x 0)%Qc) by (intros j Hj; rewrite H by assumption; reflexivity). reflexivity. Qed.
Lemma expectation_ext n A A' x : (forall i j, i < n -> j < n -> A i j = A' i j) -> expectation n A x = expectation n A' x.
Proof. intros H. unfold expectation, matvec. apply Sigma_ext. intros i Hi. rewrite (Sigma_ext n (fun j => A i j * nth j x 0)%Qc (fun j => A' i j * nth j x 0)%Qc) by (intros j Hj; rewrite H by assumption; reflexivity). reflexivity. Qed.
Lemma ci_symmetric W h thr sds :
  (forall p q, p < norb h -> q < norb h -> T_pq h p q = T_pq h q p) ->
  (forall p q r s, p < norb h -> q < norb h -> r < norb h -> s < norb h -> V_pqrs h p q r s = V_pqrs h q p s r) ->
  forall n, symmetric2 n (ci_matrix W h thr sds).
Proof. intros HT HV n i j _ _. unfold ci_matrix. rewrite (ham_sym W (norb h) (T_pq h) (V_pqrs h) (nth i sds 0%N) (nth j sds 0%N) HT HV). reflexivity. Qed.
Lemma ci_diag root syev W h thr sds na nb max_m tol C E Y : spin_width W -> norb h <= W / 2 ->
  (forall p q r s, p < norb h -> q < norb h -> r < norb h -> s < norb h -> V_pqrs h p q r s = V_pqrs h r s p q) ->
  (forall b, In b sds -> in_space W (norb h) b /\ size_is (alpha W b) na /\ size_is (beta W b) nb) -> (0 <= thr)%Qc ->
  selected_ci_diag root syev W h sds thr max_m tol C (Ok (E, Y)) ->
  length Y = length sds /\ (root (residual2 (length sds) (ci_matrix W h thr sds) E Y) < tol)%Qc.
Proof.
  intros HW Hn Vs Hd Ht H0. destruct (ci_built W h thr sds na nb HW Hn Vs Hd Ht) as (H & EH & CL & Em & F).
  unfold selected_ci_diag in H0. apply det_inv in H0. destruct H0 as (H' & EH' & H0). rewrite EH in EH'. injection EH' as <-.
  destruct (serial_residual _ _ _ _ _ _ _ _ CL H0) as [L R]. rewrite Em in *. split; [exact L|].
  rewrite <- (residual2_ext _ _ _ _ _ F). exact R.
Qed.
Lemma ci_diag_variational root syev W h thr sds na nb max_m tol C E Y : spin_width W -> norb h <= W / 2 ->
  (forall p q, p < norb h -> q < norb h -> T_pq h p q = T_pq h q p) ->
  (forall p q r s, p < norb h -> q < norb h -> r < norb h -> s < norb h -> V_pqrs h p q r s = V_pqrs h r s p q /\ V_pqrs h p q r s = V_pqrs h q p s r) ->
  (forall b, In b sds -> in_space W (norb h) b /\ size_is (alpha W b) na /\ size_is (beta W b) nb) -> (0 <= thr)%Qc ->
  exact_root root -> eigensolver syev -> (forall j, nth j C 0%Qc = 0%Qc) ->
  selected_ci_diag root syev W h sds thr max_m tol C (Ok (E, Y)) ->
  dot (length sds) Y Y = 1%Qc /\ expectation (length sds) (ci_matrix W h thr sds) Y = E /\
  (forall i, i < length sds -> (E <= ci_matrix W h thr sds i i)%Qc) /\
  forall b, spectrum_above (length sds) (ci_matrix W h thr sds) b -> (b <= E)%Qc.
Proof.
  intros HW Hn HT HV Hd Ht HR HE HC H0.
  destruct (ci_built W h thr sds na nb HW Hn (fun p q r s Hp Hq Hr Hs => proj1 (HV p q r s Hp Hq Hr Hs)) Hd Ht) as (H & EH & CL & Em & F).
  unfold selected_ci_diag in H0. apply det_inv in H0. destruct H0 as (H' & EH' & H0). rewrite EH in EH'. injection EH' as <-.
  assert (SY : symmetric2 (csr_m H) (csr_entry H)).
  { rewrite Em. intros i j Hi Hj. rewrite !F by assumption. apply (ci_symmetric W h thr sds HT (fun p q r s Hp Hq Hr Hs => proj2 (HV p q r s Hp Hq Hr Hs)) (length sds)); assumption. }
  destruct (serial_variational _ _ _ _ _ _ _ _ CL SY HR HE HC H0) as (A1 & A2 & A3 & A4). rewrite Em in *.
  split; [exact A1|]. split; [rewrite <- (expectation_ext _ _ _ _ F); exact A2|]. split.
  - intros i Hi. rewrite <- F by exact Hi. apply A3. exact Hi.
  - intros b Hb. apply A4. intros x. rewrite (expectation_ext _ _ _ _ F). apply Hb.
Qed.

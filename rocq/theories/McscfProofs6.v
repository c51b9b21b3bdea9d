(** The CI step of the orbital optimisation. *)
From Coq Require Import QArith Qcanon Qcabs Lqa.
From Verif Require Import Base SD Spec SDProofs3 SparseSpec CsrView Spmv SpmvSpec FockSpec SlaterCondon Ham HamProofs8 PropsHamGlue Sums Nondet Asci AsciSort Mem Dense DenseSpec DenseProofs Davidson DavSpec DavProofs DavProofs2 DavProofs3 DavProofs4 DavProofs5 MemProofs SpmvGlue DiisProofs DiisProofs2
  Diis DiisSpec Mcscf McscfSpec McscfProofs McscfProofs2 RdmSymProofs CasciSpec.
Local Open Scope nat_scope.

(** ** arrays behind spans *)
Lemma store2_length n A g : length (store2 n A g) = length A.
Proof. unfold store2. rewrite map_length, seq_length. reflexivity. Qed.
Lemma store4_length n A g : length (store4 n A g) = length A.
Proof. unfold store4. rewrite map_length, seq_length. reflexivity. Qed.
Lemma store2_at n A g p q : n * n <= length A -> p < n -> q < n -> at2 (store2 n A g) n p q = g p q.
Proof.
  intros HA Hp Hq. assert (B : p + q * n < n * n) by nia. unfold at2, store2. rewrite nth_map_seq by lia.
  rewrite (proj2 (Nat.ltb_lt _ _) B). f_equal; [rewrite Nat.mod_add by lia; apply Nat.mod_small; lia|].
  rewrite Nat.div_add by lia. rewrite Nat.div_small by lia. reflexivity.
Qed.
Lemma store4_at n A g p q r s : n * n * (n * n) <= length A -> p < n -> q < n -> r < n -> s < n -> at4 (store4 n A g) n p q r s = g p q r s.
Proof.
  intros HA Hp Hq Hr Hs. assert (B := pos4_bound n p q r s Hp Hq Hr Hs). unfold at4, store4. rewrite nth_map_seq by lia.
  rewrite (proj2 (Nat.ltb_lt _ _) B). assert (N0 : n <> 0) by lia.
  set (x := p + q * n + r * n * n + s * n * n * n).
  assert (X1 : x = p + (q + r * n + s * n * n) * n) by (unfold x; ring).
  assert (X2 : x / n = q + (r + s * n) * n).
  { rewrite X1, Nat.div_add by auto. rewrite Nat.div_small by auto. ring. }
  assert (X3 : x / (n * n) = r + s * n).
  { rewrite <- Nat.div_div by auto. rewrite X2, Nat.div_add by auto. rewrite Nat.div_small by auto. ring. }
  assert (X4 : x / (n * n * n) = s).
  { rewrite <- (Nat.div_div x (n * n) n) by (try apply Nat.neq_mul_0; auto). rewrite X3, Nat.div_add by auto. rewrite Nat.div_small by auto. ring. }
  rewrite X2, X3, X4, X1. rewrite !Nat.mod_add by auto. rewrite !Nat.mod_small by auto. reflexivity.
Qed.
Lemma eight_eri n V : eightfold n V -> eri_symmetric n V.
Proof.
  intros H p q r s Hp Hq Hr Hs. destruct (H p q r s Hp Hq Hr Hs) as [A _]. split; [exact A|].
  destruct (H r s p q Hr Hs Hp Hq) as [_ B]. destruct (H s r p q Hs Hr Hp Hq) as [C _]. congruence.
Qed.

(** ** densities on arrays *)
Lemma at_ok (A : list Qc) i : i < length A -> at_ A i = Ok (nth i A 0%Qc).
Proof. intros H. unfold at_. rewrite (nth_error_nth' A 0%Qc H). reflexivity. Qed.
Lemma mapM_all (C : list Qc) : mapM (fun i => at_ C i) (seq 0 (length C)) = Ok C.
Proof.
  destruct (mapM_seq_ok (fun i => at_ C i) (length C) 0%Qc) as (r & E & L & H); [intros i Hi; eexists; apply at_ok; auto|].
  rewrite E. f_equal. apply (nth_ext _ _ 0%Qc 0%Qc); auto. intros i Hi. rewrite L in Hi. specialize (H i Hi). rewrite at_ok in H by auto. congruence.
Qed.
Lemma mapM_prefix (C : list Qc) m : m <= length C -> mapM (fun i => at_ C i) (seq 0 m) = Ok (firstn m C).
Proof.
  intros Hm. destruct (mapM_seq_ok (fun i => at_ C i) m 0%Qc) as (r & E & L & H); [intros i Hi; eexists; apply at_ok; lia|].
  rewrite E. f_equal. apply (nth_ext _ _ 0%Qc 0%Qc); [rewrite firstn_length; lia|]. intros i Hi. rewrite L in Hi. specialize (H i Hi). rewrite at_ok in H by lia. rewrite nth_firstn by lia. congruence.
Qed.
Lemma combine_in {A B} (l : list A) (m : list B) x : In x (combine l m) -> In (fst x) l.
Proof. destruct x as [a b]. apply in_combine_l. Qed.
Lemma contract_ext n T g g' V G G' : same2 n g g' -> same4 n G G' -> FockSpec.contract n T g V G = FockSpec.contract n T g' V G'.
Proof.
  intros H2 H4. unfold FockSpec.contract. f_equal.
  - apply sum_ext. intros p Hp. apply sum_ext. intros q Hq. apply in_seq in Hp, Hq. rewrite H2 by lia. reflexivity.
  - apply sum_ext. intros p Hp. apply sum_ext. intros q Hq. apply sum_ext. intros r Hr. apply sum_ext. intros s Hs. apply in_seq in Hp, Hq, Hr, Hs. rewrite H4 by lia. reflexivity.
Qed.
Lemma densities_ext W n w g G g' G' : same2 n g g' -> same4 n G G' -> densities_of W n w g G -> densities_of W n w g' G'.
Proof.
  intros H2 H4 (A & B & C & D). split; [|split; [|split]].
  - intros p q Hp Hq. rewrite <- H2 by auto. auto.
  - intros T V S. rewrite <- (contract_ext n T g g' V G G') by auto. auto.
  - intros p q Hp Hq. rewrite <- !H2 by auto. auto.
  - intros p q r s Hp Hq Hr Hs. rewrite <- !H4 by auto. auto.
Qed.
Lemma zero_sym2 n : symmetric2 n (fun _ _ => 0%Qc). Proof. intros p q _ _. reflexivity. Qed.
Lemma zero_four n : fourfold n (fun _ _ _ _ => 0%Qc). Proof. intros p q r s _ _ _ _. auto. Qed.
(** started from elements that are zero below [n] *)
Lemma rdms_of W n w na nb g0 G0 : spin_width W -> n <= W / 2 ->
  (forall b, In b w -> in_space W n (fst b) /\ size_is (alpha W (fst b)) na /\ size_is (beta W (fst b)) nb) ->
  same2 n g0 (fun _ _ => 0%Qc) -> same4 n G0 (fun _ _ _ _ => 0%Qc) ->
  exists g G, form_rdms W n w w (g0, Some G0) = Ok (g, Some G) /\ densities_of W n w g G.
Proof.
  intros HW Hn H Z2 Z4.
  destruct (rdm_symmetry W n w na nb g0 G0 HW Hn H) as (g & G & E & S2 & S4).
  { intros p q Hp Hq. rewrite !Z2 by auto. reflexivity. } { intros p q r s Hp Hq Hr Hs. rewrite !Z4 by auto. auto. }
  exists g, G. split; [exact E|].
  destruct (c19_acc W n w w na nb g0 G0 HW Hn) as (g' & G' & E' & I).
  { intros b Hb. apply in_app_or in Hb. apply H. tauto. }
  pose proof (eq_trans (eq_sym E) E') as Q. injection Q as <- <-. clear E'.
  assert (I' : forall T V, eri_symmetric n V -> FockSpec.contract n T g V G = over_pairs w (ham W n T V)).
  { intros T V S. rewrite I by auto. rewrite (contract_ext n T g0 (fun _ _ => 0%Qc) V G0 (fun _ _ _ _ => 0%Qc)) by auto. rewrite contract_zero. apply Qcplus_0_l. }
  split; [|split; [exact I'|split; assumption]].
  intros p q Hp Hq. specialize (I' (fun a b => if (a =? p) && (b =? q) then 1%Qc else 0%Qc) (fun _ _ _ _ => 0%Qc) (zero_sym n)).
  unfold FockSpec.contract in I'. fold (HamProofs7.c2 n (fun a b => if (a =? p) && (b =? q) then 1%Qc else 0%Qc) g) in I'. fold (HamProofs7.c4 n (fun _ _ _ _ => 0%Qc) G) in I'.
  rewrite c2_ind, HamProofs7.c4_zero, Qcplus_0_r in I' by auto. rewrite I'. apply (ordm_entry W n w w p q Hp Hq).
Qed.
Lemma rdm_arrays_ok W n dets C na nb ORDM TRDM : spin_width W -> n <= W / 2 ->
  (forall b, In b dets -> in_space W n b /\ size_is (alpha W b) na /\ size_is (beta W b) nb) ->
  length C = length dets -> zeros (n * n) ORDM -> zeros (n * n * (n * n)) TRDM ->
  exists B1 B2, form_rdms_arrays W n dets C ORDM TRDM = Ok (B1, B2) /\ length B1 = length ORDM /\ length B2 = length TRDM /\
    densities_of W n (combine dets C) (at2 B1 n) (at4 B2 n).
Proof.
  intros HW Hn Hd LC [L1 Z1] [L2 Z2]. unfold form_rdms_arrays.
  rewrite (proj2 (Nat.leb_le _ _) L1), (proj2 (Nat.leb_le _ _) L2). cbn [andb]. rewrite <- LC, mapM_all. cbn [bind]. cbv zeta.
  destruct (rdms_of W n (combine dets C) na nb (fun p q => nth (p + q * n) ORDM 0%Qc) (fun p q r s => nth (p + q * n + r * n * n + s * n * n * n) TRDM 0%Qc) HW Hn) as (g & G & E & D).
  - intros b Hb. apply Hd. apply combine_in in Hb. exact Hb.
  - intros p q Hp Hq. apply Z1. nia.
  - intros p q r s Hp Hq Hr Hs. apply Z2. apply pos4_bound; auto.
  - rewrite E. cbn [bind]. exists (store2 n ORDM g), (store4 n TRDM G). split; [reflexivity|]. split; [apply store2_length|]. split; [apply store4_length|].
    apply (densities_ext W n _ g G); [|  |exact D].
    + intros p q Hp Hq. symmetry. apply store2_at; auto.
    + intros p q r s Hp Hq Hr Hs. symmetry. apply store4_at; auto.
Qed.

(** ** the guess of length one is used *)
Lemma inject_pos n : 0 < n -> (0 < inject n)%Qc.
Proof. intros H. unfold inject, Qclt. cbn [this Q2Qc]. rewrite !Qred_correct. unfold Qlt. cbn. lia. Qed.
Lemma inject_le n m : n <= m -> (inject n <= inject m)%Qc.
Proof. intros H. unfold inject, Qcle. cbn [this Q2Qc]. rewrite !Qred_correct. unfold Qle. cbn. lia. Qed.
Lemma sum_bound (f : nat -> Qc) b n : (forall i, i < n -> (f i <= b)%Qc) -> (Sigma n f <= inject n * b)%Qc.
Proof.
  intros H. induction n as [|n IH]; [cbn; rewrite Qcmult_0_l; apply Qcle_refl|].
  unfold Sigma in *. rewrite seq_S, sum_app, inject_S. cbn [sum]. rewrite Qcplus_0_r. replace ((1 + inject n) * b)%Qc with (inject n * b + b)%Qc by ring.
  apply Qcplus_le_compat; [apply IH; intros i Hi; apply H; lia|apply H; lia].
Qed.
Lemma keep_unit (C : list Qc) : 2 <= length C -> dot (length C) C C = 1%Qc -> keep_guess C = Ok true.
Proof.
  intros L D. unfold keep_guess. destruct (max_abs_ok C) as (m & Em & Hm & _ & Hmax); [intros ->; cbn in L; lia|].
  rewrite Em. cbn [bind]. unfold fdiv. destruct (Qc_eq_dec (inject (length C)) 0) as [Z|NZ].
  { exfalso. assert (P : (0 < inject (length C))%Qc) by (apply inject_pos; lia). rewrite Z in P. exact (Qclt_not_eq _ _ P eq_refl). }
  cbn [bind]. f_equal. destruct (qlt (1 / inject (length C)) m) eqn:E; [reflexivity|exfalso].
  apply qlt_false in E.
  assert (SQ : forall a, (0 <= a)%Qc -> (a <= m)%Qc -> (a * a <= m * m)%Qc).
  { intros a. revert Hm. clear. unfold Qcle, Qcmult. cbn [this Q2Qc]. rewrite !Qred_correct. nra. }
  assert (B : (1 <= inject (length C) * (m * m))%Qc).
  { rewrite <- D at 1. unfold dot. apply sum_bound. intros i Hi. specialize (Hmax i Hi). rewrite qabs_std in Hmax.
    specialize (SQ _ (Qcabs_nonneg _) Hmax). rewrite <- Qcabs_Qcmult in SQ. eapply Qcle_trans; [apply Qcle_Qcabs|exact SQ]. }
  assert (X : (inject (length C) * m <= 1)%Qc).
  { replace 1%Qc with (inject (length C) * (1 / inject (length C)))%Qc by (field; exact NZ). rewrite (Qcmult_comm _ m), (Qcmult_comm _ (1 / _)). apply Qcmult_le_compat_r; [exact E|]. apply Qclt_le_weak, inject_pos. lia. }
  assert (Y : (inject 2 <= inject (length C))%Qc) by (apply inject_le; exact L).
  revert Hm B X Y. clear. generalize (inject (length C)). intros x. unfold Qcle, Qcmult. cbn [this Q2Qc]. rewrite !Qred_correct.
  change (inject 2 : Q) with (2 # 1). intros Hm B X Y. change (this 1%Qc) with 1%Q in *. change (this 0%Qc) with 0%Q in *.
  assert (1 <= this m)%Q by nra. nra.
Qed.

(** ** the diagonalisation started from nothing or from a vector of length one *)
Lemma resize_same n (C : list Qc) : length C = n -> resize n C = C.
Proof. intros <-. unfold resize. rewrite firstn_all, Nat.sub_diag. apply app_nil_r. Qed.
Definition guess (n : nat) (C : list Qc) : Prop := C = [] \/ (length C = n /\ dot n C C = 1%Qc).
Lemma serial_exact root syev H max_m tol C E Y : clean H -> symmetric2 (csr_m H) (csr_entry H) -> exact_root root -> eigensolver syev ->
  guess (csr_m H) C -> serial_selected_ci_diag root syev H max_m tol C (Ok (E, Y)) ->
  dot (csr_m H) Y Y = 1%Qc /\ expectation (csr_m H) (csr_entry H) Y = E /\ forall b, spectrum_above (csr_m H) (csr_entry H) b -> (b <= E)%Qc.
Proof.
  intros CL SY HR HE [->|[LC DC]] H0.
  - destruct (serial_variational _ _ _ _ _ _ _ _ CL SY HR HE (fun j => nth_overflow (@nil Qc) 0%Qc (Nat.le_0_l j)) H0) as (A1 & A2 & _ & A4). auto.
  - destruct (serial_inv _ _ _ _ _ _ _ _ CL H0) as (HM & it & C' & HD & LC' & G). pose proof CL as (Wf & En & ND).
    pose proof (multiplies_of _ _ _ (sparse_multiplies H Wf En)) as MU.
    destruct (Nat.le_gt_cases (csr_m H) 1) as [S1|G1].
    + exfalso. refine (davidson_small _ _ _ _ _ _ _ _ _ _ MU _ HD). lia.
    + rewrite (resize_same _ _ LC) in G. rewrite (keep_unit C) in G by (rewrite LC; auto). destruct G as [(_ & ->)|(K & _)]; [|discriminate].
      destruct (run_variational _ _ _ _ _ _ _ _ _ _ _ _ MU HR HE SY DC HD) as (A1 & A2 & _ & A4). auto.
Qed.
Lemma ci_exact root syev W h thr sds na nb max_m tol C E Y : spin_width W -> norb h <= W / 2 ->
  (forall p q, p < norb h -> q < norb h -> T_pq h p q = T_pq h q p) ->
  (forall p q r s, p < norb h -> q < norb h -> r < norb h -> s < norb h -> V_pqrs h p q r s = V_pqrs h r s p q /\ V_pqrs h p q r s = V_pqrs h q p s r) ->
  (forall b, In b sds -> in_space W (norb h) b /\ size_is (alpha W b) na /\ size_is (beta W b) nb) -> (0 <= thr)%Qc ->
  exact_root root -> eigensolver syev -> guess (length sds) C ->
  selected_ci_diag root syev W h sds thr max_m tol C (Ok (E, Y)) ->
  dot (length sds) Y Y = 1%Qc /\ expectation (length sds) (ci_matrix W h thr sds) Y = E /\
  forall b, spectrum_above (length sds) (ci_matrix W h thr sds) b -> (b <= E)%Qc.
Proof.
  intros HW Hn HT HV Hd Ht HR HE HC H0.
  destruct (ci_built W h thr sds na nb HW Hn (fun p q r s Hp Hq Hr Hs => proj1 (HV p q r s Hp Hq Hr Hs)) Hd Ht) as (H & EH & CL & Em & F).
  unfold selected_ci_diag in H0. apply det_inv in H0. destruct H0 as (H' & EH' & H0). rewrite EH in EH'. injection EH' as <-.
  assert (SY : symmetric2 (csr_m H) (csr_entry H)).
  { rewrite Em. intros i j Hi Hj. rewrite !F by assumption. apply (ci_symmetric W h thr sds HT (fun p q r s Hp Hq Hr Hs => proj2 (HV p q r s Hp Hq Hr Hs)) (length sds)); assumption. }
  rewrite <- Em in HC. destruct (serial_exact _ _ _ _ _ _ _ _ CL SY HR HE HC H0) as (A1 & A2 & A4). rewrite Em in *.
  split; [exact A1|]. split; [rewrite <- (expectation_ext _ _ _ _ F); exact A2|].
  intros b Hb. apply A4. intros x. rewrite (expectation_ext _ _ _ _ F). apply Hb.
Qed.

(** ** the CI step *)
Section CI.
  Variables (root : Qc -> Qc) (syev : nat -> list Qc -> res (list Qc * list Qc)) (W : nat) (HW : spin_width W) (st : settings) (na nalpha nbeta : nat).
  Hypothesis Hn : na <= W / 2.
  Hypothesis Ha : nalpha <= na.
  Hypothesis Hb : nbeta <= na.
  Hypothesis Ht : (0 <= ci_matel_tol st)%Qc.
  Variables (dets : list N) (fuel : nat).
  Hypothesis Hs : whole_space W na nalpha nbeta dets.
  Hypothesis Hg : generate_hilbert_space fuel W na nalpha nbeta = Ok dets.
  Local Notation thr := (ci_matel_tol st).
  Local Notation tol := (ci_res_tol st).
  Local Notation hm TA VA := (mk_ints na (at2 TA na) (at4 VA na)).
  Lemma ci_step TA VA Z1 Z2 X r : na * na <= length TA -> na * na * (na * na) <= length VA -> symmetric2 na (at2 TA na) -> eightfold na (at4 VA na) ->
    zeros (na * na) Z1 -> zeros (na * na * (na * na)) Z2 ->
    compute_casci_rdms root syev fuel W st na nalpha nbeta TA VA Z1 Z2 X (Ok r) ->
    exists e B1 B2 Y, r = (e, B1, B2, Y) /\ length B1 = length Z1 /\ length B2 = length Z2 /\ length Y = length dets /\
      selected_ci_diag root syev W (hm TA VA) dets thr (ci_max_subspace st) tol X (Ok (e, Y)) /\
      (root (residual2 (length dets) (ci_matrix W (hm TA VA) thr dets) e Y) < tol)%Qc /\
      densities_of W na (combine dets Y) (at2 B1 na) (at4 B2 na).
  Proof.
    intros LT LV ST SV HZ1 HZ2 H. unfold compute_casci_rdms in H.
    apply det_inv in H. destruct H as (h & Eh & H). unfold span_ints in Eh. rewrite (proj2 (Nat.leb_le _ _) LT), (proj2 (Nat.leb_le _ _) LV) in Eh. cbn [andb] in Eh.
    injection Eh as <-. apply det_inv in H. destruct H as (d & Ed & H). rewrite Hg in Ed. injection Ed as <-.
    apply nd_inv in H. destruct H as ([e Y] & HD & H).
    destruct Hs as [_ Hin].
    assert (Hd : forall b, In b dets -> in_space W na b /\ size_is (alpha W b) nalpha /\ size_is (beta W b) nbeta) by (intros b I; apply Hin; exact I).
    destruct (ci_diag root syev W (hm TA VA) thr dets nalpha nbeta (ci_max_subspace st) tol X e Y HW Hn) as [LY R]; auto.
    { intros p q r' s Hp Hq Hr Hs'. apply SV; auto. }
    destruct (rdm_arrays_ok W na dets Y nalpha nbeta Z1 Z2 HW Hn Hd LY HZ1 HZ2) as (B1 & B2 & EB & L1 & L2 & D).
    apply det_inv in H. destruct H as ([B1' B2'] & EB' & H). pose proof (eq_trans (eq_sym EB) EB') as Q. injection Q as <- <-. cbn [fst snd] in H. injection H as ->.
    exists e, B1, B2, Y. split; [reflexivity|]. split; [exact L1|]. split; [exact L2|]. split; [exact LY|]. split; [exact HD|]. split; [exact R|exact D].
  Qed.
  Lemma ci_solves TA VA Z1 Z2 X e B1 B2 Y : na * na <= length TA -> na * na * (na * na) <= length VA -> symmetric2 na (at2 TA na) -> eightfold na (at4 VA na) ->
    zeros (na * na) Z1 -> zeros (na * na * (na * na)) Z2 ->
    compute_casci_rdms root syev fuel W st na nalpha nbeta TA VA Z1 Z2 X (Ok (e, B1, B2, Y)) ->
    length B1 = length Z1 /\ length B2 = length Z2 /\ ci_solution root W nalpha nbeta na thr tol TA VA e B1 B2.
  Proof.
    intros LT LV ST SV HZ1 HZ2 H. destruct (ci_step _ _ _ _ _ _ LT LV ST SV HZ1 HZ2 H) as (e' & B1' & B2' & Y' & E & L1 & L2 & LY & _ & R & D).
    injection E as <- <- <- <-. split; [exact L1|]. split; [exact L2|]. exists dets, Y. auto.
  Qed.
  Lemma ci_solves_exact TA VA Z1 Z2 X e B1 B2 Y : exact_root root -> eigensolver syev -> guess (length dets) X ->
    na * na <= length TA -> na * na * (na * na) <= length VA -> symmetric2 na (at2 TA na) -> eightfold na (at4 VA na) ->
    zeros (na * na) Z1 -> zeros (na * na * (na * na)) Z2 ->
    compute_casci_rdms root syev fuel W st na nalpha nbeta TA VA Z1 Z2 X (Ok (e, B1, B2, Y)) ->
    length B1 = length Z1 /\ length B2 = length Z2 /\ guess (length dets) Y /\ ci_ground root W nalpha nbeta na thr tol TA VA e B1 B2.
  Proof.
    intros HR HE HX LT LV ST SV HZ1 HZ2 H. destruct (ci_step _ _ _ _ _ _ LT LV ST SV HZ1 HZ2 H) as (e' & B1' & B2' & Y' & E & L1 & L2 & LY & HD & R & D).
    injection E as <- <- <- <-. destruct Hs as [_ Hin].
    destruct (ci_exact root syev W (hm TA VA) thr dets nalpha nbeta (ci_max_subspace st) tol X e Y HW Hn) as (A1 & A2 & A3); auto.
    { intros p q r s Hp Hq Hr Hs'. destruct (SV p q r s Hp Hq Hr Hs') as [S1 S2]. split; [exact S1|]. cbn.
      destruct (SV q p r s Hq Hp Hr Hs') as [S3 _]. destruct (SV r s q p Hr Hs' Hq Hp) as [_ S4]. destruct (SV s r q p Hs' Hr Hq Hp) as [S5 _].
      rewrite S2, S3, S4, S5. reflexivity. }
    { intros b I. apply Hin. exact I. }
    split; [exact L1|]. split; [exact L2|]. split; [right; auto|]. exists dets, Y. auto 10.
  Qed.
End CI.

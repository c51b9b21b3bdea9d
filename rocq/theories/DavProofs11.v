From Coq Require Import QArith Qcanon.
From Verif Require Import Base SD Spec FockSpec Nondet SlaterCondon Ham HamProofs HamProofs5 Asci AsciSort Mem MemProofs Sums SparseSpec CsrView Sparse SparseProofs3 Spmv SpmvSpec Dist DistProofs
  Collective CollectiveProofs SpmvGlue PropsHamGlue Diis
  DenseSpec DenseProofs DiisSpec DiisProofs DiisProofs2 RotProofs LinRespProofs ExpandProofs FockMatProofs PSpmvProofs2 Davidson DavSpec DavProofs DavProofs2 DavProofs3 DavProofs4 DavProofs5 DavProofs6 DavProofs7 DavProofs8 DavProofs9 DavProofs10.
Local Open Scope nat_scope.
Local Opaque allreduce_one allreduce INT_MAX.

Lemma keep_zero n b : keep_guess (repeat 0%Qc n) = Ok b -> b = false.
Proof.
  unfold keep_guess. intros K. destruct n as [|m]; [discriminate K|]. cbn [repeat max_abs] in K.
  assert (MZ : max_from (fun a b => qlt (Qcabs a) (Qcabs b)) 0%Qc (repeat 0%Qc m) = 0%Qc).
  { clear. induction m as [|m IH]; [reflexivity|]. cbn [repeat max_from]. destruct (qlt (Qcabs 0) (Qcabs 0)); exact IH. }
  rewrite MZ in K. cbn in K. rewrite repeat_length in K. unfold fdiv in K. destruct (Qc_eq_dec (inject (S m)) 0) as [|NZ]; [discriminate|]. cbn in K.
  injection K as <-. match goal with |- ?q = false => destruct q eqn:K; [|reflexivity] end. exfalso. apply qlt_true in K.
  assert (P : (0 < 1 / inject (S m))%Qc).
  { unfold Qcdiv. rewrite Qcmult_1_l. clear - NZ. unfold inject in *. unfold Qclt, Qcinv. cbn [this Q2Qc]. rewrite !Qred_correct.
    apply Qinv_lt_0_compat. unfold Qlt. cbn. lia. }
  exact (Qclt_not_le _ _ P (Qclt_le_weak _ _ K)).
Qed.

Section NOGUESS.
  Variables (M P : nat) (tiles : list (nat * nat)) (As : list dist_csr) (A : nat -> nat -> Qc) (C : list (list Qc)).
  Hypothesis PA : parts_of M tiles As A.
  Hypothesis IS : int_sizes tiles As.
  Hypothesis DT : default_tiles M P = Ok tiles.
  Hypothesis HP : 0 < P.
  Hypothesis ND : forall r B i, nth_error As r = Some B -> i < csr_m (d_diag B) -> NoDup (map fst (csr_line (d_diag B) i)).
  Hypothesis LC : length C = P.
  Hypothesis HC : forall r j, nth j (nth r C []) 0%Qc = 0%Qc.

  Lemma parallel_start root syev dbg max_m tol Es Ys : root 0%Qc = 0%Qc ->
    parallel_selected_ci_diag root syev dbg As max_m tol C (Ok (Es, Ys)) ->
    exists it E m X, Es = repeat E P /\ shaped (extents tiles) Ys /\ m = min_element (diag_of_matrix M A) /\ smallest_at (diag_of_matrix M A) m /\ m < P * (M / P) /\ X = unit_vector M m /\
      davidson_run root syev M max_m (fun v _ => ret (mv M A v)) (diag_of_matrix M A) tol X (Ok (it, E, concat Ys)).
  Proof.
    intros HR H. pose proof (tiles_len M P tiles DT HP) as LT. pose proof PA as (T & LA & HA).
    destruct (parallel_inv root syev dbg M tiles As A max_m tol C Es Ys PA IS ltac:(lia) ltac:(lia) H) as (it & E & D & C' & E1 & SY & SC & SD & ED & Pos & (keep & HK & G) & HS).
    set (C1 := map (fun NC => resize (fst NC) (snd NC)) (combine (extents tiles) C)) in *.
    assert (SC1 : shaped (extents tiles) C1) by (apply resize_shaped; rewrite extents_length; lia).
    assert (Z1 : forall r, r < P -> nth r C1 [] = repeat 0%Qc (nth r (extents tiles) 0)).
    { intros r Hr. unfold C1. rewrite (nth_indep _ _ (resize (fst (0, @nil Qc)) (snd (0, @nil Qc)))) by (rewrite map_length, combine_length, extents_length; lia).
      rewrite (map_nth (fun NC => resize (fst NC) (snd NC))), combine_nth by (rewrite extents_length; lia). cbn [fst snd]. apply resize_zero. apply HC. }
    assert (LC1 : length C1 = P) by (destruct SC1 as [L1 _]; rewrite extents_length in L1; lia).
    assert (HM : 0 < M). { specialize (Pos 0 ltac:(lia)). rewrite <- (extents_total _ _ T). pose proof (start_lt (extents tiles) 0 0 ltac:(rewrite extents_length; lia) Pos). lia. }
    destruct G as [(KT & _)|(_ & HG)].
    - exfalso. apply mapM_inv in HK. destruct HK as [LK FK]. specialize (FK 0 [] false ltac:(lia)). rewrite Z1 in FK by exact HP. apply keep_zero in FK.
      destruct keep as [|k keep]; [cbn in LK; lia|]. cbn in FK. subst k. discriminate KT.
    - destruct (guess_ok M P tiles As A PA DT HP ND C1 C' SC1 HM HG) as (m & EM & SM & SC' & G1 & G2).
      destruct (locals_diag M P tiles As A PA HP ND D ED) as [_ EDD]. rewrite EDD in HS.
      exists it, E, m, (concat C'). rewrite LT in E1. split; [exact E1|]. split; [exact SY|]. split; [exact EM|]. split; [exact SM|].
      destruct (Nat.lt_ge_cases m (P * (M / P))) as [L|G].
      + split; [exact L|]. split; [apply G1; exact L|exact HS].
      + exfalso. eapply (run_zero root syev M max_m A); [apply mv_multiplies|exact HR| |exact HS].
        intros i Hi. rewrite (G2 G). apply nth_repeat.
  Qed.
  Lemma unit_nth m i : i < M -> nth i (unit_vector M m) 0%Qc = if i =? m then 1%Qc else 0%Qc.
  Proof. intros H. unfold unit_vector. rewrite nth_map_seq by exact H. reflexivity. Qed.
  Lemma parallel_variational root syev dbg max_m tol Es Ys : symmetric2 M A -> exact_root root -> eigensolver syev ->
    parallel_selected_ci_diag root syev dbg As max_m tol C (Ok (Es, Ys)) ->
    exists E, Es = repeat E P /\ dot M (concat Ys) (concat Ys) = 1%Qc /\ expectation M A (concat Ys) = E /\
      (forall i, i < M -> (E <= A i i)%Qc) /\ forall b, spectrum_above M A b -> (b <= E)%Qc.
  Proof.
    intros SA HR HE H. destruct (parallel_start root syev dbg max_m tol Es Ys (root_zero root HR) H) as (it & E & m & X & E1 & SY & _ & (Lm & SM) & Lq & EX & HS).
    assert (LD : length (diag_of_matrix M A) = M) by (unfold diag_of_matrix; rewrite map_length, seq_length; reflexivity). rewrite LD in *.
    assert (U1 : nth m X 0%Qc = 1%Qc) by (rewrite EX, unit_nth by exact Lm; rewrite Nat.eqb_refl; reflexivity).
    assert (U2 : forall j, j <> m -> nth j X 0%Qc = 0%Qc).
    { intros j NE. destruct (Nat.lt_ge_cases j M) as [L|G]; [|apply nth_overflow; rewrite EX; unfold unit_vector; rewrite map_length, seq_length; exact G].
      rewrite EX, unit_nth by exact L. destruct (Nat.eqb_spec j m); [contradiction|reflexivity]. }
    destruct (run_variational _ _ _ _ _ _ _ _ _ _ _ _ (mv_multiplies M A) HR HE SA (dot_unit _ _ m Lm U1 U2) HS) as (A1 & A2 & A3 & A4).
    exists E. split; [exact E1|]. split; [exact A1|]. split; [exact A2|]. split; [|exact A4].
    intros i Hi. rewrite (expectation_unit _ _ _ m Lm U1 U2) in A3. eapply Qcle_trans; [exact A3|]. specialize (SM i Hi).
    unfold diag_of_matrix in SM. rewrite !nth_map_seq in SM by assumption. exact SM.
  Qed.
End NOGUESS.

(** ** the Hamiltonian of the determinants *)
Lemma filter_nodup {X} (p : nat * X -> bool) l : NoDup (map fst l) -> NoDup (map fst (filter p l)).
Proof.
  induction l as [|x l IH]; cbn [map filter]; intros H; [exact H|]. apply NoDup_cons_iff in H. destruct H as [H1 H2]. destruct (p x); [|apply IH; exact H2].
  cbn [map]. constructor; [|apply IH; exact H2]. intros I. apply H1. apply in_map_iff in I. destruct I as (y & E & Hy). apply filter_In in Hy. rewrite <- E. apply in_map. tauto.
Qed.
Lemma ham_parts W h thr sds na nb P : spin_width W -> norb h <= W / 2 ->
  (forall p q r s, p < norb h -> q < norb h -> r < norb h -> s < norb h -> V_pqrs h p q r s = V_pqrs h r s p q) ->
  (forall b, In b sds -> in_space W (norb h) b /\ size_is (alpha W b) na /\ size_is (beta W b) nb) -> (0 <= thr)%Qc ->
  0 < P -> (Z.of_nat (length sds * P) < 2 ^ 31)%Z ->
  exists tiles As, default_tiles (length sds) P = Ok tiles /\ length tiles = P /\
    mapM (fun r => do B <- make_dist_csr_hamiltonian W h thr sds P r; Ok (mk_dist (length sds) tiles (fst B) (snd B))) (seq 0 P) = Ok As /\
    parts_of (length sds) tiles As (ci_matrix W h thr sds) /\ int_sizes tiles As /\
    forall r B i, nth_error As r = Some B -> i < csr_m (d_diag B) -> NoDup (map fst (csr_line (d_diag B) i)).
Proof.
  intros HW Hn Vsym Gd Ht HP HZ.
  pose proof (dist_csr_ok W h thr sds na nb P) as DC.
  destruct (default_tiles_ok (length sds) P HP) as (tiles & Et & Lt & Tt).
  destruct (ci_built W h thr sds na nb HW Hn Vsym Gd Ht) as (A & EA & CL & Em & FA).
  set (dflt := mk_dist 0 [] (mk_csr 0 0 0 [] [] []) None).
  set (As := map (fun r => match make_dist_csr_hamiltonian W h thr sds P r with
      | Ok (D, Of) => mk_dist (length sds) tiles D Of | Err _ => dflt end) (seq 0 P)).
  assert (LA : length As = P) by (unfold As; rewrite map_length, seq_length; auto).
  assert (HA : forall r, r < P -> exists D Of lo hi, make_dist_csr_hamiltonian W h thr sds P r = Ok (D, Of) /\
      nth_error As r = Some (mk_dist (length sds) tiles D Of) /\ nth_error tiles r = Some (lo, hi) /\
      dist_part (length sds) tiles r (mk_dist (length sds) tiles D Of) /\
      (forall i, i < csr_m D -> NoDup (map fst (csr_line D i))) /\
      forall i j, i < hi - lo -> j < length sds -> dist_entry (mk_dist (length sds) tiles D Of) lo hi i j = csr_entry A (lo + i) j).
  { intros r Hr. destruct (DC r HW Hn Vsym Gd HP Hr) as (t & st & en & A' & D & Of & Et' & Er & Hse & EA' & ED & WD & mD & nD & RD & RO & R1).
    assert (t = tiles) by congruence. assert (A' = A) by congruence. subst t A'.
    exists D, Of, st, en. split; auto. split.
    { rewrite (nth_error_nth' As dflt) by lia. unfold As. rewrite nth_map_seq by auto. rewrite ED. reflexivity. }
    split; auto.
    assert (OUT : forall B, Of = Some B -> 1 < P).
    { intros B EB. destruct (Nat.lt_ge_cases 1 P) as [L|L]; auto. destruct (R1 L) as [X _]. congruence. }
    split; [|split].
    - split; [reflexivity|]. split; [reflexivity|]. exists st, en. do 4 (split; [auto|]). cbn [d_diag d_off].
      intros B EB. destruct (RO (OUT B EB)) as (B' & EB' & WB & mB & nB & RB). assert (B' = B) by congruence. subst B'.
      split; auto. split; auto. split; auto. split.
      + subst Of. unfold make_dist_csr_hamiltonian in ED. rewrite Et in ED. cbn [bind] in ED. rewrite Er in ED.
        eapply dist_ind; eauto.
      + intros c Hc. assert (iB : csr_ind B = 0).
        { subst Of. unfold make_dist_csr_hamiltonian in ED. rewrite Et in ED. cbn [bind] in ED. rewrite Er in ED.
          eapply dist_ind; eauto. }
        destruct (colind_in_line B c WB Hc) as (i & cv & Hi & Hcv & Ec). rewrite iB in Ec. cbn [plus] in Ec.
        rewrite RB in Hcv by lia. apply filter_In in Hcv. destruct Hcv as [_ Hcv]. unfold inside in Hcv. rewrite Ec in Hcv.
        destruct (Nat.leb_spec st c); destruct (Nat.ltb_spec c en); cbn in Hcv; try discriminate; lia.
    - intros i Hi. rewrite mD in Hi.
      assert (X : NoDup (map fst (map (fun cv : nat * Qc => (fst cv + st, snd cv)) (csr_line D i)))).
      { rewrite RD by exact Hi. apply filter_nodup. apply CL. rewrite Em. lia. }
      rewrite map_map in X. cbn [fst] in X. rewrite <- (map_map fst (fun c => c + st)) in X. apply NoDup_map_inv in X. exact X.
    - intros i j Hi Hj. unfold dist_entry. cbn [d_diag d_off].
      destruct (Nat.leb_spec st j) as [L1|L1]; [destruct (Nat.ltb_spec j en) as [L2|L2]|]; cbn [andb].
      + unfold csr_entry, entry.
        rewrite (sum_ext _ _ (fun cv => (fun cv' : nat * Qc => if fst cv' =? j then snd cv' else 0%Qc) (fst cv + st, snd cv))).
        2:{ intros cv _. cbn [fst snd]. destruct (Nat.eqb_spec (fst cv) (j - st)); destruct (Nat.eqb_spec (fst cv + st) j); auto; lia. }
        rewrite <- (sum_map (fun cv : nat * Qc => (fst cv + st, snd cv)) (csr_line D i) (fun cv' : nat * Qc => if fst cv' =? j then snd cv' else 0%Qc)). rewrite RD by auto.
        rewrite sum_filter. apply sum_ext. intros cv _. unfold inside.
        destruct (Nat.eqb_spec (fst cv) j) as [->|]; [|destruct (_ && _); reflexivity].
        apply Nat.leb_le in L1. apply Nat.ltb_lt in L2. rewrite L1, L2. reflexivity.
      + destruct (Nat.lt_ge_cases 1 P) as [L|L].
        * destruct (RO L) as (B & -> & WB & mB & nB & RB). unfold csr_entry. rewrite RB by auto. rewrite entry_filter.
          unfold entry. apply sum_ext. intros cv _. unfold inside.
          destruct (Nat.eqb_spec (fst cv) j) as [->|]; [|destruct (negb _); reflexivity].
          destruct (Nat.ltb_spec j en); [lia|]. rewrite andb_false_r. reflexivity.
        * destruct (R1 L) as (_ & -> & ->). lia.
      + destruct (Nat.lt_ge_cases 1 P) as [L|L].
        * destruct (RO L) as (B & -> & WB & mB & nB & RB). unfold csr_entry. rewrite RB by auto. rewrite entry_filter.
          unfold entry. apply sum_ext. intros cv _. unfold inside.
          destruct (Nat.eqb_spec (fst cv) j) as [->|]; [|destruct (negb _); reflexivity].
          destruct (Nat.leb_spec st j); [lia|]. reflexivity.
        * destruct (R1 L) as (_ & -> & ->). lia. }
  exists tiles, As. split; [exact Et|]. split; [exact Lt|]. split.
  { unfold As. apply mapM_ok. intros r Hr. apply in_seq in Hr. destruct (HA r ltac:(lia)) as (D & Of & lo & hi & E1 & _). rewrite E1. reflexivity. }
  split; [|split; [split|]].
  - split; [exact Tt|]. split; [lia|]. intros r B EB. assert (Hr : r < P) by (rewrite <- LA; apply nth_error_Some; congruence).
    destruct (HA r Hr) as (D & Of & lo & hi & _ & E1 & E2 & DP & _ & DE). assert (B = mk_dist (length sds) tiles D Of) by congruence. subst B.
    split; [exact DP|]. intros lo' hi' i j Et' Hi Hj. assert (lo' = lo /\ hi' = hi) as [-> ->] by (rewrite E2 in Et'; inversion Et'; auto).
    pose proof (tiling_nth _ _ _ Tt _ _ _ E2) as (_ & B1 & B2). rewrite DE by assumption. apply FA; [lia|exact Hj].
  - intros r A0 _. assert (received tiles A0 <= length sds * P); [|lia].
    unfold received. etransitivity; [apply (list_sum_le _ (fun t => snd t - fst t)); intros; apply demand_le|].
    rewrite (tiles_total _ _ _ Tt). nia.
  - intros r t Er. assert (sent As t <= length sds * P); [|lia]. unfold sent.
    etransitivity; [apply (list_sum_le _ (fun _ => length sds))|].
    + intros x. etransitivity; [apply demand_le|]. destruct t as [lo hi]. destruct (tiling_nth _ _ _ Tt _ _ _ Er). cbn. lia.
    + rewrite <- LA. clearbody As. clear. induction As as [|x l IH]; cbn; [lia|]. unfold list_sum in IH. cbn in IH. nia.
  - intros r B i EB Hi. assert (Hr : r < P) by (rewrite <- LA; apply nth_error_Some; congruence).
    destruct (HA r Hr) as (D & Of & lo & hi & _ & E1 & _ & _ & NDD & _). assert (B = mk_dist (length sds) tiles D Of) by congruence. subst B. apply NDD. exact Hi.
Qed.

Lemma p_ci_residual root syev dbg W h thr sds na nb P max_m tol C Es Ys : spin_width W -> norb h <= W / 2 ->
  (forall p q r s, p < norb h -> q < norb h -> r < norb h -> s < norb h -> V_pqrs h p q r s = V_pqrs h r s p q) ->
  (forall b, In b sds -> in_space W (norb h) b /\ size_is (alpha W b) na /\ size_is (beta W b) nb) -> (0 <= thr)%Qc ->
  0 < P -> (Z.of_nat (length sds * P) < 2 ^ 31)%Z -> length C = P ->
  p_selected_ci_diag root syev dbg W h sds thr P max_m tol C (Ok (Es, Ys)) ->
  exists E, Es = repeat E P /\ length (concat Ys) = length sds /\ (root (residual2 (length sds) (ci_matrix W h thr sds) E (concat Ys)) < tol)%Qc.
Proof.
  intros HW Hn Vsym Gd Ht HP HZ LC H. destruct (ham_parts W h thr sds na nb P HW Hn Vsym Gd Ht HP HZ) as (tiles & As & ET & LT & EAs & PA & IS & ND).
  unfold p_selected_ci_diag in H. apply det_inv in H. destruct H as (t & Et & H). rewrite ET in Et. injection Et as <-.
  apply det_inv in H. destruct H as (As' & EAs' & H). rewrite EAs in EAs'. injection EAs' as <-.
  destruct (parallel_inv root syev dbg _ _ _ _ max_m tol C Es Ys PA IS ltac:(lia) ltac:(lia) H) as (it & E & D & C' & E1 & SY & _ & _ & _ & _ & _ & HS).
  exists E. rewrite LT in E1. split; [exact E1|]. split; [rewrite (glue_length _ _ SY); apply (extents_total _ _ (proj1 PA))|].
  destruct (run_converged _ _ _ _ _ _ _ _ _ _ _ _ (mv_multiplies _ _) HS) as (_ & _ & R). exact R.
Qed.
Lemma p_ci_variational root syev dbg W h thr sds na nb P max_m tol C Es Ys : spin_width W -> norb h <= W / 2 ->
  (forall p q, p < norb h -> q < norb h -> T_pq h p q = T_pq h q p) ->
  (forall p q r s, p < norb h -> q < norb h -> r < norb h -> s < norb h -> V_pqrs h p q r s = V_pqrs h r s p q /\ V_pqrs h p q r s = V_pqrs h q p s r) ->
  (forall b, In b sds -> in_space W (norb h) b /\ size_is (alpha W b) na /\ size_is (beta W b) nb) -> (0 <= thr)%Qc ->
  0 < P -> (Z.of_nat (length sds * P) < 2 ^ 31)%Z -> length C = P -> (forall r j, nth j (nth r C []) 0%Qc = 0%Qc) ->
  exact_root root -> eigensolver syev ->
  p_selected_ci_diag root syev dbg W h sds thr P max_m tol C (Ok (Es, Ys)) ->
  exists E, Es = repeat E P /\ dot (length sds) (concat Ys) (concat Ys) = 1%Qc /\ expectation (length sds) (ci_matrix W h thr sds) (concat Ys) = E /\
    (forall i, i < length sds -> (E <= ci_matrix W h thr sds i i)%Qc) /\ forall b, spectrum_above (length sds) (ci_matrix W h thr sds) b -> (b <= E)%Qc.
Proof.
  intros HW Hn HT Vsym Gd Ht HP HZ LC HC HR HE H. destruct (ham_parts W h thr sds na nb P HW Hn ltac:(intros; apply Vsym; assumption) Gd Ht HP HZ) as (tiles & As & ET & LT & EAs & PA & IS & ND).
  unfold p_selected_ci_diag in H. apply det_inv in H. destruct H as (t & Et & H). rewrite ET in Et. injection Et as <-.
  apply det_inv in H. destruct H as (As' & EAs' & H). rewrite EAs in EAs'. injection EAs' as <-.
  eapply (parallel_variational (length sds) P tiles As (ci_matrix W h thr sds) C PA IS ET HP ND LC HC); [|exact HR|exact HE|exact H].
  apply ci_symmetric; [exact HT|]. intros; apply Vsym; assumption.
Qed.

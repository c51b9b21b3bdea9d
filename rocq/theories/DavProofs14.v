(** The distributed diagonalisation returns what the serial one returns. *)
From Coq Require Import QArith Qcanon.
From Verif Require Import Base SD Spec FockSpec Nondet SlaterCondon Ham HamProofs HamProofs5 Asci AsciSort Mem MemProofs Sums SparseSpec CsrView Sparse SparseProofs3 Spmv SpmvSpec Dist DistProofs
  Collective CollectiveProofs SpmvGlue PropsHamGlue Diis
  DenseSpec DenseProofs DiisSpec DiisProofs DiisProofs2 RotProofs LinRespProofs ExpandProofs FockMatProofs PSpmvProofs2 Davidson DavSpec DavProofs DavProofs2 DavProofs3 DavProofs4 DavProofs5 DavProofs6 DavProofs7 DavProofs8 DavProofs9 DavProofs10 DavProofs11 DavProofs13.
Local Open Scope nat_scope.
Local Opaque allreduce_one allreduce INT_MAX.

(** the operator may be replaced by the exact product *)
Lemma mv_eq N A v w : length w = N -> (forall i, i < N -> nth i w 0%Qc = matvec N A v i) -> w = mv N A v.
Proof.
  intros L F. apply (nth_ext' _ _ 0%Qc); [unfold mv; rewrite map_length, seq_length; exact L|]. intros i Hi. rewrite L in Hi. rewrite nth_mv by exact Hi. apply F. exact Hi.
Qed.
Definition full (N : nat) (V : list (list Qc)) : Prop := forall j, j < length V -> length (nth j V []) = N.
Lemma full_put N V i x V' : full N V -> length x = N -> put V i x = Ok V' -> full N V'.
Proof. intros HV Hx H. apply (put_nth []) in H. destruct H as (Hi & L & F). intros j Hj. rewrite F. destruct (j =? i); [exact Hx|]. apply HV. lia. Qed.
Lemma loop_exact root syev N A op D tol : multiplies N A op -> forall rem i V AV X s, full N V -> full N AV ->
  davidson_loop root syev N op D tol rem i V AV X (Ok s) -> davidson_loop root syev N (fun v _ => ret (mv N A v)) D tol rem i V AV X (Ok s).
Proof.
  intros HO. induction rem as [|rem IH]; intros i V AV X s HV HAV H; [exact H|]. cbn [davidson_loop] in *.
  apply det_inv in H. destruct H as (v & Hv & H). eapply det_intro; [exact Hv|]. apply det_inv in H. destruct H as (av & Hav & H). eapply det_intro; [exact Hav|].
  apply nd_inv in H. destruct H as (w & Hw & H).
  apply (at_inv _ _ _ []) in Hv, Hav. destruct Hv as [Lv <-]. destruct Hav as [Lav <-]. destruct (HO _ _ (HV _ Lv) (HAV _ Lav) _ Hw) as [Lw Fw].
  apply mv_eq in Fw; [|exact Lw]. apply ret_intro. rewrite <- Fw.
  apply det_inv in H. destruct H as (AV' & HA & H). eapply det_intro; [exact HA|]. pose proof (full_put _ _ _ _ _ HAV Lw HA) as HAV'.
  apply det_inv in H. destruct H as ((LAM & C) & HRR & H). eapply det_intro; [exact HRR|]. cbn beta iota in *.
  apply det_inv in H. destruct H as (l & Hl & H). eapply det_intro; [exact Hl|].
  apply det_inv in H. destruct H as (X' & HX & H). eapply det_intro; [exact HX|].
  apply det_inv in H. destruct H as (R & HR & H). eapply det_intro; [exact HR|].
  apply det_inv in H. destruct H as (q & Hq & H). eapply det_intro; [exact Hq|].
  destruct (qlt (root q) tol); [exact H|].
  apply det_inv in H. destruct H as (R1 & HR1 & H). eapply det_intro; [exact HR1|].
  apply det_inv in H. destruct H as (R2 & HR2 & H). eapply det_intro; [exact HR2|].
  apply det_inv in H. destruct H as (V' & HV' & H). eapply det_intro; [exact HV'|].
  apply IH; [|exact HAV'|exact H]. eapply full_put; [exact HV| |exact HV']. eapply gs_length; exact HR2.
Qed.
Lemma run_exact root syev N A op D tol max_m X s : multiplies N A op -> length X = N ->
  davidson_run root syev N max_m op D tol X (Ok s) -> davidson_run root syev N max_m (fun v _ => ret (mv N A v)) D tol X (Ok s).
Proof.
  intros HO LX H. unfold davidson_run in *.
  assert (FZ : full N (repeat (repeat 0%Qc N) (max_m + 1))) by (intros j Hj; rewrite repeat_length in Hj; rewrite nth_rep by exact Hj; apply repeat_length).
  apply det_inv in H. destruct H as (x0 & H0 & H). eapply det_intro; [exact H0|]. rewrite slice_all in H0 by exact LX. injection H0 as <-.
  apply det_inv in H. destruct H as (V & HV & H). eapply det_intro; [exact HV|]. pose proof (full_put _ _ _ _ _ FZ LX HV) as FV.
  apply nd_inv in H. destruct H as (w & Hw & H). destruct (HO _ _ LX (repeat_length _ _) _ Hw) as [Lw Fw].
  apply mv_eq in Fw; [|exact Lw]. apply ret_intro. rewrite <- Fw.
  apply det_inv in H. destruct H as (AV & HAV & H). eapply det_intro; [exact HAV|]. pose proof (full_put _ _ _ _ _ FZ Lw HAV) as FAV.
  apply det_inv in H. destruct H as (u & Hu & H). eapply det_intro; [exact Hu|].
  apply det_inv in H. destruct H as (V1 & HV1 & H). eapply det_intro; [exact HV1|]. pose proof (full_put _ _ _ _ _ FV Lw HV1) as FV1.
  apply det_inv in H. destruct H as (v1 & Hv1 & H). eapply det_intro; [exact Hv1|].
  apply det_inv in H. destruct H as (V2 & HV2 & H). eapply det_intro; [exact HV2|].
  eapply loop_exact; [exact HO| |exact FAV|exact H]. eapply full_put; [exact FV1| |exact HV2]. eapply gs_length; exact Hv1.
Qed.

Lemma parts_always dbg M tiles As A : parts_of M tiles As A -> int_sizes tiles As ->
  exists infos, generate_spmv_comm_info dbg As = Ok infos /\ forall v av, shaped (extents tiles) v -> shaped (extents tiles) av ->
    always (pgespmv 1%Qc 0%Qc (combine (combine (combine As v) av) infos)) (fun w => shaped (extents tiles) w /\ concat w = mv (total (extents tiles)) A (concat v)).
Proof.
  intros PA IS. pose proof PA as (T & LA & HA). pose proof IS as [HR HS].
  pose proof (zero_shaped (extents tiles)) as SZ.
  assert (K : forall v av, shaped (extents tiles) v -> shaped (extents tiles) av -> exists infos, generate_spmv_comm_info dbg As = Ok infos /\
     exists Q, always (pgespmv 1%Qc 0%Qc (combine (combine (combine As v) av) infos)) Q).
  { intros v av Sv Sav. pose proof Sv as [Lv Fv]. pose proof Sav as [Lav Fav]. rewrite extents_length in Lv, Fv, Lav, Fav.
    destruct (c42 dbg M tiles As v av (fun j => nth j (concat v) 0%Qc) 1%Qc 0%Qc T LA Lv Lav) as (infos' & EI' & _ & AL).
    - intros r B E. apply (HA r B E).
    - exact HR.
    - exact HS.
    - intros r lo hi E. assert (Hr : r < length tiles) by (apply nth_error_Some; congruence).
      destruct (extents_nth _ _ _ T _ _ _ E) as [E1 E2]. rewrite Fv, Fav by exact Hr. rewrite E2. split; [apply le_n|]. split; [apply le_n|].
      intros p Hp. cbn in E1. rewrite E1. symmetry. apply glue_nth; [exact Sv|rewrite extents_length; exact Hr|rewrite E2; exact Hp].
    - exists infos'. split; [exact EI'|]. eexists. exact AL. }
  destruct (K _ _ SZ SZ) as (infos & EI & _). exists infos. split; [exact EI|]. intros v av Sv Sav.
  destruct (K v av Sv Sav) as (infos' & EI' & Q & AQ). assert (infos' = infos) by congruence. subst infos'.
  pose proof (parts_multiply dbg M tiles As A infos PA IS EI v av Sv Sav) as IR. destruct AQ as [NE AQ]. split; [exact NE|]. intros r Hr. destruct (AQ r Hr) as (w & -> & _).
  exists w. split; [reflexivity|]. apply IR. exact Hr.
Qed.

Section GUESS.
  Variables (M P : nat) (tiles : list (nat * nat)) (As : list dist_csr) (A : nat -> nat -> Qc).
  Hypothesis PA : parts_of M tiles As A.
  Hypothesis DT : default_tiles M P = Ok tiles.
  Hypothesis HP : 0 < P.
  Hypothesis HM : P <= M.
  Hypothesis ND : forall r B i, nth_error As r = Some B -> i < csr_m (d_diag B) -> NoDup (map fst (csr_line (d_diag B) i)).

  Lemma zero_loop_ok n : forall s (X : list Qc), s + n <= length X -> exists X', foldM (seq s n) (fun X i => put X i 0%Qc) X = Ok X' /\ length X' = length X.
  Proof.
    induction n as [|n IH]; intros s X H; [exists X; split; reflexivity|]. cbn [seq foldM]. rewrite put_ok by lia. cbn [bind].
    destruct (IH (S s) (upd X s 0%Qc)) as (X' & E & L); [rewrite upd_length; lia|]. exists X'. split; [exact E|]. rewrite upd_length in L. exact L.
  Qed.
  Lemma extents_pos r : r < P -> 0 < nth r (extents tiles) 0.
  Proof.
    intros Hr. pose proof PA as (T & _). destruct (extents_nth _ _ _ T _ _ _ (tile_at M P tiles DT HP r Hr)) as [_ ->].
    assert (0 < M / P) by (apply Nat.div_str_pos; lia). assert (P * (M / P) <= M) by (apply Nat.mul_div_le; lia). destruct (Nat.eqb_spec (S r) P); nia.
  Qed.
  Lemma locals_total : exists Dl, mapM (fun A => extract_diagonal_elements (d_diag A)) As = Ok Dl.
  Proof.
    apply mapM_ex. intros B HB. apply In_nth_error in HB. destruct HB as (r & HB). pose proof PA as (_ & _ & HA). destruct (HA r B HB) as ((_ & _ & lo & hi & _ & WF & _) & _).
    rewrite extract_diagonal_ok by exact WF. eauto.
  Qed.
  Lemma guess_total C : shaped (extents tiles) C -> exists C', p_diagonal_guess (combine As C) = Ok C'.
  Proof.
    intros SC. pose proof PA as (T & LA & HA). pose proof (tiles_len M P tiles DT HP) as LT. pose proof SC as [LC FC]. rewrite extents_length in LC, FC.
    assert (LI : length (combine As C) = P) by (rewrite combine_length; lia).
    unfold p_diagonal_guess. rewrite LI. destruct locals_total as [Dl HDl].
    assert (HDl' : mapM (fun AX => extract_diagonal_elements (d_diag (fst AX))) (combine As C) = Ok Dl).
    { rewrite <- HDl. transitivity (mapM (fun A => extract_diagonal_elements (d_diag A)) (map fst (combine As C))).
      - clear. induction (combine As C) as [|x l IH]; [reflexivity|]. cbn [map mapM]. rewrite IH. reflexivity.
      - rewrite map_fst_comb by lia. reflexivity. }
    rewrite HDl'. cbn [bind]. destruct (locals_diag M P tiles As A PA HP ND Dl HDl) as [SDl ED]. pose proof SDl as [LDl FDl]. rewrite extents_length in LDl, FDl.
    assert (Lens : map (@length Qc) Dl = extents tiles).
    { apply (nth_ext' _ _ 0); [rewrite map_length, extents_length; exact LDl|]. intros r Hr. rewrite map_length in Hr.
      change 0 with (@length Qc []) at 1. rewrite map_nth. apply FDl. lia. }
    assert (LDM : length (diag_of_matrix M A) = M) by (unfold diag_of_matrix; rewrite map_length, seq_length; reflexivity).
    assert (SM : smallest_at (diag_of_matrix M A) (min_element (diag_of_matrix M A))).
    { apply min_element_ok. intros E. rewrite E in LDM. cbn in LDM. lia. }
    set (m := min_element (diag_of_matrix M A)) in *. destruct SM as [Hm _]. rewrite LDM in Hm.
    set (q := M / P) in *. assert (Hq : 0 < q) by (apply Nat.div_str_pos; lia). assert (QM : P * q <= M) by (apply Nat.mul_div_le; lia).
    apply mapM_ex. intros [r [B X]] HI. apply (In_nth _ _ (0, (mk_dist 0 [] (mk_csr 0 0 0 [] [] []) None, []))) in HI.
    destruct HI as (r' & Hr' & EI). rewrite combine_length, seq_length, LI, Nat.min_id in Hr'.
    rewrite combine_nth in EI by (rewrite seq_length; lia). rewrite seq_nth in EI by exact Hr'. cbn [plus] in EI.
    rewrite combine_nth in EI by lia. destruct (nth_error_ex As r' ltac:(lia)) as [B' EB]. rewrite (nth_error_nth As r' _ EB) in EI. injection EI as <- <- <-. rename r' into r. rename Hr' into Hr.
    destruct (HA r B' EB) as ((_ & Et & _) & _).
    assert (RX : forall i, i < P -> row_extent B' i = Ok (nth i (extents tiles) 0)).
    { intros i Hi. unfold row_extent. rewrite Et. rewrite (at_ok _ _ (0, 0)) by lia. cbn [bind]. f_equal.
      rewrite (map_nth (fun t : nat * nat => snd t - fst t) tiles (0, 0) i : nth i (extents tiles) 0 = _). reflexivity. }
    assert (HRC : mapM (row_extent B') (seq 0 P) = Ok (extents tiles)).
    { apply (mapM_seq_intro _ _ _ 0); [rewrite extents_length; exact LT|exact RX]. }
    rewrite HRC. cbn [bind].
    assert (AG : MPI_Allgatherv Dl (map Z.of_nat (row_starts_from 0 (extents tiles))) (repeat 0%Qc (last (row_starts_from 0 (extents tiles)) 0)) = Ok (concat Dl)).
    { assert (X : MPI_Allgatherv Dl (starts 0 (lens Dl)) (repeat 0%Qc (last (row_starts_from 0 (extents tiles)) 0)) = Ok (concat Dl)).
      { apply MPI_Allgatherv_ok. rewrite repeat_length, starts_last, (glue_length _ _ SDl). reflexivity. }
      unfold MPI_Allgatherv in *. rewrite (starts_eq _ 0 Dl Lens). exact X. }
    rewrite AG. cbn [bind]. rewrite ED. fold m. rewrite (RX r Hr). cbn [bind].
    destruct (zero_loop_ok (nth r (extents tiles) 0) 0 (nth r C [])) as (X1 & E1 & L1); [rewrite FC by lia; apply le_n|]. rewrite E1. cbn [bind].
    rewrite (at_ok _ _ 0) by (rewrite extents_length; lia). cbn [bind]. pose proof (extents_pos 0 HP) as P0.
    destruct (Nat.eqb_spec (nth 0 (extents tiles) 0) 0) as [|_]; [lia|].
    destruct (Nat.eqb_spec (m / nth 0 (extents tiles) 0) r) as [ER|_]; [|eauto].
    pose proof (tile_at M P tiles DT HP r Hr) as TA. fold q in TA. rewrite Et. rewrite (at_ok _ _ (0, 0)) by lia. cbn [bind]. rewrite (nth_error_nth tiles r _ TA). cbn [fst].
    destruct (extents_nth _ _ _ T _ _ _ TA) as [_ EX]. destruct (extents_nth _ _ _ T _ _ _ (tile_at M P tiles DT HP 0 HP)) as [_ EX0]. fold q in EX0. cbn [Nat.mul] in EX0.
    assert (LO : r * q <= m /\ m - r * q < nth r (extents tiles) 0).
    { revert ER EX. destruct (Nat.eqb_spec 1 P) as [EP|NP]; intros ER EX.
      - assert (R0 : r = 0) by lia. clear ER. subst r. rewrite EX. destruct (Nat.eqb_spec 1 P); [|contradiction]. lia.
      - assert (EQ : nth 0 (extents tiles) 0 = q) by (rewrite EX0; destruct (Nat.eqb_spec 1 P); [contradiction|lia]). rewrite EQ in ER.
        pose proof (Nat.div_mod m q ltac:(lia)) as DM. pose proof (Nat.mod_upper_bound m q ltac:(lia)). rewrite ER in DM. split; [lia|].
        rewrite EX. destruct (Nat.eqb_spec (S r) P); nia. }
    rewrite minus_ok by lia. cbn [bind]. rewrite put_ok by (rewrite L1, FC by lia; lia). eauto.
  Qed.
End GUESS.

Lemma keep_zero_ok n : 0 < n -> keep_guess (repeat 0%Qc n) = Ok false.
Proof.
  intros H. destruct (keep_guess (repeat 0%Qc n)) as [b|e] eqn:E; [rewrite (keep_zero _ _ E); reflexivity|]. exfalso.
  unfold keep_guess in E. destruct n as [|m]; [lia|]. cbn [repeat max_abs bind] in E. cbn [length] in E. rewrite repeat_length in E. unfold fdiv in E.
  destruct (Qc_eq_dec (inject (S m)) 0) as [Z|]; [|discriminate]. unfold inject in Z. apply (f_equal this) in Z. cbn [this Q2Qc] in Z.
  assert (K : (inject_Z (Z.of_nat (S m)) == 0)%Q) by (rewrite <- (Qred_correct (inject_Z _)), Z; reflexivity). unfold Qeq in K. cbn in K. lia.
Qed.
Section NOGUESS.
  Variables (M P : nat) (tiles : list (nat * nat)) (As : list dist_csr) (A : nat -> nat -> Qc) (C : list (list Qc)).
  Hypothesis PA : parts_of M tiles As A.
  Hypothesis IS : int_sizes tiles As.
  Hypothesis DT : default_tiles M P = Ok tiles.
  Hypothesis HP : 0 < P.
  Hypothesis HM : P <= M.
  Hypothesis ND : forall r B i, nth_error As r = Some B -> i < csr_m (d_diag B) -> NoDup (map fst (csr_line (d_diag B) i)).
  Hypothesis LC : length C = P.
  Hypothesis HC : forall r j, nth j (nth r C []) 0%Qc = 0%Qc.

  Lemma parallel_fwd root syev dbg max_m tol it E y :
    (forall k M W C, syev k M = Ok (W, C) -> k <= length W /\ k * k <= length C) ->
    (max_m + 1) * (max_m + 1) < Z.to_nat INT_MAX -> min_element (diag_of_matrix M A) < P * (M / P) ->
    davidson_run root syev M max_m (fun v _ => ret (mv M A v)) (diag_of_matrix M A) tol (unit_vector M (min_element (diag_of_matrix M A))) (Ok (it, E, y)) ->
    always (parallel_selected_ci_diag root syev dbg As max_m tol C) (fun r => fst r = repeat E P /\ shaped (extents tiles) (snd r) /\ concat (snd r) = y).
  Proof.
    intros HS HI Hm H. pose proof (tiles_len M P tiles DT HP) as LT. pose proof PA as (T & LA & HA). unfold parallel_selected_ci_diag.
    assert (E0 : mapM (fun rA => row_extent (snd rA) (fst rA)) (combine (seq 0 (length As)) As) = Ok (extents tiles)).
    { destruct (mapM_ex (fun rA => row_extent (snd rA) (fst rA)) (combine (seq 0 (length As)) As)) as [Ns EN].
      - intros x Hx. apply (In_nth _ _ (0, mk_dist 0 [] (mk_csr 0 0 0 [] [] []) None)) in Hx. destruct Hx as (r & Hr & <-).
        rewrite combine_length, seq_length, Nat.min_id in Hr. rewrite combine_nth by apply seq_length. rewrite seq_nth by exact Hr. cbn [fst snd plus].
        destruct (nth_error_ex As r Hr) as [B EB]. rewrite (nth_error_nth As r _ EB). destruct (HA r B EB) as ((_ & Et & _) & _). unfold row_extent. rewrite Et.
        rewrite (at_ok _ _ (0, 0)) by lia. cbn [bind]. eauto.
      - rewrite EN. f_equal. eapply extents_mapM; [intros r B EB; apply (HA r B EB)|exact LA|exact EN]. }
    refine (always_step _ _ _ _ E0 _). cbv beta zeta.
    set (C1 := map (fun NC => resize (fst NC) (snd NC)) (combine (extents tiles) C)).
    assert (SC1 : shaped (extents tiles) C1) by (apply resize_shaped; rewrite extents_length; lia).
    assert (Z1 : forall r, r < P -> nth r C1 [] = repeat 0%Qc (nth r (extents tiles) 0)).
    { intros r Hr. unfold C1. rewrite (nth_indep _ _ (resize (fst (0, @nil Qc)) (snd (0, @nil Qc)))) by (rewrite map_length, combine_length, extents_length; lia).
      rewrite (map_nth (fun NC => resize (fst NC) (snd NC))), combine_nth by (rewrite extents_length; lia). cbn [fst snd]. apply resize_zero. apply HC. }
    assert (LC1 : length C1 = P) by (destruct SC1 as [L1 _]; rewrite extents_length in L1; lia).
    destruct (locals_total M tiles As A PA) as [D HD]. refine (always_step _ _ _ _ HD _). cbv beta.
    destruct (locals_diag M P tiles As A PA HP ND D HD) as [SD ED].
    assert (HK : mapM keep_guess C1 = Ok (repeat false P)).
    { destruct (mapM_ex keep_guess C1) as [ks EK].
      - intros c Hc. apply (In_nth _ _ []) in Hc. destruct Hc as (r & Hr & <-). rewrite Z1 by lia. exists false. apply keep_zero_ok. apply (extents_pos M P tiles As A PA DT HP HM). lia.
      - rewrite EK. f_equal. apply mapM_inv in EK. destruct EK as [LK FK]. apply (nth_ext' _ _ false); [rewrite repeat_length; lia|]. intros r Hr. rewrite nth_rep by lia.
        specialize (FK r [] false ltac:(lia)). rewrite Z1 in FK by lia. apply keep_zero in FK. exact FK. }
    refine (always_step _ _ _ _ HK _). cbv beta. destruct (forallb_repeat [P] ltac:(cbn; lia) false P HP) as [-> ->].
    destruct (guess_total M P tiles As A PA DT HP HM ND C1 SC1) as [C' HG]. refine (always_step _ _ _ _ HG _). cbv beta.
    destruct (guess_ok M P tiles As A PA DT HP ND C1 C' SC1 ltac:(lia) HG) as (m & Em & SM & SC' & G1 & _). subst m. specialize (G1 Hm).
    destruct (parts_always dbg M tiles As A PA IS) as (infos & EI & AL). refine (always_step _ _ _ _ EI _). cbv beta.
    eapply always_bind.
    - apply (p_davidson_fwd root syev (extents tiles) max_m A (fun V AV => pgespmv 1%Qc 0%Qc (combine (combine (combine As V) AV) infos)) D tol C' it E y).
      + exact HS.
      + rewrite extents_length. lia.
      + intros r Hr. rewrite extents_length in Hr. apply (extents_pos M P tiles As A PA DT HP HM). lia.
      + exact AL.
      + exact SD.
      + exact SC'.
      + exact HI.
      + rewrite (extents_total _ _ T), ED, G1. exact H.
    - intros [[i Es] Y] (_ & F1 & F2 & F3). cbn [fst snd] in *. apply always_ret. cbn [fst snd]. rewrite extents_length, LT in F1. auto.
  Qed.
End NOGUESS.

(** the serial solver without a guess *)
Lemma unit_put n i X' : put (repeat 0%Qc n) i 1%Qc = Ok X' -> X' = unit_vector n i.
Proof.
  intros H. apply (put_nth 0%Qc) in H. destruct H as (Hi & L & F). rewrite repeat_length in *. apply (nth_ext' _ _ 0%Qc); [unfold unit_vector; rewrite map_length, seq_length; exact L|].
  intros j Hj. rewrite L in Hj. rewrite F. unfold unit_vector. rewrite nth_map_seq by exact Hj. destruct (j =? i); [reflexivity|]. apply nth_repeat.
Qed.
Lemma diagonal_extract H : clean H -> extract_diagonal_elements H = Ok (diagonal H).
Proof.
  intros (WF & SQ & ND). rewrite extract_diagonal_ok by exact WF. f_equal. unfold diagonal. apply map_ext_in. intros i Hi. apply in_seq in Hi. apply diag_entry. apply ND. lia.
Qed.
Lemma sparse_multiplies_A H A : clean H -> (forall i j, i < csr_m H -> j < csr_m H -> csr_entry H i j = A i j) -> always_multiplies (csr_m H) A (sparse_action H (csr_m H)).
Proof.
  intros (WF & SQ & _) HA v av Lv Lav. eapply always_weaken; [|apply (sparse_multiplies H WF SQ v av Lv Lav)]. intros w [Lw Fw]. split; [exact Lw|].
  intros i Hi. rewrite Fw by exact Hi. unfold matvec. apply Sigma_ext. intros j Hj. rewrite HA by assumption. reflexivity.
Qed.
Lemma diagonal_matrix H A : (forall i j, i < csr_m H -> j < csr_m H -> csr_entry H i j = A i j) -> diagonal H = diag_of_matrix (csr_m H) A.
Proof. intros HA. apply map_ext_in. intros i Hi. apply in_seq in Hi. apply HA; lia. Qed.
Lemma multiplies_always N A op : always_multiplies N A op -> multiplies N A op.
Proof. intros H v av Lv Lav w Hw. destruct (proj2 (H v av Lv Lav) _ Hw) as (w' & Ew & Q). injection Ew as <-. exact Q. Qed.
Lemma serial_start root syev H A max_m tol C E Y : clean H -> (forall i j, i < csr_m H -> j < csr_m H -> csr_entry H i j = A i j) ->
  (forall j, nth j C 0%Qc = 0%Qc) -> serial_selected_ci_diag root syev H max_m tol C (Ok (E, Y)) ->
  exists it, davidson_run root syev (csr_m H) (Nat.min max_m (csr_m H)) (fun v _ => ret (mv (csr_m H) A v)) (diag_of_matrix (csr_m H) A) tol
    (unit_vector (csr_m H) (min_element (diag_of_matrix (csr_m H) A))) (Ok (it, E, Y)).
Proof.
  intros CL HA HC H0. destruct (serial_inv _ _ _ _ _ _ _ _ CL H0) as (HN & it & C' & HD & LC & G). rewrite (resize_zero _ _ HC) in G. rewrite keep_zero_ok in G by exact HN.
  destruct G as [[? _]|[_ G]]; [discriminate|]. unfold diagonal_guess in G. rewrite (diagonal_extract _ CL) in G. cbn [bind] in G. apply unit_put in G. subst C'.
  rewrite (diagonal_matrix H A HA) in *.
  exists it. eapply run_exact; [|exact LC|exact HD]. apply multiplies_always, sparse_multiplies_A; assumption.
Qed.

(** ... and back *)
Lemma any_intro {A B} (m : nd A) (f : A -> nd B) P r : always m P -> (forall a, P a -> f a r) -> nbind m f r.
Proof. intros [[x Hx] AL] H. destruct (AL x Hx) as (a & -> & Q). right. exists a. auto. Qed.
Lemma loop_back root syev N A op D tol : always_multiplies N A op -> forall rem i V AV X s, full N V -> full N AV ->
  davidson_loop root syev N (fun v _ => ret (mv N A v)) D tol rem i V AV X (Ok s) -> davidson_loop root syev N op D tol rem i V AV X (Ok s).
Proof.
  intros HO. induction rem as [|rem IH]; intros i V AV X s HV HAV H; [exact H|]. cbn [davidson_loop] in *.
  apply det_inv in H. destruct H as (v & Hv & H). eapply det_intro; [exact Hv|]. apply det_inv in H. destruct H as (av & Hav & H). eapply det_intro; [exact Hav|].
  apply nd_inv in H. destruct H as (w & Hw & H). injection Hw as ->.
  apply (at_inv _ _ _ []) in Hv, Hav. destruct Hv as [Lv <-]. destruct Hav as [Lav <-].
  apply (any_intro _ _ _ _ (HO _ _ (HV _ Lv) (HAV _ Lav))). intros w [Lw Fw]. apply mv_eq in Fw; [|exact Lw]. rewrite <- Fw in H.
  apply det_inv in H. destruct H as (AV' & HA & H). eapply det_intro; [exact HA|]. pose proof (full_put _ _ _ _ _ HAV Lw HA) as HAV'.
  apply det_inv in H. destruct H as ((LAM & C) & HRR & H). eapply det_intro; [exact HRR|]. cbn beta iota in *.
  apply det_inv in H. destruct H as (l & Hl & H). eapply det_intro; [exact Hl|].
  apply det_inv in H. destruct H as (X' & HX & H). eapply det_intro; [exact HX|].
  apply det_inv in H. destruct H as (R & HR & H). eapply det_intro; [exact HR|].
  apply det_inv in H. destruct H as (q & Hq & H). eapply det_intro; [exact Hq|].
  destruct (qlt (root q) tol); [exact H|].
  apply det_inv in H. destruct H as (R1 & HR1 & H). eapply det_intro; [exact HR1|].
  apply det_inv in H. destruct H as (R2 & HR2 & H). eapply det_intro; [exact HR2|].
  apply det_inv in H. destruct H as (V' & HV' & H). eapply det_intro; [exact HV'|].
  apply IH; [|exact HAV'|exact H]. eapply full_put; [exact HV| |exact HV']. eapply gs_length; exact HR2.
Qed.
Lemma run_back root syev N A op D tol max_m X s : always_multiplies N A op -> length X = N ->
  davidson_run root syev N max_m (fun v _ => ret (mv N A v)) D tol X (Ok s) -> davidson_run root syev N max_m op D tol X (Ok s).
Proof.
  intros HO LX H. unfold davidson_run in *.
  assert (FZ : full N (repeat (repeat 0%Qc N) (max_m + 1))) by (intros j Hj; rewrite repeat_length in Hj; rewrite nth_rep by exact Hj; apply repeat_length).
  apply det_inv in H. destruct H as (x0 & H0 & H). eapply det_intro; [exact H0|]. rewrite slice_all in H0 by exact LX. injection H0 as <-.
  apply det_inv in H. destruct H as (V & HV & H). eapply det_intro; [exact HV|]. pose proof (full_put _ _ _ _ _ FZ LX HV) as FV.
  apply nd_inv in H. destruct H as (w & Hw & H). injection Hw as ->.
  apply (any_intro _ _ _ _ (HO _ _ LX (repeat_length _ _))). intros w [Lw Fw]. apply mv_eq in Fw; [|exact Lw]. rewrite <- Fw in H.
  apply det_inv in H. destruct H as (AV & HAV & H). eapply det_intro; [exact HAV|]. pose proof (full_put _ _ _ _ _ FZ Lw HAV) as FAV.
  apply det_inv in H. destruct H as (u & Hu & H). eapply det_intro; [exact Hu|].
  apply det_inv in H. destruct H as (V1 & HV1 & H). eapply det_intro; [exact HV1|]. pose proof (full_put _ _ _ _ _ FV Lw HV1) as FV1.
  apply det_inv in H. destruct H as (v1 & Hv1 & H). eapply det_intro; [exact Hv1|].
  apply det_inv in H. destruct H as (V2 & HV2 & H). eapply det_intro; [exact HV2|].
  eapply loop_back; [exact HO| |exact FAV|exact H]. eapply full_put; [exact FV1| |exact HV2]. eapply gs_length; exact Hv1.
Qed.
Lemma serial_back root syev H A max_m tol C it E Y : clean H -> 0 < csr_m H -> (forall i j, i < csr_m H -> j < csr_m H -> csr_entry H i j = A i j) ->
  (forall j, nth j C 0%Qc = 0%Qc) ->
  davidson_run root syev (csr_m H) (Nat.min max_m (csr_m H)) (fun v _ => ret (mv (csr_m H) A v)) (diag_of_matrix (csr_m H) A) tol
    (unit_vector (csr_m H) (min_element (diag_of_matrix (csr_m H) A))) (Ok (it, E, Y)) ->
  serial_selected_ci_diag root syev H max_m tol C (Ok (E, Y)).
Proof.
  intros CL HN HA HC HS. unfold serial_selected_ci_diag. rewrite (resize_zero _ _ HC).
  eapply det_intro; [apply diagonal_extract; exact CL|]. eapply det_intro; [apply keep_zero_ok; exact HN|]. cbv beta iota.
  destruct (diagonal_guess_total H (repeat 0%Qc (csr_m H)) CL HN (repeat_length _ _)) as [X' EX].
  eapply det_intro; [exact EX|]. unfold diagonal_guess in EX. rewrite (diagonal_extract _ CL) in EX. cbn [bind] in EX. apply unit_put in EX. subst X'.
  rewrite (diagonal_matrix H A HA). right. exists (it, E, Y). split; [|reflexivity]. unfold davidson.
  eapply run_back; [apply sparse_multiplies_A; [exact CL|exact HA]| |exact HS]. unfold unit_vector. rewrite map_length, seq_length. reflexivity.
Qed.

Lemma min_from_first l : forall i best b pre, i = length pre -> best < i -> nth best pre 0%Qc = b -> (forall j, j < i -> (b <= nth j pre 0)%Qc) -> (forall j, j < best -> (b < nth j pre 0)%Qc) ->
  forall j, j < min_element_from i best b l -> (nth (min_element_from i best b l) (pre ++ l) 0 < nth j (pre ++ l) 0)%Qc.
Proof.
  induction l as [|x l IH]; intros i best b pre Hi Hb Eb Hm Hf; cbn [min_element_from].
  - rewrite app_nil_r. intros j Hj. rewrite Eb. apply Hf. exact Hj.
  - replace (pre ++ x :: l) with ((pre ++ [x]) ++ l) by (rewrite <- app_assoc; reflexivity).
    destruct (qlt x b) eqn:Q.
    + apply qlt_true in Q. apply IH; [rewrite app_length; cbn; lia|lia|rewrite app_nth2, Hi, Nat.sub_diag by lia; reflexivity| |].
      * intros j Hj. destruct (Nat.eq_dec j i) as [->|NE].
        -- rewrite app_nth2, Hi, Nat.sub_diag by lia. apply Qcle_refl.
        -- rewrite app_nth1 by lia. eapply Qcle_trans; [apply Qclt_le_weak; exact Q|]. apply Hm. lia.
      * intros j Hj. rewrite app_nth1 by lia. eapply Qclt_le_trans; [exact Q|]. apply Hm. exact Hj.
    + apply qlt_false in Q. apply IH; [rewrite app_length; cbn; lia|lia|rewrite app_nth1 by lia; exact Eb| |].
      * intros j Hj. destruct (Nat.eq_dec j i) as [->|NE].
        -- rewrite app_nth2, Hi, Nat.sub_diag by lia. exact Q.
        -- rewrite app_nth1 by lia. apply Hm. lia.
      * intros j Hj. rewrite app_nth1 by lia. apply Hf. exact Hj.
Qed.
Lemma min_element_first D j : j < min_element D -> (nth (min_element D) D 0 < nth j D 0)%Qc.
Proof.
  destruct D as [|x D]; [cbn; lia|]. cbn [min_element]. apply (min_from_first D 1 0 x [x]); [reflexivity|lia|reflexivity| |intros; lia].
  intros k Hk. assert (k = 0) by lia. subst. apply Qcle_refl.
Qed.

Section CI.
  Variables (root : Qc -> Qc) (syev : nat -> list Qc -> res (list Qc * list Qc)) (W : nat) (h : ints) (thr : Qc) (sds : list N) (na nb P max_m : nat) (tol : Qc) (C : list (list Qc)) (C1 : list Qc).
  Hypothesis HW : spin_width W.
  Hypothesis Hn : norb h <= W / 2.
  Hypothesis Vsym : forall p q r s, p < norb h -> q < norb h -> r < norb h -> s < norb h -> V_pqrs h p q r s = V_pqrs h r s p q.
  Hypothesis Gd : forall b, In b sds -> in_space W (norb h) b /\ size_is (alpha W b) na /\ size_is (beta W b) nb.
  Hypothesis Ht : (0 <= thr)%Qc.
  Hypothesis HP : 0 < P.
  Hypothesis HZ : (Z.of_nat (length sds * P) < 2 ^ 31)%Z.
  Hypothesis HMm : max_m <= length sds.
  Hypothesis LC : length C = P.
  Hypothesis HC : forall r j, nth j (nth r C []) 0%Qc = 0%Qc.
  Hypothesis HC1 : forall j, nth j C1 0%Qc = 0%Qc.

  Lemma p_ci_serial dbg Es Ys : root 0%Qc = 0%Qc -> p_selected_ci_diag root syev dbg W h sds thr P max_m tol C (Ok (Es, Ys)) ->
    exists E, Es = repeat E P /\ selected_ci_diag root syev W h sds thr max_m tol C1 (Ok (E, concat Ys)).
  Proof.
    intros HR H. destruct (ham_parts W h thr sds na nb P HW Hn Vsym Gd Ht HP HZ) as (tiles & As & ET & LT & EAs & PA & IS & ND).
    unfold p_selected_ci_diag in H. apply det_inv in H. destruct H as (t & Et & H). rewrite ET in Et. injection Et as <-.
    apply det_inv in H. destruct H as (As' & EAs' & H). rewrite EAs in EAs'. injection EAs' as <-.
    destruct (parallel_start (length sds) P tiles As (ci_matrix W h thr sds) C PA IS ET HP ND LC HC root syev dbg max_m tol Es Ys HR H) as (it & E & m & X & E1 & SY & EM & (Lm & _) & Lq & EX & HS).
    exists E. split; [exact E1|]. unfold diag_of_matrix in Lm. rewrite map_length, seq_length in Lm.
    destruct (ci_built W h thr sds na nb HW Hn Vsym Gd Ht) as (H0 & EH & CL & Em & FA). unfold selected_ci_diag. eapply det_intro; [exact EH|].
    rewrite <- Em in FA. eapply (serial_back root syev H0 (ci_matrix W h thr sds) max_m tol C1 it); [exact CL|lia|exact FA|exact HC1|]. rewrite Em, Nat.min_l by exact HMm.
    subst X m. exact HS.
  Qed.
  Lemma p_ci_agrees dbg E Y :
    (forall k M W C, syev k M = Ok (W, C) -> k <= length W /\ k * k <= length C) ->
    P <= length sds -> (max_m + 1) * (max_m + 1) < Z.to_nat INT_MAX ->
    (forall i, P * (length sds / P) <= i < length sds -> exists j, j < P * (length sds / P) /\ (ci_matrix W h thr sds j j <= ci_matrix W h thr sds i i)%Qc) ->
    selected_ci_diag root syev W h sds thr max_m tol C1 (Ok (E, Y)) ->
    always (p_selected_ci_diag root syev dbg W h sds thr P max_m tol C) (fun r => fst r = repeat E P /\ concat (snd r) = Y).
  Proof.
    intros HS HPM HI HB H. destruct (ham_parts W h thr sds na nb P HW Hn Vsym Gd Ht HP HZ) as (tiles & As & ET & LT & EAs & PA & IS & ND).
    unfold p_selected_ci_diag. refine (always_step _ _ _ _ ET _). cbv beta. refine (always_step _ _ _ _ EAs _). cbv beta.
    destruct (ci_built W h thr sds na nb HW Hn Vsym Gd Ht) as (H0 & EH & CL & Em & FA). unfold selected_ci_diag in H. apply (det_serial _ _ _ _ EH) in H.
    rewrite <- Em in FA. destruct (serial_start root syev H0 (ci_matrix W h thr sds) max_m tol C1 E Y CL FA HC1 H) as (it & HD). rewrite Em, Nat.min_l in HD by exact HMm.
    assert (Hm : min_element (diag_of_matrix (length sds) (ci_matrix W h thr sds)) < P * (length sds / P)).
    { set (D := diag_of_matrix (length sds) (ci_matrix W h thr sds)). assert (LD : length D = length sds) by (unfold D, diag_of_matrix; rewrite map_length, seq_length; reflexivity).
      assert (NE : D <> []) by (intros Z; rewrite Z in LD; cbn in LD; lia). destruct (min_element_ok D NE) as [L SM]. pose proof (min_element_first D) as FI. set (m := min_element D) in *. rewrite LD in *.
      destruct (Nat.lt_ge_cases m (P * (length sds / P))) as [|G]; [assumption|]. destruct (HB m ltac:(lia)) as (j & Hj & Le). exfalso.
      specialize (FI j ltac:(lia)). unfold D, diag_of_matrix in FI. rewrite !nth_map_seq in FI by lia. exact (Qclt_not_le _ _ FI Le). }
    eapply always_weaken; [|exact (parallel_fwd _ P tiles As _ C PA IS ET HP HPM ND LC HC root syev dbg max_m tol it E Y HS HI Hm HD)].
    intros r (A1 & _ & A2). auto.
  Qed.
End CI.

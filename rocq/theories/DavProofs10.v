From Coq Require Import QArith Qcanon.
From Verif Require Import Base SD Spec FockSpec Nondet SlaterCondon Ham HamProofs HamProofs5 Asci AsciSort Mem MemProofs Sums SparseSpec CsrView Sparse SparseProofs3 Spmv SpmvSpec Dist DistProofs
  Collective CollectiveProofs SpmvGlue PropsHamGlue Diis
  DenseSpec DenseProofs DiisSpec DiisProofs DiisProofs2 RotProofs LinRespProofs ExpandProofs FockMatProofs PSpmvProofs2 Davidson DavSpec DavProofs DavProofs2 DavProofs3 DavProofs4 DavProofs5 DavProofs6 DavProofs7 DavProofs8 DavProofs9.
Local Open Scope nat_scope.
Local Opaque allreduce_one allreduce INT_MAX.

Lemma root_zero root : exact_root root -> root 0%Qc = 0%Qc.
Proof. intros H. destruct (H 0%Qc) as [E|E]; [exact E|]. destruct (Qcmult_integral _ _ E); assumption. Qed.

Lemma Sigma_zero' n : Sigma n (fun _ => 0%Qc) = 0%Qc.
Proof. induction n as [|n IH]; [reflexivity|]. rewrite Sigma_S_first, IH. ring. Qed.
Lemma map_fst_comb {A B} : forall (l : list A) (m : list B), length l = length m -> map fst (combine l m) = l.
Proof. induction l as [|x l IH]; intros [|y m] H; try discriminate; [reflexivity|]. cbn. rewrite IH; [reflexivity|]. injection H as H. exact H. Qed.

(** a zero guess never leads to a result *)
Lemma gs_zero root N K V x y : root 0%Qc = 0%Qc -> (forall i, i < N -> nth i x 0%Qc = 0%Qc) -> gram_schmidt root N K V x = Ok y -> False.
Proof.
  intros R0 HX H. unfold gram_schmidt in H.
  apply bind_inv in H. destruct H as (i1 & H1 & H). apply bind_inv in H. destruct H as (x1 & H2 & H).
  apply bind_inv in H. destruct H as (i2 & H3 & H). apply bind_inv in H. destruct H as (x2 & H4 & H).
  apply bind_inv in H. destruct H as (q & H5 & H). apply bind_inv in H. destruct H as (inv & H6 & H).
  assert (Z : forall x y i, (forall i, i < N -> nth i x 0%Qc = 0%Qc) -> gemm_t N K V x = Ok i -> gemm_n N K (- (1))%Qc V i 1%Qc x = Ok y -> forall i, i < N -> nth i y 0%Qc = 0%Qc).
  { intros u w i Hu Hi Hw m Hm. destruct (gs_pass _ _ _ _ _ _ Hi Hw) as [_ F]. rewrite F, Hu by exact Hm.
    rewrite (Sigma_ext K _ (fun _ => 0%Qc)); [rewrite Sigma_zero'; ring|]. intros l Hl.
    replace (dot N (nth l V []) u) with 0%Qc; [ring|]. unfold dot. symmetry. rewrite (Sigma_ext N _ (fun _ => 0%Qc)); [apply Sigma_zero'|].
    intros j Hj. rewrite Hu by exact Hj. ring. }
  pose proof (Z _ _ _ HX H1 H2) as Z1. pose proof (Z _ _ _ Z1 H3 H4) as Z2. apply dot_inv in H5.
  assert (Q0 : q = 0%Qc). { rewrite H5. unfold dot. rewrite (Sigma_ext N _ (fun _ => 0%Qc)); [apply Sigma_zero'|]. intros j Hj. rewrite Z2 by exact Hj. ring. }
  subst q. rewrite Q0, R0 in H6. apply fdiv_inv in H6. destruct H6 as [NZ _]. apply NZ. reflexivity.
Qed.
Lemma run_zero root syev N max_m A op D tol X r : multiplies N A op -> root 0%Qc = 0%Qc -> (forall i, i < N -> nth i X 0%Qc = 0%Qc) ->
  ~ davidson_run root syev N max_m op D tol X (Ok r).
Proof.
  intros HO R0 HX H. destruct (run_start _ _ _ _ _ _ _ _ _ _ HO H) as (V & AV & v1 & LX & H1 & _ & _ & _ & (V0 & av & E0 & Lav & Fav & HG) & _).
  apply (gs_zero _ _ _ _ _ _ R0) in HG; [exact HG|]. intros i Hi. rewrite Fav by exact Hi. unfold matvec.
  rewrite (Sigma_ext N _ (fun _ => 0%Qc)); [apply Sigma_zero'|]. intros j Hj. rewrite nth_firstn by exact Hj. rewrite HX by exact Hj. ring.
Qed.

(** ** the distributed guess *)
Lemma starts_eq (l : list nat) : forall acc (data : list (list Qc)), map (@length Qc) data = l ->
  combine data (map Z.of_nat (row_starts_from acc l)) = combine data (starts (Z.of_nat acc) (lens data)).
Proof.
  induction l as [|n l IH]; intros acc data H; destruct data as [|d data]; try discriminate; [reflexivity|].
  cbn [map] in H. injection H as E H. cbn [row_starts_from map combine lens starts]. f_equal. rewrite (IH _ _ H). rewrite <- E.
  rewrite Nat2Z.inj_add. reflexivity.
Qed.
Lemma starts_last l : forall acc, last (row_starts_from acc l) 0 = acc + total l.
Proof.
  induction l as [|n l IH]; intros acc; [cbn; lia|]. cbn [row_starts_from]. specialize (IH (acc + n)).
  transitivity (last (row_starts_from (acc + n) l) 0); [destruct l; reflexivity|]. rewrite IH. unfold total. cbn [list_sum fold_right]. unfold list_sum. lia.
Qed.
Lemma zero_loop n : forall (X X' : list Qc), foldM (seq 0 n) (fun X i => put X i 0%Qc) X = Ok X' ->
  length X' = length X /\ forall i, nth i X' 0%Qc = if i <? n then 0%Qc else nth i X 0%Qc.
Proof.
  intros X X' H. split; [eapply foldM_put_length; exact H|].
  assert (G : forall n s (X X' : list Qc), foldM (seq s n) (fun X i => put X i 0%Qc) X = Ok X' ->
     forall i, nth i X' 0%Qc = if (s <=? i) && (i <? s + n) then 0%Qc else nth i X 0%Qc).
  { clear. induction n as [|n IH]; intros s X X' H i.
    - injection H as ->. destruct (Nat.leb_spec s i), (Nat.ltb_spec i (s + 0)); try reflexivity; lia.
    - cbn [seq foldM] in H. apply bind_inv in H. destruct H as (X1 & H1 & H). rewrite (IH _ _ _ H i). apply (put_nth 0%Qc) in H1. destruct H1 as (_ & _ & F).
      rewrite F. destruct (Nat.leb_spec (S s) i), (Nat.ltb_spec i (S s + n)), (Nat.leb_spec s i), (Nat.ltb_spec i (s + S n)), (Nat.eqb_spec i s); cbn [andb]; try reflexivity; lia. }
  intros i. rewrite (G _ _ _ _ H i). cbn [andb Nat.leb plus]. reflexivity.
Qed.

Section GUESS.
  Variables (M P : nat) (tiles : list (nat * nat)) (As : list dist_csr) (A : nat -> nat -> Qc).
  Hypothesis PA : parts_of M tiles As A.
  Hypothesis DT : default_tiles M P = Ok tiles.
  Hypothesis HP : 0 < P.
  Hypothesis ND : forall r B i, nth_error As r = Some B -> i < csr_m (d_diag B) -> NoDup (map fst (csr_line (d_diag B) i)).

  Lemma tile_at r : r < P -> nth_error tiles r = Some (r * (M / P), if S r =? P then M else (r + 1) * (M / P)).
  Proof. intros Hr. destruct (c43_default M P HP) as (t & E & L & F). rewrite DT in E. injection E as <-. apply F. exact Hr. Qed.
  Lemma tiles_len : length tiles = P.
  Proof. destruct (c43_default M P HP) as (t & E & L & F). rewrite DT in E. injection E as <-. exact L. Qed.
  Lemma locals_diag Dl : mapM (fun A => extract_diagonal_elements (d_diag A)) As = Ok Dl -> shaped (extents tiles) Dl /\ concat Dl = (diag_of_matrix M A).
  Proof.
    intros H. destruct PA as (T & LA & HA).
    assert (SD : shaped (extents tiles) Dl) by (eapply diagonals_shaped; [exact T|intros r B EB; apply (HA r B EB)|exact LA|exact H]).
    split; [exact SD|]. symmetry. apply (glue_ext (extents tiles)); [exact SD|unfold diag_of_matrix; rewrite map_length, seq_length; symmetry; apply extents_total; exact T|].
    intros r j Hr Hj. apply mapM_inv in H. destruct H as [L F]. rewrite extents_length in Hr.
    destruct (nth_error_ex As r ltac:(lia)) as [B EB]. destruct (HA r B EB) as ((_ & _ & lo & hi & Et & WF & EM & _) & G).
    destruct (extents_nth _ _ _ T _ _ _ Et) as [E1 E2]. cbn in E1. rewrite E2 in Hj. specialize (F r B [] ltac:(lia)). rewrite (nth_error_nth As r B EB) in F.
    rewrite extract_diagonal_ok in F by exact WF. injection F as F. rewrite <- F. rewrite nth_map_seq by lia. rewrite diag_entry by (apply (ND r B j EB); lia).
    pose proof (tiling_nth _ _ _ T _ _ _ Et) as (_ & B1 & B2). unfold diag_of_matrix. rewrite nth_map_seq by lia. rewrite <- E1.
    rewrite <- (G lo hi j (lo + j) Et Hj) by lia. unfold dist_entry. destruct (Nat.leb_spec lo (lo + j)); [|lia]. destruct (Nat.ltb_spec (lo + j) hi); [|lia].
    cbn [andb]. replace (lo + j - lo) with j by lia. reflexivity.
  Qed.
  Lemma guess_ok C C' : shaped (extents tiles) C -> 0 < M -> p_diagonal_guess (combine As C) = Ok C' ->
    exists m, m = min_element (diag_of_matrix M A) /\ smallest_at (diag_of_matrix M A) m /\ shaped (extents tiles) C' /\
      (m < P * (M / P) -> concat C' = unit_vector M m) /\ (P * (M / P) <= m -> concat C' = repeat 0%Qc M).
  Proof.
    intros SC HM H. pose proof PA as (T & LA & HA). pose proof tiles_len as LT. pose proof SC as [LC FC]. rewrite extents_length in LC, FC.
    assert (LI : length (combine As C) = P) by (rewrite combine_length; lia).
    unfold p_diagonal_guess in H. apply bind_inv in H. destruct H as (Dl & HDl & H). rewrite LI in H.
    assert (HDl' : mapM (fun A => extract_diagonal_elements (d_diag A)) As = Ok Dl).
    { rewrite <- HDl. transitivity (mapM (fun A => extract_diagonal_elements (d_diag A)) (map fst (combine As C))).
      - rewrite map_fst_comb by lia. reflexivity.
      - clear. induction (combine As C) as [|x l IH]; [reflexivity|]. cbn [map mapM]. rewrite IH. reflexivity. }
    destruct (locals_diag Dl HDl') as [SDl ED]. pose proof SDl as [LDl FDl]. rewrite extents_length in LDl, FDl.
    assert (Lens : map (@length Qc) Dl = extents tiles).
    { apply (nth_ext' _ _ 0); [rewrite map_length, extents_length; exact LDl|]. intros r Hr. rewrite map_length in Hr.
      change 0 with (@length Qc []) at 1. rewrite map_nth. apply FDl. lia. }
    assert (SM : smallest_at (diag_of_matrix M A) (min_element (diag_of_matrix M A))).
    { apply min_element_ok. intros E. apply (f_equal (@length Qc)) in E. unfold diag_of_matrix in E. rewrite map_length, seq_length in E. cbn in E. lia. }
    set (m := min_element (diag_of_matrix M A)) in *.
    assert (LDM : length (diag_of_matrix M A) = M) by (unfold diag_of_matrix; rewrite map_length, seq_length; reflexivity).
    assert (Hm : m < M) by (rewrite <- LDM; apply SM).
    apply mapM_inv in H. rewrite combine_length, seq_length, LI, Nat.min_id in H. destruct H as [LC' F].
    set (q := M / P) in *.
    assert (c0_eq : nth 0 (extents tiles) 0 = if 1 =? P then M else q).
    { destruct (extents_nth _ _ _ T _ _ _ (tile_at 0 HP)) as [_ E2]. rewrite E2. fold q. cbn [Nat.eqb]. destruct P as [|[|p]]; [lia|cbn [Nat.eqb]; lia|cbn [Nat.eqb]; lia]. }
    (* what rank r stores *)
    assert (G : forall r, r < P -> nth 0 (extents tiles) 0 <> 0 /\ length (nth r C' []) = nth r (extents tiles) 0 /\
      (forall j, j < nth r (extents tiles) 0 -> nth j (nth r C' []) 0%Qc = if (m / nth 0 (extents tiles) 0 =? r) && (r * q + j =? m) then 1%Qc else 0%Qc) /\
      (m / nth 0 (extents tiles) 0 = r -> r * q <= m)).
    { intros r Hr. specialize (F r (0, (mk_dist 0 [] (mk_csr 0 0 0 [] [] []) None, [])) [] Hr).
      rewrite combine_nth in F by (rewrite seq_length; lia). rewrite seq_nth in F by exact Hr. cbn [plus] in F.
      rewrite combine_nth in F by lia. destruct (nth_error_ex As r ltac:(lia)) as [B EB]. rewrite (nth_error_nth As r _ EB) in F.
      destruct (HA r B EB) as ((_ & Et & _) & _).
      cbn beta iota in F. apply bind_inv in F. destruct F as (rc & Hrc & F).
      assert (Erc : rc = extents tiles).
      { apply (mapM_seq_inv _ _ _ 0) in Hrc. destruct Hrc as [L1 F1]. apply (nth_ext' _ _ 0); [rewrite extents_length; lia|]. intros i Hi. rewrite L1 in Hi.
        specialize (F1 i Hi). unfold row_extent in F1. rewrite Et in F1. apply bind_inv in F1. destruct F1 as ((lo & hi) & Ht & F1). injection F1 as F1.
        apply (at_inv _ _ _ (0, 0)) in Ht. destruct Ht as [_ Ht]. rewrite <- F1.
        rewrite (map_nth (fun t : nat * nat => snd t - fst t) tiles (0, 0) i : nth i (extents tiles) 0 = _), Ht. reflexivity. }
      subst rc. apply bind_inv in F. destruct F as (D & HD & F).
      assert (E_D : D = (diag_of_matrix M A)).
      { unfold MPI_Allgatherv in HD. rewrite (starts_eq _ 0 Dl Lens) in HD. change (Z.of_nat 0) with 0%Z in HD.
        assert (X : MPI_Allgatherv Dl (starts 0 (lens Dl)) (repeat 0%Qc (last (row_starts_from 0 (extents tiles)) 0)) = Ok (concat Dl)).
        { apply MPI_Allgatherv_ok. rewrite repeat_length, starts_last, (glue_length _ _ SDl). reflexivity. }
        unfold MPI_Allgatherv in X. rewrite X in HD. injection HD as <-. exact ED. }
      subst D. fold m in F. apply bind_inv in F. destruct F as (nl & Hnl & F).
      unfold row_extent in Hnl. rewrite Et in Hnl. apply bind_inv in Hnl. destruct Hnl as ((lo & hi) & Ht & Hnl). injection Hnl as Hnl.
      pose proof (tile_at r Hr) as TA. apply (at_inv _ _ _ (0, 0)) in Ht. destruct Ht as [_ Ht]. rewrite (nth_error_nth tiles r _ TA) in Ht. injection Ht as E1' E2'. rewrite <- E1', <- E2' in Hnl. cbn [fst snd] in Hnl.
      destruct (extents_nth _ _ _ T _ _ _ TA) as [_ EX].
      apply bind_inv in F. destruct F as (X1 & HX1 & F). apply zero_loop in HX1. destruct HX1 as [LX1 FX1].
      assert (LCr : length (nth r C []) = nl) by (rewrite FC by lia; rewrite EX; exact Hnl).
      apply bind_inv in F. destruct F as (c0 & Hc0 & F). apply (at_inv _ _ _ 0) in Hc0. destruct Hc0 as [_ Hc0]. rewrite Hc0.
      destruct (Nat.eqb_spec c0 0) as [|NZ]; [discriminate|]. split; [exact NZ|].
      destruct (Nat.eqb_spec (m / c0) r) as [EO|NO].
      - apply bind_inv in F. destruct F as (t & Ht' & F). rewrite Et in Ht'. apply (at_inv _ _ _ (0, 0)) in Ht'. destruct Ht' as [_ Ht']. rewrite (nth_error_nth tiles r _ TA) in Ht'. subst t.
        cbn [fst] in F. fold q in F. apply bind_inv in F. destruct F as (off & Hoff & F). unfold minus_ in Hoff. destruct (Nat.ltb_spec m (r * q)) as [|LE]; [discriminate|]. injection Hoff as <-.
        apply (put_nth 0%Qc) in F. destruct F as (Hoff & L2 & F2). split; [rewrite L2, LX1; apply FC; lia|]. split; [|intros _; exact LE]. intros j Hj. rewrite F2. cbn [andb].
        destruct (Nat.eqb_spec j (m - r * q)) as [->|NE].
        + destruct (Nat.eqb_spec (r * q + (m - r * q)) m); [reflexivity|lia].
        + destruct (Nat.eqb_spec (r * q + j) m); [lia|]. rewrite FX1. rewrite <- LCr, FC by lia. destruct (Nat.ltb_spec j (nth r (extents tiles) 0)); [reflexivity|lia].
      - injection F as F. rewrite <- F. split; [rewrite LX1; apply FC; lia|]. split; [|intros E; contradiction]. intros j Hj. cbn [andb]. rewrite FX1. rewrite <- LCr, FC by lia. destruct (Nat.ltb_spec j (nth r (extents tiles) 0)); [reflexivity|lia]. }
    assert (SC' : shaped (extents tiles) C').
    { split; [rewrite extents_length; lia|]. intros r Hr. rewrite extents_length in Hr. apply (G r). lia. }
    exists m. split; [reflexivity|]. split; [exact SM|]. split; [exact SC'|].
    destruct (G 0 HP) as [NZ _]. rewrite c0_eq in NZ, G.
    assert (Sr : forall r, r < P -> start (extents tiles) r = r * q).
    { intros r Hr. destruct (extents_nth _ _ _ T _ _ _ (tile_at r Hr)) as [E1 _]. fold q in E1. cbn in E1. symmetry. exact E1. }
    assert (Nr : forall r, r < P -> nth r (extents tiles) 0 = (if S r =? P then M else (r + 1) * q) - r * q).
    { intros r Hr. destruct (extents_nth _ _ _ T _ _ _ (tile_at r Hr)) as [_ E2]. exact E2. }
    assert (QM : P * q <= M) by (unfold q; apply Nat.mul_div_le; lia).
    split; intros Hmq.
    - symmetry. apply (glue_ext (extents tiles)); [exact SC'|unfold unit_vector; rewrite map_length, seq_length; symmetry; apply extents_total; exact T|].
      intros r j Hr Hj. pose proof (start_lt _ _ _ Hr Hj) as LTM. rewrite (extents_total _ _ T) in LTM. rewrite extents_length, LT in Hr.
      rewrite Sr in LTM by exact Hr. rewrite Sr by exact Hr. unfold unit_vector. rewrite nth_map_seq by exact LTM.
      destruct (G r Hr) as (_ & _ & F' & _). rewrite F' by exact Hj.
      destruct (Nat.eqb_spec (r * q + j) m) as [E|NE]; [|rewrite andb_false_r; reflexivity].
      rewrite andb_true_r. destruct (Nat.eqb_spec 1 P) as [E1|N1].
      + assert (r = 0) by lia. subst r. rewrite Nat.div_small by exact Hm. reflexivity.
      + assert (Hjq : j < q). { rewrite Nr in Hj by exact Hr. destruct (Nat.eqb_spec (S r) P) as [EP|NP]; [|nia]. assert (r * q + j < S r * q) by (rewrite EP, E; exact Hmq). nia. }
        replace (m / q) with r; [rewrite Nat.eqb_refl; reflexivity|]. rewrite <- E. rewrite (Nat.add_comm (r * q)), Nat.div_add by lia. rewrite Nat.div_small by exact Hjq. reflexivity.
    - assert (N1 : 1 <> P). { intros E. assert (q = M) by (unfold q; rewrite <- E; apply Nat.div_1_r). lia. }
      destruct (Nat.eqb_spec 1 P) as [E1|_]; [contradiction|].
      symmetry. apply (glue_ext (extents tiles)); [exact SC'|rewrite repeat_length; symmetry; apply extents_total; exact T|].
      intros r j Hr Hj. rewrite nth_repeat. rewrite extents_length, LT in Hr. destruct (G r Hr) as (_ & _ & F' & _). rewrite F' by exact Hj.
      destruct (Nat.eqb_spec (m / q) r) as [E|]; [|reflexivity]. exfalso. assert (P <= m / q) by (apply Nat.div_le_lower_bound; [exact NZ|lia]). lia.
  Qed.
End GUESS.

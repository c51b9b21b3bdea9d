(** Round trips of sparse matrix files (C44). *)
From Coq Require Import Ascii String QArith Qcanon ZArith NArith Bool Lia Sorting.Permutation Sorting.Sorted.
From Verif Require Import Base Sums Nondet Ham Asci Mem MemProofs Spmv SparseSpec CsrView SpmvSpec CsrProofs SpmvProofs PSpmvProofs3 CooProofs
  Sparse ConvSpec SparseProofs1 SparseProofs4 SparseProofs6 SparseProofs7 SparseGlue Text TextProofs IO IOSpec IOProofs RdmIOProofs SparseIO SparseIOSpec SparseIOProofs.
Local Open Scope nat_scope.

Lemma mirrored_false es : mirrored false es = es.
Proof. unfold mirrored. induction es as [|[[i j] v] es IH]; cbn in *; auto. rewrite IH. reflexivity. Qed.

(** the coordinate matrix read from elements shifted by [b] in both indices *)
Definition shifted (b : nat) (T : list element) : list element := map (fun e => (fst (fst e) + b, snd (fst e) + b, snd e)) T.
Definition detects (b : nat) (T : list element) : Prop :=
  b = 1 \/ T = [] \/ (b = 0 /\ exists e, In e T /\ (fst (fst e) = 0 \/ snd (fst e) = 0)).
Lemma base_shifted b T : detects b T -> base_of (shifted b T) = b \/ T = [].
Proof.
  intros [->|[E|(-> & e & He & Z)]]; auto; left; unfold base_of.
  - destruct (existsb _ _) eqn:X; auto. apply existsb_exists in X. destruct X as (e & He & X). unfold shifted in He. apply in_map_iff in He.
    destruct He as (x & <- & _). cbn [fst snd] in X. rewrite orb_true_iff, !Nat.eqb_eq in X. lia.
  - replace (existsb _ _) with true; auto. symmetry. apply existsb_exists. exists (fst (fst e) + 0, snd (fst e) + 0, snd e). split.
    + unfold shifted. apply in_map_iff. exists e. auto.
    + cbn [fst snd]. rewrite orb_true_iff, !Nat.eqb_eq. lia.
Qed.
Lemma shifted_coo b m n T : detects b T -> (forall e, In e T -> fst (fst e) < m /\ snd (fst e) < n) ->
  coo_wf (file_coo false m n (shifted b T)) /\ coo_triples (file_coo false m n (shifted b T)) = T /\
  (T <> [] -> coo_ind (file_coo false m n (shifted b T)) = b).
Proof.
  intros D B. unfold file_coo. rewrite mirrored_false. cbn [coo_ind].
  assert (MM : map (fun e => fst (fst e)) (shifted b T) = map (fun e => fst (fst e) + b) T /\
               map (fun e => snd (fst e)) (shifted b T) = map (fun e => snd (fst e) + b) T /\ map snd (shifted b T) = map snd T).
  { unfold shifted. rewrite !map_map. auto. }
  destruct MM as (-> & -> & ->).
  destruct (base_shifted b T D) as [E|E].
  - rewrite E. split; [|split; auto].
    + unfold coo_wf. cbn [coo_row coo_col coo_val coo_ind coo_m coo_n]. rewrite !map_length. split; auto. split; auto.
      split; intros x Hx; apply in_map_iff in Hx; destruct Hx as (e & <- & He); apply B in He; lia.
    + unfold coo_triples. cbn [coo_row coo_col coo_val coo_ind]. rewrite !map_map, !combine_map2.
      rewrite <- (map_id T) at 2. apply map_ext. intros [[i j] v]. cbn [fst snd]. f_equal. f_equal; lia.
  - subst T. cbn. split; [|split; auto; congruence]. unfold coo_wf. cbn. tauto.
Qed.

Lemma block_shift A b : block_elements A b b = shifted b (block_elements A 0 0).
Proof.
  unfold block_elements, shifted. rewrite !flat_map_concat_map, concat_map, map_map. f_equal. apply map_ext. intros i.
  rewrite map_map. apply map_ext. intros cv. cbn [fst snd]. f_equal. f_equal; lia.
Qed.
Lemma in_block A ro co e : In e (block_elements A ro co) <-> exists i cv, i < csr_m A /\ In cv (csr_line A i) /\ e = (i + ro, fst cv + co, snd cv).
Proof.
  unfold block_elements. rewrite in_flat_map. split.
  - intros (i & Hi & H). apply in_seq in Hi. apply in_map_iff in H. destruct H as (cv & <- & H). exists i, cv. split; [lia|]. auto.
  - intros (i & cv & Hi & H & ->). exists i. split; [apply in_seq; lia|]. apply in_map_iff. eauto.
Qed.
Lemma in_line_val A i cv : csr_wf A -> i < csr_m A -> In cv (csr_line A i) -> In (snd cv) (nzval A).
Proof.
  intros H Hi Hc. pose proof (row_bounds A i H Hi) as B. cbn zeta in B. unfold csr_line in Hc.
  rewrite line_seq in Hc by (try apply H; lia). apply in_map_iff in Hc. destruct Hc as (k & <- & Hk). apply in_seq in Hk. cbn [snd]. apply nth_In. lia.
Qed.
Lemma block_entry A i j : i < csr_m A -> tsum (block_elements A 0 0) i j = csr_entry A i j.
Proof.
  intros Hi. unfold block_elements. rewrite flat_map_concat_map, tsum_concat.
  rewrite (sum_ext _ _ (fun k => if k =? i then csr_entry A k j else 0%Qc)).
  - rewrite (sum_single _ i).
    + rewrite Nat.eqb_refl. reflexivity.
    + apply seq_NoDup.
    + apply in_seq. lia.
    + intros k Hk Ne. destruct (Nat.eqb_spec k i); [congruence|auto].
  - intros k Hk. unfold csr_entry. rewrite <- tsum_row. f_equal. apply map_ext. intros cv. f_equal. f_equal; lia.
Qed.
Lemma stored_In l j : stored l j = true <-> exists v, In (j, v) l.
Proof.
  unfold stored. rewrite existsb_exists. split.
  - intros ([c v] & H & E). cbn in E. apply Nat.eqb_eq in E. subst. eauto.
  - intros (v & H). exists (j, v). split; auto. cbn. apply Nat.eqb_refl.
Qed.

(** sorting followed by an assertion that the rows are sorted *)
Lemma sort_assert C : coo_wf C ->
  always (any B <- sort_by_row_index C; Nondet.det (if is_sorted_by_row_index B then Ok B else Err AssertFail))
    (fun B => coo_wf B /\ coo_m B = coo_m C /\ coo_n B = coo_n C /\ coo_ind B = coo_ind C /\
      Permutation (coo_triples C) (coo_triples B) /\ StronglySorted lex_le (combine (coo_row B) (coo_col B)) /\ StronglySorted le (coo_row B) /\
      sort_by_row_index C (Ok B)).
Proof.
  intros WC. pose proof (sort_rows_ok C WC) as [[r0 Hr0] SOK].
  assert (SS : forall a, sort_by_row_index C (Ok a) -> coo_wf a /\ coo_m a = coo_m C /\ coo_n a = coo_n C /\ coo_ind a = coo_ind C /\
      Permutation (coo_triples C) (coo_triples a) /\ StronglySorted lex_le (combine (coo_row a) (coo_col a)) /\ StronglySorted le (coo_row a)).
  { intros a Ha. destruct (SOK _ Ha) as (a' & E & WA & A1 & A2 & A3 & A4 & LS). injection E as <-. do 6 (split; auto).
    apply (lex_le_fst _ (coo_col a)); auto. destruct WA as (L1 & L2 & _). lia. }
  split.
  - destruct (SOK _ Hr0) as (a & -> & _). exists (Ok a). right. exists a. split; auto.
    assert (X : is_sorted_by_row_index a = true) by (apply spec_is_sorted, SS; auto). rewrite X. reflexivity.
  - intros r [(e & He & _)|(a & Ha & R)].
    + destruct (SOK _ He) as (a & E & _). discriminate.
    + assert (X : is_sorted_by_row_index a = true) by (apply spec_is_sorted, SS; auto). rewrite X in R. unfold Nondet.det in R. exists a. split; auto.
      pose proof (SS a Ha). tauto.
Qed.
Lemma read_sorted C : coo_wf C -> (forall i, i < coo_m C -> exists j, coo_stored C i j = true) ->
  always (any A0 <- (any A1 <- Nondet.det (Ok C); any B <- sort_by_row_index A1;
      Nondet.det (if is_sorted_by_row_index B then Ok B else Err AssertFail)); Nondet.det (csr_of_coo A0))
  (fun B => csr_wf B /\ csr_m B = coo_m C /\ csr_n B = coo_n C /\ csr_ind B = coo_ind C /\
    (forall i, i < coo_m C -> ordered_line (csr_line B i)) /\
    forall i j, i < coo_m C -> csr_entry B i j = coo_entry C i j).
Proof.
  intros WC ST. destruct (sort_then_csr C WC ST) as [_ ALL].
  eapply always_bind.
  - eapply always_bind; [apply (always_det _ C (fun A => A = C)); auto|]. intros A0 ->. apply sort_assert, WC.
  - cbv beta. intros SA (_ & _ & _ & _ & _ & _ & _ & HS). split; [eexists; reflexivity|].
    intros r Hr. apply ALL. right. exists SA. auto.
Qed.

Section MM.
  Variables (show : Qc -> text) (rnd : Q -> res Qc) (A : csr) (b : nat).
  Hypotheses (HA : csr_wf A) (Hm : (N.of_nat (csr_m A) + 1 < 2 ^ 63)%N) (Hn : (N.of_nat (csr_n A) + 1 < 2 ^ 63)%N)
    (Hz : (N.of_nat (List.length (nzval A)) < 2 ^ 63)%N) (Hv : forall v, In v (nzval A) -> reads_back show rnd v)
    (Hb : b = 1 \/ nzval A = [] /\ b = 0 \/ (b = 0 /\ exists i j, i < csr_m A /\ stored (csr_line A i) j = true /\ (i = 0 \/ j = 0))).
  Let T := block_elements A 0 0.

  Lemma T_bound e : In e T -> fst (fst e) < csr_m A /\ snd (fst e) < csr_n A /\ In (snd e) (nzval A).
  Proof.
    intros H. apply in_block in H. destruct H as (i & cv & Hi & H & ->). cbn [fst snd].
    pose proof (csr_line_In A i cv HA Hi H) as [X _]. split; [lia|]. split; [lia|]. apply (in_line_val A i); auto.
  Qed.
  Lemma T_detects : detects b T.
  Proof.
    destruct Hb as [E0|[[E E0]|(E0 & i & j & Hi & S & Z)]]; [left; auto|right; left|right; right].
    - destruct T as [|e r] eqn:X; auto. exfalso. assert (I : In e T) by (rewrite X; left; auto). apply T_bound in I. rewrite E in I. tauto.
    - split; auto. apply stored_In in S. destruct S as (v & S). exists (i + 0, j + 0, v). split; [|cbn [fst snd]; lia].
      apply in_block. exists i, (j, v). auto.
  Qed.
  Lemma mm_written : exists file, write_mm show A false (Some b) = Ok file /\
    mm_file rnd (lines file) false (csr_m A) (csr_n A) (shifted b T).
  Proof.
    unfold write_mm. rewrite (block_run show A b b) by auto. cbn [bind]. eexists. split; [reflexivity|].
    rewrite block_shift. fold T. apply file_ok; auto; try lia.
    intros e He. unfold shifted in He. apply in_map_iff in He. destruct He as (x & <- & Hx). apply T_bound in Hx. cbn [fst snd].
    assert (b <= 1) by (destruct Hb as [|[[? ?]|[? _]]]; lia). split; [lia|]. split; [lia|]. apply Hv. tauto.
  Qed.
  Lemma T_entry i j : i < csr_m A -> tsum T i j = csr_entry A i j.
  Proof. apply block_entry. Qed.

  Lemma c44_mm : exists file, write_mm show A false (Some b) = Ok file /\
    always (read_mm_coo rnd file) (fun C => coo_wf C /\ coo_m C = csr_m A /\ coo_n C = csr_n A /\
      (nzval A <> [] -> coo_ind C = b) /\ forall i j, i < csr_m A -> coo_entry C i j = csr_entry A i j).
  Proof.
    destruct mm_written as (file & W & F). exists file. split; auto. unfold read_mm_coo.
    rewrite (read_coo_run _ _ _ _ _ _ _ F) by discriminate.
    set (C := file_coo false (csr_m A) (csr_n A) (shifted b T)).
    eapply always_bind; [apply (always_det _ C (fun A => A = C)); auto|]. intros A0 ->. apply (always_det _ C); auto.
    destruct (shifted_coo b (csr_m A) (csr_n A) T T_detects) as (WC & TC & IC).
    { intros e He. apply T_bound in He. tauto. }
    fold C in WC, TC, IC. split; auto. split; auto. split; auto. split.
    - intros Ne. apply IC. intros E. apply Ne. assert (L : List.length (coo_val C) = 0).
      { unfold C, file_coo. cbn [coo_val]. rewrite mirrored_false, E. reflexivity. }
      assert (LT : List.length T = List.length (nzval A)).
      { unfold T, block_elements. rewrite flat_map_concat_map, concat_length, map_map.
        rewrite (map_ext _ (fun i => List.length (csr_line A i))) by (intros; apply map_length).
        pose proof (ptr_prefix HA (csr_m A) ltac:(lia)) as P.
        assert (EE : nth (csr_m A) (rowptr A) 0 = csr_ind A + List.length (colind A)) by apply HA. rewrite EE in P.
        assert (V : List.length (nzval A) = List.length (colind A)) by apply HA. rewrite V. unfold csr_line. lia. }
      rewrite E in LT. destruct (nzval A); auto. discriminate.
    - intros i j Hi. unfold coo_entry. rewrite TC. apply T_entry. auto.
  Qed.
  Lemma c44_mm_csr : (forall i, i < csr_m A -> exists j, stored (csr_line A i) j = true) ->
    exists file, write_mm show A false (Some b) = Ok file /\
    always (read_mm_csr rnd file) (fun C => csr_wf C /\ csr_m C = csr_m A /\ csr_n C = csr_n A /\
      (forall i, i < csr_m A -> ordered_line (csr_line C i)) /\ forall i j, i < csr_m A -> csr_entry C i j = csr_entry A i j).
  Proof.
    intros NE. destruct mm_written as (file & W & F). exists file. split; auto. unfold read_mm_csr.
    rewrite (read_coo_run _ _ _ _ _ _ _ F) by discriminate.
    set (C := file_coo false (csr_m A) (csr_n A) (shifted b T)).
    destruct (shifted_coo b (csr_m A) (csr_n A) T T_detects) as (WC & TC & _).
    { intros e He. apply T_bound in He. tauto. }
    fold C in WC, TC.
    assert (ST : forall i, i < coo_m C -> exists j, coo_stored C i j = true).
    { intros i Hi. destruct (NE i Hi) as (j & S). apply stored_In in S. destruct S as (v & S). exists j.
      unfold coo_stored. rewrite TC. apply existsb_exists. exists (i + 0, j + 0, v). split; [apply in_block; exists i, (j, v); auto|].
      cbn [fst snd]. rewrite !Nat.add_0_r, !Nat.eqb_refl. reflexivity. }
    eapply always_weaken; [|apply read_sorted; auto]. cbv beta. intros B (WB & MB & NB & _ & OB & EB).
    split; auto. split; auto. split; auto. split; auto. intros i j Hi. rewrite EB by auto. unfold coo_entry. rewrite TC. apply T_entry. auto.
  Qed.
End MM.
Lemma c44_default show A : csr_ind A = 0 -> write_mm show A false None = write_mm show A false (Some 0).
Proof. intros E. unfold write_mm. rewrite E. reflexivity. Qed.
Lemma c44_symm show A fi : write_mm show A true fi = Err Throw.
Proof. reflexivity. Qed.

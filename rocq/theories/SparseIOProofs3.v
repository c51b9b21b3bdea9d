(** Distributed and binary sparse matrix files (C44). *)
From Coq Require Import Ascii String QArith Qcanon ZArith NArith Bool Lia Sorting.Permutation Sorting.Sorted.
From Verif Require Import Base Sums Nondet Ham Asci Mem MemProofs Spmv SparseSpec CsrView SpmvSpec CsrProofs SpmvProofs PSpmvProofs3 CooProofs DistProofs
  Sparse ConvSpec SparseProofs1 SparseProofs4 SparseProofs6 SparseProofs7 SparseGlue Text TextProofs IO IOSpec IOProofs RdmIOProofs SparseIO SparseIOSpec SparseIOProofs SparseIOProofs2.
Local Open Scope nat_scope.

Lemma block_shift2 A ro co b : block_elements A (ro + b) (co + b) = shifted b (block_elements A ro co).
Proof.
  unfold block_elements, shifted. rewrite !flat_map_concat_map, concat_map, map_map. f_equal. apply map_ext. intros i.
  rewrite map_map. apply map_ext. intros cv. cbn [fst snd]. f_equal. f_equal; lia.
Qed.
Lemma entry_shift l co j : entry (map (fun cv => (fst cv + co, snd cv)) l) j = if co <=? j then entry l (j - co) else 0%Qc.
Proof.
  unfold entry. rewrite sum_map. cbn [fst snd]. destruct (Nat.leb_spec co j).
  - apply sum_ext. intros cv _. destruct (Nat.eqb_spec (fst cv + co) j), (Nat.eqb_spec (fst cv) (j - co)); auto; lia.
  - apply sum_zero. intros cv _. destruct (Nat.eqb_spec (fst cv + co) j); auto; lia.
Qed.
Lemma block_entry2 A ro co i j : tsum (block_elements A ro co) i j =
  if (ro <=? i) && (i <? ro + csr_m A) && (co <=? j) then csr_entry A (i - ro) (j - co) else 0%Qc.
Proof.
  unfold block_elements. rewrite flat_map_concat_map, tsum_concat.
  rewrite (sum_ext _ _ (fun k => if k + ro =? i then if co <=? j then csr_entry A k (j - co) else 0%Qc else 0%Qc)).
  - destruct (Nat.leb_spec ro i); cbn [andb].
    + destruct (Nat.ltb_spec i (ro + csr_m A)); cbn [andb].
      * rewrite (sum_single _ (i - ro)).
        -- replace (i - ro + ro) with i by lia. rewrite Nat.eqb_refl. reflexivity.
        -- apply seq_NoDup.
        -- apply in_seq. lia.
        -- intros k Hk Ne. destruct (Nat.eqb_spec (k + ro) i); auto. lia.
      * apply sum_zero. intros k Hk. apply in_seq in Hk. destruct (Nat.eqb_spec (k + ro) i); auto. lia.
    + apply sum_zero. intros k Hk. destruct (Nat.eqb_spec (k + ro) i); auto. lia.
  - intros k Hk. unfold csr_entry. rewrite <- entry_shift, <- (tsum_row _ (k + ro)). rewrite map_map. reflexivity.
Qed.
Lemma csr_entry_out A i j : csr_wf A -> i < csr_m A -> csr_n A <= j -> csr_entry A i j = 0%Qc.
Proof.
  intros H Hi Hj. unfold csr_entry, entry. apply sum_zero. intros cv Hc. pose proof (csr_line_In A i cv H Hi Hc) as [X _].
  destruct (Nat.eqb_spec (fst cv) j); auto. lia.
Qed.

(** the elements of a rank's part, counted from 0, [lo] its first row *)
Definition part_elements (lo : nat) (A : dist_csr) : list element :=
  block_elements (d_diag A) lo lo ++ match d_off A with None => [] | Some B => block_elements B lo 0 end.
Lemma shifted_app b T U : shifted b (T ++ U) = shifted b T ++ shifted b U. Proof. apply map_app. Qed.
Lemma shifted_concat b Ts : shifted b (List.concat Ts) = List.concat (map (shifted b) Ts).
Proof. unfold shifted. apply concat_map. Qed.
Lemma block_len A ro co : csr_wf A -> List.length (block_elements A ro co) = List.length (nzval A).
Proof.
  intros HA. unfold block_elements. rewrite flat_map_concat_map, concat_length, map_map.
  rewrite (map_ext _ (fun i => List.length (csr_line A i))) by (intros; apply map_length).
  pose proof (ptr_prefix HA (csr_m A) ltac:(lia)) as P.
  assert (EE : nth (csr_m A) (rowptr A) 0 = csr_ind A + List.length (colind A)) by apply HA. rewrite EE in P.
  assert (V : List.length (nzval A) = List.length (colind A)) by apply HA. rewrite V. unfold csr_line. lia.
Qed.
Lemma line_col A i cv : csr_wf A -> i < csr_m A -> In cv (csr_line A i) -> In (fst cv + csr_ind A) (colind A).
Proof.
  intros H Hi Hc. pose proof (row_bounds A i H Hi) as B. cbn zeta in B. unfold csr_line in Hc.
  rewrite line_seq in Hc by (try apply H; lia). apply in_map_iff in Hc. destruct Hc as (k & <- & Hk). apply in_seq in Hk. cbn [fst].
  set (q := nth i (rowptr A) 0 - csr_ind A + k) in *. assert (I : In (nth q (colind A) 0) (colind A)) by (apply nth_In; unfold q; lia).
  replace (nth q (colind A) 0 - csr_ind A + csr_ind A) with (nth q (colind A) 0); auto.
  assert (csr_ind A <= nth q (colind A) 0) by (apply H; auto). lia.
Qed.

  Definition dist_elements (tiles : list (nat * nat)) (parts : list dist_csr) : list element :=
    List.concat (map (fun rA => part_elements (fst (nth (fst rA) tiles (0, 0))) (snd rA)) (combine (seq 0 (List.length parts)) parts)).
  Lemma ranked (parts : list dist_csr) rA : In rA (combine (seq 0 (List.length parts)) parts) <-> nth_error parts (fst rA) = Some (snd rA).
  Proof.
    destruct rA as [r A]. cbn [fst snd]. split.
    - intros H. apply In_nth_error in H. destruct H as (k & E). pose proof E as E'.
      assert (K : k < List.length parts).
      { assert (k < List.length (combine (seq 0 (List.length parts)) parts)) by (apply nth_error_Some; congruence).
        rewrite combine_length, seq_length in H. lia. }
      apply (nth_error_nth _ _ (0, A)) in E'. rewrite combine_nth in E' by apply seq_length. rewrite seq_nth in E' by auto. cbn in E'.
      injection E' as <- E'. rewrite (nth_error_nth' _ A K), E'. reflexivity.
    - intros E. assert (K : r < List.length parts) by (apply nth_error_Some; congruence).
      assert (X : (r, A) = nth r (combine (seq 0 (List.length parts)) parts) (0, A)).
      { rewrite combine_nth by apply seq_length. rewrite seq_nth by auto. rewrite (nth_error_nth _ _ _ E). reflexivity. }
      rewrite X. apply nth_In. rewrite combine_length, seq_length. lia.
  Qed.
  Lemma in_dist tiles parts e : In e (dist_elements tiles parts) <-> exists r A, nth_error parts r = Some A /\ In e (part_elements (fst (nth r tiles (0, 0))) A).
  Proof.
    unfold dist_elements. rewrite in_concat. split.
    - intros (l & Hl & He). apply in_map_iff in Hl. destruct Hl as (rA & <- & H). apply ranked in H. eauto.
    - intros (r & A & E & He). eexists. split; [apply in_map_iff; exists (r, A); split; [reflexivity|apply ranked; auto]|auto].
  Qed.
Section DistMM.
  Variables (show : Qc -> text) (rnd : Q -> res Qc) (M b : nat) (tiles : list (nat * nat)) (parts : list dist_csr).
  Hypotheses (HT : tiling 0 M tiles) (HL : List.length parts = List.length tiles)
    (HP : forall r A, nth_error parts r = Some A -> dist_part M tiles r A /\ csr_ind (d_diag A) = 0)
    (Hm : (N.of_nat M + 1 < 2 ^ 63)%N) (Hz : (N.of_nat (list_sum (map local_nnz parts)) < 2 ^ 63)%N)
    (Hv : forall A v, In A parts -> In v (nzval (d_diag A)) \/ (exists B, d_off A = Some B /\ In v (nzval B)) -> reads_back show rnd v).
  Let T := dist_elements tiles parts.
  Hypothesis Hb : detects b T.

  Lemma dist_bound e : In e T -> fst (fst e) < M /\ snd (fst e) < M /\ reads_back show rnd (snd e).
  Proof.
    unfold T; rewrite in_dist. intros (r & A & E & He). destruct (HP r A E) as [(_ & _ & lo & hi & ET & WD & MD & ND & WB) _].
    assert (IA : In A parts) by (apply (nth_error_In _ _ E)).
    rewrite (nth_error_nth _ _ _ ET) in He. cbn [fst] in He. pose proof (tiling_nth _ _ _ HT _ _ _ ET) as B.
    unfold part_elements in He. apply in_app_or in He. destruct He as [He|He].
    - apply in_block in He. destruct He as (i & cv & Hi & Hc & ->). cbn [fst snd]. pose proof (csr_line_In _ _ _ WD Hi Hc) as [X _].
      split; [lia|]. split; [lia|]. apply (Hv A); auto. left. apply (in_line_val _ i); auto.
    - destruct (d_off A) as [Bo|] eqn:EO; [|destruct He]. destruct (WB Bo eq_refl) as (WB1 & MB & NB & _).
      apply in_block in He. destruct He as (i & cv & Hi & Hc & ->). cbn [fst snd]. pose proof (csr_line_In _ _ _ WB1 Hi Hc) as [X _].
      split; [lia|]. split; [lia|]. apply (Hv A); auto. right. exists Bo. split; auto. apply (in_line_val _ i); auto.
  Qed.
  Lemma dist_written : exists file, write_dist_mm show M M parts (Some b) = Ok file /\ mm_file rnd (lines file) false M M (shifted b T).
  Proof.
    unfold write_dist_mm.
    rewrite (mapM_ok _ (fun rA => flat_map (fun e => mm_text show e ++ [nl]) (shifted b (part_elements (fst (nth (fst rA) tiles (0, 0))) (snd rA))))).
    - cbn [bind]. eexists. split; [reflexivity|].
      replace (List.concat (map _ _)) with (flat_map (fun e => mm_text show e ++ [nl]) (shifted b T)).
      + apply file_ok; try lia. intros e He. unfold shifted in He. apply in_map_iff in He. destruct He as (x & <- & HxT). pose proof HxT as Hx. apply dist_bound in Hx. cbn [fst snd].
        assert (b <= 1). { destruct Hb as [|[Z|[? _]]]; try lia. exfalso. unfold T in HxT, Z. rewrite Z in HxT. destruct HxT. }
        split; [lia|]. split; [lia|]. tauto.
      + unfold T, dist_elements. rewrite shifted_concat, map_map. rewrite !flat_map_concat_map, concat_map, map_map.
        generalize (combine (seq 0 (List.length parts)) parts). intros l. induction l as [|a l IH]; cbn [map List.concat]; auto.
        rewrite concat_app, IH, flat_map_concat_map. reflexivity.
    - intros [r A] HrA. apply ranked in HrA. cbn [fst snd] in *. destruct (HP r A HrA) as [(_ & ET0 & lo & hi & ET & WD & MD & ND & WB) I0].
      rewrite ET0. rewrite (at_ok _ _ (0, 0)) by (apply nth_error_Some; congruence). cbn [bind]. rewrite (nth_error_nth _ _ _ ET). cbn [fst].
      replace (Z.of_nat lo + Z.of_nat b)%Z with (Z.of_nat (lo + b)) by lia.
      rewrite (block_run show (d_diag A) (lo + b) (lo + b)) by (auto; lia). cbn [bind].
      unfold part_elements. rewrite shifted_app, flat_map_app. rewrite block_shift2.
      destruct (d_off A) as [Bo|] eqn:EO; [|reflexivity]. destruct (WB Bo eq_refl) as (WB1 & MB & NB & IB & _).
      rewrite (block_run show Bo (lo + b) b) by (auto; lia). cbn [bind]. rewrite <- (block_shift2 Bo lo 0 b). reflexivity.
  Qed.
  Lemma part_entry r A lo hi i j : nth_error parts r = Some A -> nth_error tiles r = Some (lo, hi) -> i < M -> j < M ->
    tsum (part_elements lo A) i j = if (lo <=? i) && (i <? hi) then dist_entry A lo hi (i - lo) j else 0%Qc.
  Proof.
    intros E ET Hi Hj. destruct (HP r A E) as [(_ & _ & lo' & hi' & ET' & WD & MD & ND & WB) _]. rewrite ET in ET'. injection ET' as <- <-.
    pose proof (tiling_nth _ _ _ HT _ _ _ ET) as B.
    unfold part_elements, tsum. rewrite sum_app. change (tsum (block_elements (d_diag A) lo lo) i j + tsum (match d_off A with None => [] | Some Bo => block_elements Bo lo 0 end) i j =
      if (lo <=? i) && (i <? hi) then dist_entry A lo hi (i - lo) j else 0%Qc)%Qc.
    rewrite block_entry2, MD. replace (lo + (hi - lo)) with hi by lia.
    assert (EO : tsum (match d_off A with None => [] | Some Bo => block_elements Bo lo 0 end) i j =
      if (lo <=? i) && (i <? hi) then match d_off A with None => 0%Qc | Some Bo => csr_entry Bo (i - lo) j end else 0%Qc).
    { destruct (d_off A) as [Bo|] eqn:EO.
      - destruct (WB Bo eq_refl) as (WB1 & MB & NB & IB & _). rewrite block_entry2, MB. replace (lo + (hi - lo)) with hi by lia.
        rewrite andb_true_r, Nat.sub_0_r. reflexivity.
      - destruct ((lo <=? i) && (i <? hi)); reflexivity. }
    rewrite EO. clear EO. destruct ((lo <=? i) && (i <? hi)) eqn:Ri; cbn [andb]; [|ring].
    rewrite andb_true_iff, Nat.leb_le, Nat.ltb_lt in Ri. unfold dist_entry. destruct (Nat.leb_spec lo j); cbn [andb]; [|ring].
    destruct (Nat.ltb_spec j hi).
    - assert (Z : match d_off A with None => 0%Qc | Some Bo => csr_entry Bo (i - lo) j end = 0%Qc).
      { destruct (d_off A) as [Bo|] eqn:EO; auto. destruct (WB Bo eq_refl) as (WB1 & MB & NB & IB & HC).
        unfold csr_entry, entry. apply sum_zero. intros cv Hc. destruct (Nat.eqb_spec (fst cv) j); auto.
        pose proof (line_col Bo (i - lo) cv WB1 ltac:(lia) Hc) as X. rewrite IB in X. apply HC in X. lia. }
      rewrite Z. ring.
    - rewrite csr_entry_out by (auto; lia). ring.
  Qed.
  Lemma T_dist r A lo hi i j : nth_error parts r = Some A -> nth_error tiles r = Some (lo, hi) -> i < hi - lo -> j < M ->
    tsum T (lo + i) j = dist_entry A lo hi i j.
  Proof.
    intros E ET Hi Hj. pose proof (tiling_nth _ _ _ HT _ _ _ ET) as B. unfold T, dist_elements. rewrite tsum_concat.
    rewrite (sum_single _ (r, A)).
    - cbn [fst snd]. rewrite (nth_error_nth _ _ _ ET). cbn [fst]. rewrite (part_entry r A lo hi) by (auto; lia).
      replace ((lo <=? lo + i) && (lo + i <? hi)) with true; [f_equal; lia|]. symmetry. rewrite andb_true_iff, Nat.leb_le, Nat.ltb_lt. lia.
    - clear. generalize 0. induction parts as [|x l IH]; intros k; cbn [List.length seq combine]; constructor; auto.
      intros H. apply in_combine_l in H. apply in_seq in H. lia.
    - apply ranked. auto.
    - intros [r' A'] H' Ne. apply ranked in H'. cbn [fst snd] in *.
      assert (K : r' < List.length tiles) by (rewrite <- HL; apply nth_error_Some; congruence).
      destruct (nth_error tiles r') as [[lo' hi']|] eqn:ET'; [|apply nth_error_None in ET'; lia].
      rewrite (nth_error_nth _ _ _ ET'). cbn [fst]. rewrite (part_entry r' A' lo' hi') by (auto; lia).
      destruct ((lo' <=? lo + i) && (lo + i <? hi')) eqn:X; auto. exfalso. rewrite andb_true_iff, Nat.leb_le, Nat.ltb_lt in X.
      destruct (tiling_owner _ _ _ HT (lo + i) ltac:(lia)) as (q & x & y & _ & _ & U).
      assert (r' = q) by (eapply U; eauto; lia). assert (r = q) by (eapply U; eauto; lia). subst q r'. congruence.
  Qed.
  Lemma c44_dist : exists file, write_dist_mm show M M parts (Some b) = Ok file /\
    always (read_mm_coo rnd file) (fun C => coo_wf C /\ coo_m C = M /\ coo_n C = M /\
      forall r A lo hi i j, nth_error parts r = Some A -> nth_error tiles r = Some (lo, hi) -> i < hi - lo -> j < M ->
        coo_entry C (lo + i) j = dist_entry A lo hi i j).
  Proof.
    destruct dist_written as (file & W & F). exists file. split; auto. unfold read_mm_coo.
    rewrite (read_coo_run _ _ _ _ _ _ _ F) by discriminate.
    set (C := file_coo false M M (shifted b T)).
    eapply always_bind; [apply (always_det _ C (fun A => A = C)); auto|]. intros A0 ->. apply (always_det _ C); auto.
    destruct (shifted_coo b M M T Hb) as (WC & TC & IC).
    { intros e He. apply dist_bound in He. tauto. }
    fold C in WC, TC, IC. split; auto. split; auto. split; auto.
    intros r A lo hi i j E ET Hi Hj. unfold coo_entry. rewrite TC. apply (T_dist r); auto.
  Qed.
End DistMM.
Lemma dist_default show M parts : write_dist_mm show M M parts None = write_dist_mm show M M parts (Some 0).
Proof. reflexivity. Qed.
Lemma detects_dist b M tiles parts : (forall r A, nth_error parts r = Some A -> dist_part M tiles r A /\ csr_ind (d_diag A) = 0) ->
  (b = 1 \/ list_sum (map local_nnz parts) = 0 /\ b = 0 \/
    b = 0 /\ exists r A lo hi i j, nth_error parts r = Some A /\ nth_error tiles r = Some (lo, hi) /\ i < hi - lo /\
      dist_stored A lo i j = true /\ (lo + i = 0 \/ j = 0)) ->
  detects b (dist_elements tiles parts).
Proof.
  intros HP [->|[[Z ->]|(-> & r & A & lo & hi & i & j & E & ET & Hi & S & F)]].
  - left; auto.
  - assert (W : forall A, In A parts -> csr_wf (d_diag A) /\ forall B, d_off A = Some B -> csr_wf B).
    { intros A IA. apply In_nth_error in IA. destruct IA as (r & E). destruct (HP r A E) as [(_ & _ & lo' & hi' & _ & WD & _ & _ & WB) _].
      split; auto. intros B EB. apply (WB B EB). }
    right; left. unfold dist_elements. revert Z W. set (d := (0, 0)). change (seq 0) with (fun n => seq 0 n). cbv beta.
    enough (G : forall k, list_sum (map local_nnz parts) = 0 -> (forall A, In A parts -> csr_wf (d_diag A) /\ forall B, d_off A = Some B -> csr_wf B) ->
      List.concat (map (fun rA => part_elements (fst (nth (fst rA) tiles d)) (snd rA)) (combine (seq k (List.length parts)) parts)) = []) by (apply G).
    clear HP. induction parts as [|A l IH]; intros k Z W; auto.
    cbn [List.length seq combine map List.concat]. cbn [map list_sum fold_right] in Z. unfold local_nnz in Z at 1.
    destruct (W A (or_introl eq_refl)) as [W1 W2]. rewrite (IH (S k)); [|unfold list_sum; lia|intros; apply W; right; auto].
    rewrite app_nil_r. unfold part_elements. cbn [fst snd]. apply length_zero_iff_nil. rewrite app_length, block_len by auto.
    destruct (d_off A) as [B|] eqn:EO; cbn [List.length]; [rewrite block_len by auto|]; lia.
  - right; right. split; auto. destruct (HP r A E) as [(_ & _ & lo' & hi' & ET' & WD & MD & ND & WB) _]. rewrite ET in ET'. injection ET' as <- <-.
    unfold dist_stored in S. apply orb_true_iff in S. destruct S as [S|S].
    + apply andb_true_iff in S. destruct S as [Lj S]. apply Nat.leb_le in Lj. apply stored_In in S. destruct S as (v & S).
      exists (i + lo, j - lo + lo, v). split; [|cbn [fst snd]; lia]. apply <- in_dist. exists r, A. split; auto.
      rewrite (nth_error_nth _ _ _ ET). cbn [fst]. unfold part_elements. apply in_or_app. left. apply in_block. exists i, (j - lo, v). split; [lia|split; [exact S|reflexivity]].
    + destruct (d_off A) as [B|] eqn:EO; [|discriminate]. destruct (WB B eq_refl) as (_ & MB & _). apply stored_In in S. destruct S as (v & S).
      exists (i + lo, j + 0, v). split; [|cbn [fst snd]; lia]. apply <- in_dist. exists r, A. split; auto.
      rewrite (nth_error_nth _ _ _ ET). cbn [fst]. unfold part_elements. apply in_or_app. right. rewrite EO. apply in_block. exists i, (j, v). split; [lia|split; [exact S|reflexivity]].
Qed.

(** ** binary files *)
Lemma read_into_app k a rest buf : List.length a = k -> read_into k (a ++ rest) buf = (a ++ skipn k buf, rest).
Proof.
  intros <-. unfold read_into. rewrite firstn_app, Nat.sub_diag, firstn_O, app_nil_r, firstn_all.
  rewrite app_length, Nat.min_l by lia. rewrite skipn_app, Nat.sub_diag, skipn_all. reflexivity.
Qed.
Lemma index_bytes_ok w x : (2 * N.of_nat x < 256 ^ N.of_nat w)%N -> List.length (index_bytes w x) = w /\ index_of w (index_bytes w x) = Ok x.
Proof.
  intros H. unfold index_bytes. split; [apply to_bytes_len|]. unfold index_of. rewrite of_to_bytes by lia.
  destruct (N.ltb_spec (2 * N.of_nat x) (256 ^ N.of_nat w)); [|lia]. f_equal. lia.
Qed.
Section Binary.
  Variables (enc : Qc -> list N) (dec : list N -> Qc) (w : nat).
  Lemma read_indices l : (forall x, In x l -> (2 * N.of_nat x < 256 ^ N.of_nat w)%N) -> forall rest,
    mapM (fun k => index_of w (object_at w k (flat_map (index_bytes w) l ++ rest))) (seq 0 (List.length l)) = Ok l.
  Proof.
    intros H rest. rewrite (mapM_ok _ (fun k => nth k l 0)).
    - f_equal. apply (nth_ext' _ _ 0); rewrite map_length, seq_length; auto. intros k Hk. rewrite nth_map_seq by lia. reflexivity.
    - intros k Hk. apply in_seq in Hk. rewrite (object_flat _ _ 0) by (try lia; intros v Hv; apply index_bytes_ok; auto).
      apply index_bytes_ok, H, nth_In. lia.
  Qed.
  Lemma read_binary_run A : coo_wf A -> coo_fits w A -> doubles_ok enc dec (coo_val A) ->
    read_binary_as_coo dec w (write_binary_coo enc w A) =
    nbind (Nondet.det (expand_from_triangle (determine_indexing_from_adj (mk_coo (coo_m A) (coo_n A) 1 (coo_row A) (coo_col A) (coo_val A)))))
      (fun A => any B <- sort_by_row_index A; Nondet.det (if is_sorted_by_row_index B then Ok B else Err AssertFail)).
  Proof.
    intros (L1 & L2 & _) (F1 & F2 & F3 & F4 & F5) D. unfold read_binary_as_coo, write_binary_coo. f_equal. f_equal.
    destruct (index_bytes_ok w _ F1) as [I1 J1]. destruct (index_bytes_ok w _ F2) as [I2 J2].
    rewrite take_bytes_app by auto. cbn [bind]. rewrite take_bytes_app by auto. cbn [bind].
    rewrite take_bytes_app by apply to_bytes_len. cbn [bind]. rewrite J1, J2. cbn [bind]. cbv zeta.
    rewrite of_to_bytes by exact F3. rewrite Nat2N.id.
    assert (LR : List.length (flat_map (index_bytes w) (coo_row A)) = w * List.length (coo_val A)).
    { rewrite (flat_len _ w), L1; auto. intros v Hv. apply index_bytes_ok; auto. }
    assert (LC : List.length (flat_map (index_bytes w) (coo_col A)) = w * List.length (coo_val A)).
    { rewrite (flat_len _ w), L2; auto. intros v Hv. apply index_bytes_ok; auto. }
    assert (LV : List.length (flat_map enc (coo_val A)) = 8 * List.length (coo_val A)).
    { apply flat_len. intros v Hv. apply D; auto. }
    rewrite read_into_app by exact LR. rewrite read_into_app by exact LC.
    rewrite <- (app_nil_r (flat_map enc (coo_val A))). rewrite read_into_app by exact LV.
    assert (X : forall l rest, (forall x, In x l -> (2 * N.of_nat x < 256 ^ N.of_nat w)%N) -> List.length l = List.length (coo_val A) ->
      mapM (fun k => index_of w (object_at w k (flat_map (index_bytes w) l ++ rest))) (seq 0 (List.length (coo_val A))) = Ok l).
    { intros l rest Hl <-. apply read_indices. auto. }
    rewrite !X by auto. cbn [bind]. do 3 f_equal. apply (nth_ext' _ _ 0%Qc); rewrite map_length, seq_length; auto.
    intros k Hk. rewrite nth_map_seq by lia. rewrite (object_flat _ _ 0%Qc) by (try lia; intros v Hv; apply D; auto). apply D, nth_In. lia.
  Qed.
  Lemma based A : coo_wf A -> base_visible A -> determine_indexing_from_adj (mk_coo (coo_m A) (coo_n A) 1 (coo_row A) (coo_col A) (coo_val A)) = A.
  Proof.
    intros (_ & _ & Br & Bc) V. unfold determine_indexing_from_adj. cbn [coo_row coo_col coo_m coo_n coo_val].
    assert (E : (if existsb (fun x => x =? 0) (coo_row A) || existsb (fun x => x =? 0) (coo_col A) then 0 else 1) = coo_ind A).
    { destruct V as [V|[V [V0|V0]]].
      - destruct (_ || _) eqn:X; auto. apply orb_true_iff in X. rewrite !existsb_exists in X.
        destruct X as [(x & Hx & X)|(x & Hx & X)]; apply Nat.eqb_eq in X; subst x; [apply Br in Hx|apply Bc in Hx]; lia.
      - replace (existsb (fun x => x =? 0) (coo_row A)) with true; [cbn; auto|]. symmetry. apply existsb_exists. exists 0. auto.
      - replace (existsb (fun x => x =? 0) (coo_col A)) with true; [rewrite orb_true_r; auto|]. symmetry. apply existsb_exists. exists 0. auto. }
    rewrite E. destruct A; reflexivity.
  Qed.
  Lemma c44_binary A : coo_wf A -> coo_fits w A -> doubles_ok enc dec (coo_val A) -> base_visible A -> (coo_upper A <-> coo_lower A) ->
    always (read_binary_as_coo dec w (write_binary_coo enc w A)) (fun B => coo_wf B /\ coo_m B = coo_m A /\ coo_n B = coo_n A /\ coo_ind B = coo_ind A /\
      Permutation (coo_triples A) (coo_triples B) /\ StronglySorted lex_le (combine (coo_row B) (coo_col B))).
  Proof.
    intros W F D V U. rewrite read_binary_run, based, c38_expand_unchanged by auto.
    eapply always_bind; [apply (always_det _ A (fun C => C = A)); auto|]. intros A0 ->.
    eapply always_weaken; [|apply sort_assert; auto]. cbv beta. tauto.
  Qed.
  Lemma c44_binary_triangle A : coo_wf A -> coo_fits w A -> doubles_ok enc dec (coo_val A) -> base_visible A ->
    coo_m A = coo_n A -> (coo_upper A \/ coo_lower A) -> ~ (coo_upper A /\ coo_lower A) -> diagonal_count A = coo_n A ->
    always (read_binary_as_coo dec w (write_binary_coo enc w A)) (fun B => coo_wf B /\ coo_m B = coo_m A /\ coo_n B = coo_n A /\ coo_ind B = coo_ind A /\
      StronglySorted lex_le (combine (coo_row B) (coo_col B)) /\
      forall i j, coo_entry B i j = if i =? j then coo_entry A i j else (coo_entry A i j + coo_entry A j i)%Qc).
  Proof.
    intros W F D V Q U NU DC. rewrite read_binary_run, based by auto. destruct (c38_expand A W Q U NU DC) as (C & E & WC & MC & NC & IC & EC). rewrite E.
    eapply always_bind; [apply (always_det _ C (fun X => X = C)); auto|]. intros A0 ->.
    eapply always_weaken; [|apply sort_assert; auto]. cbv beta. intros B (WB & MB & NB & IB & P & S & _). rewrite MB, NB, IB. do 5 (split; [auto|]).
    intros i j. rewrite <- EC. symmetry. apply (coo_entry_perm C B i j P).
  Qed.
  Lemma c44_binary_incomplete A : coo_wf A -> coo_fits w A -> doubles_ok enc dec (coo_val A) -> base_visible A ->
    (coo_upper A \/ coo_lower A) -> ~ (coo_upper A /\ coo_lower A) -> diagonal_count A <> coo_n A ->
    forall B, ~ read_binary_as_coo dec w (write_binary_coo enc w A) (Ok B).
  Proof.
    intros W F D V U NU DC B. rewrite read_binary_run, based by auto. destruct (c38_expand_fails A W U NU DC) as (e & E). rewrite E.
    intros [(e' & _ & X)|(a & X & _)]; [discriminate|]. unfold Nondet.det in X. discriminate.
  Qed.
  Lemma write_csr_coo A : csr_wf A -> exists B, coo_of_csr A = Ok B /\ write_binary_csr enc w A = Ok (write_binary_coo enc w B).
  Proof.
    intros H. pose proof (coo_of_csr_ok A H) as E. eexists. split; [exact E|].
    assert (V : List.length (nzval A) = List.length (colind A)) by apply H.
    unfold coo_of_csr in E. unfold write_binary_csr. destruct (foldM _ _ _) as [[ri it]|e]; [|discriminate]. cbn [bind] in *.
    destruct (it =? List.length ri); [|discriminate].
    rewrite !put_all_full in E by auto. cbn [bind] in E. rewrite slice_ok by lia. cbn [bind]. cbn [skipn]. rewrite firstn_all2 by lia.
    injection E as <-. reflexivity.
  Qed.
  Lemma c44_binary_csr A : csr_wf A ->
    (2 * N.of_nat (csr_m A + csr_ind A) < 256 ^ N.of_nat w)%N -> (2 * N.of_nat (csr_n A + csr_ind A) < 256 ^ N.of_nat w)%N ->
    (N.of_nat (List.length (nzval A)) < 2 ^ 64)%N -> doubles_ok enc dec (nzval A) ->
    csr_ind A = 1 \/ (csr_ind A = 0 /\ 0 < csr_m A) ->
    (forall i, i < csr_m A -> exists j, stored (csr_line A i) j = true) ->
    (exists i j, i < csr_m A /\ j < i /\ stored (csr_line A i) j = true) ->
    (exists i j, i < csr_m A /\ i < j /\ stored (csr_line A i) j = true) ->
    exists file, write_binary_csr enc w A = Ok file /\
    always (read_binary_csr dec w file) (fun C => csr_wf C /\ csr_m C = csr_m A /\ csr_n C = csr_n A /\ csr_ind C = csr_ind A /\
      (forall i, i < csr_m A -> ordered_line (csr_line C i)) /\ forall i j, i < csr_m A -> csr_entry C i j = csr_entry A i j).
  Proof.
    intros H F1 F2 F3 D V NE (i1 & j1 & Hi1 & L1 & S1) (i2 & j2 & Hi2 & L2 & S2).
    destruct (write_csr_coo A H) as (B & EB & EW). eexists. split; [exact EW|].
    destruct (coo_of_csr_triples A B H EB) as (WB & MB & NB & IB & TB).
    assert (SB : forall i j, i < csr_m A -> stored (csr_line A i) j = true -> exists v, In (i, j, v) (coo_triples B)).
    { intros i j Hi Hs. apply stored_In in Hs. destruct Hs as (v & Hs). exists v. rewrite TB. apply in_concat.
      eexists. split; [apply in_map_iff; exists i; split; [reflexivity|apply in_seq; lia]|]. apply in_map_iff. exists (j, v). auto. }
    assert (VB : coo_val B = nzval A) by (rewrite (coo_of_csr_ok A H) in EB; injection EB as <-; reflexivity).
    assert (FB : coo_fits w B).
    { pose proof WB as (_ & _ & Br & Bc). unfold coo_fits. rewrite MB, NB, VB. split; [lia|]. split; [lia|]. split; [auto|].
      split; intros x Hx; [apply Br in Hx|apply Bc in Hx]; rewrite IB in Hx; lia. }
    assert (VI : base_visible B).
    { unfold base_visible. rewrite IB. destruct V as [V|[V V0]]; auto. right. split; auto. left. destruct (NE 0 V0) as (j & Sj).
      destruct (SB 0 j V0 Sj) as (v & Iv). destruct (triples_proj B WB) as (P1 & _). rewrite <- P1. apply in_map_iff. exists (0, j, v). split; auto.
      cbn [fst snd]. lia. }
    assert (U : coo_upper B <-> coo_lower B).
    { destruct (SB i1 j1 Hi1 S1) as (v1 & I1). destruct (SB i2 j2 Hi2 S2) as (v2 & I2). split; intros X; [apply X in I1|apply X in I2]; cbn [fst snd] in *; lia. }
    unfold read_binary_csr. rewrite read_binary_run, based, c38_expand_unchanged by (auto; rewrite VB; auto).
    assert (ST : forall i, i < coo_m B -> exists j, coo_stored B i j = true).
    { intros i Hi. rewrite MB in Hi. destruct (NE i Hi) as (j & Sj). exists j. destruct (SB i j Hi Sj) as (v & Iv). unfold coo_stored. apply existsb_exists.
      exists (i, j, v). split; auto. cbn [fst snd]. rewrite !Nat.eqb_refl. reflexivity. }
    eapply always_weaken; [|exact (read_sorted B WB ST)]. cbv beta. intros C (W1 & W2 & W3 & W4 & W5 & W6). rewrite W2, W3, W4, <- MB. do 5 (split; [auto|]).
    intros i j Hi. rewrite W6 by auto. rewrite MB in Hi. apply coo_of_csr_entry; auto.
  Qed.
End Binary.

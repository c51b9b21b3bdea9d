(** Upper triangle, diagonal, trace, index base, distribution. *)
From Coq Require Import QArith Qcanon Sorting.Permutation Sorting.Sorted.
From Verif Require Import Base SDProofs4 Sums Nondet Ham Asci Mem MemProofs Spmv SparseSpec CsrView SpmvSpec CsrProofs SpmvProofs PSpmvProofs3 Dist DistProofs Sparse ConvSpec SparseProofs1 SparseProofs2.
Local Open Scope nat_scope.

(** ** extract_upper_triangle *)
Definition upper_rows (A : csr) : list (list (nat * Qc)) :=
  map (fun i => filter (fun cv => i <=? fst cv) (csr_line A i)) (seq 0 (csr_m A)).

Lemma filter_above b l : filter (fun cv : nat * Qc => b <=? fst cv) l = filter (fun cv => negb (below b cv)) l.
Proof. apply filter_ext. intros cv. unfold below. destruct (Nat.leb_spec b (fst cv)), (Nat.ltb_spec (fst cv) b); cbn; auto; lia. Qed.

Lemma upper_ptr_loop A : csr_wf A ->
  foldM (seq 0 (csr_m A)) (fun s i =>
    let '(nnz_ut, rp) := s in
    do r <- row_range A i;
    do l <- slice_ (colind A) (fst r) (snd r);
    let nnz_row := count_if (fun j => i <=? j - csr_ind A) l in
    do x <- at_ rp i;
    do rp <- put rp (i + 1) (x + nnz_row);
    Ok (nnz_ut + nnz_row, rp)) (0, csr_ind A :: repeat 0 (csr_m A))
  = Ok (length (concat (upper_rows A)), prefix_sums (csr_ind A) (map (@length _) (upper_rows A))).
Proof.
  intros H. set (cnts := map (@length _) (upper_rows A)).
  assert (Lc : length cnts = csr_m A) by (unfold cnts, upper_rows; rewrite !map_length, seq_length; auto).
  match goal with |- foldM _ ?f _ = _ => destruct (foldM_seq f (fun k s => fst s = list_sum (firstn k cnts) /\ length (snd s) = csr_m A + 1 /\
      forall j, j <= k -> nth j (snd s) 0 = nth j (prefix_sums (csr_ind A) cnts) 0) 0 (csr_m A) (0, csr_ind A :: repeat 0 (csr_m A))) as ([k rp] & E & E1 & L & R) end.
  - cbn [fst snd]. split; [reflexivity|]. split; [cbn; rewrite repeat_length; lia|]. intros j Hj. assert (j = 0) by lia. subst j. destruct cnts; reflexivity.
  - intros i [k rp] Hi (E1 & L & R). cbn [fst snd] in *.
    rewrite row_range_ok by (auto; lia). cbn [bind fst snd]. rewrite row_cols by (auto; lia). cbn [bind].
    rewrite (at_ok _ _ 0) by lia. cbn [bind]. rewrite put_ok by lia. cbn [bind].
    assert (C : count_if (fun j => i <=? j - csr_ind A) (map (fun cv => csr_ind A + fst cv) (csr_line A i)) = nth i cnts 0).
    { unfold cnts, upper_rows. rewrite map_map, nth_map_seq by lia. unfold count_if. induction (csr_line A i) as [|cv l IH]; cbn; auto.
      replace (csr_ind A + fst cv - csr_ind A) with (fst cv) by lia. destruct (i <=? fst cv); cbn; auto. }
    eexists. split; [reflexivity|]. cbn [fst snd]. rewrite C, E1, upd_length. split; [rewrite list_sum_firstn_S by lia; auto|]. split; [auto|].
    intros j Hj. rewrite upd_nth by lia. destruct (Nat.eqb_spec j (i + 1)) as [->|n]; [|apply R; lia].
    rewrite (R i) by lia. rewrite !prefix_sums_nth by lia. rewrite Nat.add_1_r, list_sum_firstn_S by lia. lia.
  - rewrite E. cbn [fst snd] in *. f_equal. f_equal.
    + rewrite E1, concat_length. fold cnts. rewrite firstn_all2 by lia. reflexivity.
    + apply (nth_ext' _ _ 0); [rewrite prefix_sums_length; lia|]. intros i Hi. apply R. lia.
Qed.

Lemma extract_upper_triangle_ok A : csr_wf A -> (forall i, i < csr_m A -> ordered_line (csr_line A i)) ->
  extract_upper_triangle A = Ok (rows_csr (csr_ind A) (csr_n A) (upper_rows A)).
Proof.
  intros H HO. unfold extract_upper_triangle. rewrite upper_ptr_loop by auto. cbn [bind].
  unfold csr_alloc. cbn [rowptr colind nzval]. set (rows := upper_rows A).
  assert (LR : length rows = csr_m A) by (unfold rows, upper_rows; rewrite map_length, seq_length; auto).
  rewrite (fill_rows (csr_ind A) rows); [| |rewrite LR; apply Permutation_refl].
  2:{ intros ci nz i Hi _ _. rewrite LR in Hi. rewrite row_range_ok by auto. cbn [bind].
      assert (AT : at_ (prefix_sums (csr_ind A) (map (length (A:=nat * Qc)) rows)) i = Ok (csr_ind A + offset rows i)).
      { rewrite (at_ok _ _ 0) by (rewrite prefix_sums_length, map_length; lia). rewrite prefix_sums_nth by (rewrite map_length; lia). reflexivity. }
      rewrite AT. cbn [bind]. rewrite minus_ok by lia. cbn [bind].
      replace (csr_ind A + offset rows i - csr_ind A) with (offset rows i) by lia.
      rewrite row_cols by auto. cbn [bind]. assert (OL := HO i Hi).
      assert (FI : find_if (fun x => i <=? x - csr_ind A) (map (fun cv => csr_ind A + fst cv) (csr_line A i)) = length (filter (below i) (csr_line A i))).
      { unfold find_if. rewrite (ordered_split i _ OL) at 1. rewrite map_app, prefix_length_app; [rewrite map_length; auto| |].
        - intros x Hx. apply in_map_iff in Hx. destruct Hx as (cv & <- & Hcv). apply filter_In in Hcv. destruct Hcv as [_ E].
          unfold below in E. apply Nat.ltb_lt in E. apply negb_true_iff, Nat.leb_gt. lia.
        - intros x Hx. apply in_map_iff in Hx. destruct Hx as (cv & <- & Hcv). apply filter_In in Hcv. destruct Hcv as [_ E].
          unfold below in E. apply negb_true_iff, Nat.ltb_ge in E. apply negb_false_iff, Nat.leb_le. lia. }
      rewrite FI. destruct (row_bounds A i H Hi) as (B1 & _ & _ & B4). cbn zeta in B1, B4.
      assert (LE : length (filter (below i) (csr_line A i)) <= length (csr_line A i)) by (rewrite (ordered_split i _ OL) at 2; rewrite app_length; lia).
      destruct (row_part A i (length (filter (below i) (csr_line A i))) (length (csr_line A i)) H Hi ltac:(lia)) as [P3 P4].
      assert (EE : nth i (rowptr A) 0 - csr_ind A + length (csr_line A i) = nth (S i) (rowptr A) 0 - csr_ind A) by lia.
      rewrite EE in P3, P4. rewrite P3, P4. cbn [bind].
      assert (S2 : seg (csr_line A i) (length (filter (below i) (csr_line A i))) (length (csr_line A i)) = nth i rows []).
      { unfold seg. rewrite skipn_below by auto. rewrite firstn_all2.
        - unfold rows, upper_rows. rewrite nth_map_seq, filter_above by auto. reflexivity.
        - rewrite (ordered_split i _ OL) at 2. rewrite app_length. lia. }
      rewrite S2. reflexivity. }
  cbn [bind]. f_equal. unfold rows_csr. rewrite LR. reflexivity.
Qed.

(** ** diagonal and trace *)
Definition diag_of (l : list (nat * Qc)) (i : nat) : Qc :=
  match find (fun cv => fst cv =? i) l with Some cv => snd cv | None => 0%Qc end.
Lemma find_prefix (l : list (nat * Qc)) ind i :
  let k := find_ (i + ind) (map (fun cv => ind + fst cv) l) in
  match find (fun cv => fst cv =? i) l with
  | Some cv => k < length l /\ nth k (map snd l) 0%Qc = snd cv
  | None => k = length l
  end.
Proof.
  unfold find_, find_if. induction l as [|x l IH]; cbn [map find prefix_length length nth]; auto.
  destruct (Nat.eqb_spec (fst x) i) as [E|E].
  - subst i. rewrite Nat.add_comm, Nat.eqb_refl. cbn [negb]. split; auto; try lia.
  - destruct (Nat.eqb_spec (ind + fst x) (i + ind)); [lia|]. cbn [negb].
    destruct (find (fun cv => fst cv =? i) l); cbn [nth] in *; [destruct IH; split; [lia|auto]|lia].
Qed.
Lemma diag_entry l i : NoDup (map fst l) -> diag_of l i = entry l i.
Proof.
  unfold diag_of, entry. induction l as [|x l IH]; intros ND; cbn [find sum map] in *; auto.
  apply NoDup_cons_iff in ND. destruct ND as [N1 N2]. destruct (Nat.eqb_spec (fst x) i) as [E|E].
  - rewrite (sum_zero l); [ring|]. intros cv Hcv. destruct (Nat.eqb_spec (fst cv) i) as [E'|]; auto.
    exfalso. apply N1. rewrite E, <- E'. apply in_map, Hcv.
  - rewrite IH by auto. ring.
Qed.

Lemma diag_step A i (T : Type) (g : Qc -> res T) (z : res T) : csr_wf A -> i < csr_m A ->
  (do r <- row_range A i;
   let '(j_st, j_en) := r in
   do l <- slice_ (colind A) j_st j_en;
   let diag_off := find_ (i + csr_ind A) l in
   if negb (diag_off =? length l) then do v <- at_ (nzval A) (j_st + diag_off); g v else z)
  = match find (fun cv => fst cv =? i) (csr_line A i) with Some cv => g (snd cv) | None => z end.
Proof.
  intros H Hi. rewrite row_range_ok by auto. cbn [bind]. rewrite row_cols by auto. cbn [bind].
  pose proof (find_prefix (csr_line A i) (csr_ind A) i) as F. cbn zeta in F.
  set (k := find_ (i + csr_ind A) (map (fun cv => csr_ind A + fst cv) (csr_line A i))) in *. clearbody k.
  rewrite map_length. destruct (find (fun cv => fst cv =? i) (csr_line A i)) as [cv|].
  - destruct F as [F1 F2]. destruct (Nat.eqb_spec k (length (csr_line A i))); [lia|]. cbn [negb].
    destruct (row_bounds A i H Hi) as (B1 & B2 & B3 & B4). cbn zeta in *.
    rewrite (at_ok _ _ 0%Qc) by lia. cbn [bind]. f_equal. rewrite <- F2.
    unfold csr_line at 1. rewrite <- (seg_val H i Hi). unfold seg. rewrite nth_firstn by lia. rewrite nth_skipn. reflexivity.
  - subst k. rewrite Nat.eqb_refl. reflexivity.
Qed.

Lemma extract_diagonal_ok A : csr_wf A ->
  extract_diagonal_elements A = Ok (map (fun i => diag_of (csr_line A i) i) (seq 0 (csr_m A))).
Proof.
  intros H. unfold extract_diagonal_elements.
  match goal with |- foldM _ ?f _ = _ =>
    destruct (foldM_seq f (fun k D => length D = csr_m A /\ forall i, i < k -> nth i D 0%Qc = diag_of (csr_line A i) i) 0 (csr_m A) (repeat 0%Qc (csr_m A))) as (D & E & L & R) end.
  - rewrite repeat_length. split; auto. intros; lia.
  - intros i D Hi (L & R). exists (upd D i (diag_of (csr_line A i) i)). split.
    + etransitivity; [apply (diag_step A i _ (fun v => put D i v) (put D i 0%Qc)); auto; lia|].
      unfold diag_of. destruct (find _ (csr_line A i)); apply put_ok; lia.
    + rewrite upd_length. split; auto. intros j Hj. rewrite upd_nth by lia. destruct (Nat.eqb_spec j i) as [->|]; auto. apply R. lia.
  - rewrite E. f_equal. apply (nth_ext' _ _ 0%Qc); [rewrite map_length, seq_length; auto|]. intros i Hi. rewrite nth_map_seq by lia. apply R. lia.
Qed.
Lemma trace_ok A : csr_wf A -> trace A = Ok (sum (seq 0 (csr_m A)) (fun i => diag_of (csr_line A i) i)).
Proof.
  intros H. unfold trace. rewrite (foldM_sum _ _ (fun i => diag_of (csr_line A i) i)).
  - f_equal. ring.
  - intros tr i Hi. apply in_seq in Hi. etransitivity; [apply (diag_step A i _ (fun v => Ok (tr + v)%Qc) (Ok tr)); auto; lia|].
    unfold diag_of. destruct (find _ (csr_line A i)); auto. f_equal. ring.
Qed.

(** ** set_indexing *)
Lemma set_indexing_ok A idx : csr_wf A -> set_indexing A idx = Ok (rows_csr idx (csr_n A) (csr_rows_of A)).
Proof.
  intros H. unfold set_indexing. destruct (Nat.eqb_spec idx (csr_ind A)) as [->|n].
  - f_equal. apply rows_of_csr, H.
  - assert (E1 : mapM (fun i => minus_ (i + idx) (csr_ind A)) (colind A) = Ok (map (fun i => i + idx - csr_ind A) (colind A))).
    { apply mapM_ok. intros c Hc. apply minus_ok. destruct H as (_ & _ & _ & _ & _ & B). specialize (B c Hc). lia. }
    assert (E2 : mapM (fun i => minus_ (i + idx) (csr_ind A)) (rowptr A) = Ok (map (fun i => i + idx - csr_ind A) (rowptr A))).
    { apply mapM_ok. intros c Hc. apply minus_ok. destruct (In_nth _ _ 0 Hc) as (i & Hi & <-). pose proof (ptr_len H).
      pose proof (ptr_range _ _ _ _ _ _ H i ltac:(lia)). lia. }
    rewrite E1, E2. cbn [bind]. f_equal. pose proof (rows_of_csr A H) as RA. set (R := csr_rows_of A) in *.
    assert (Lm : csr_m A = length R) by (unfold R; rewrite csr_rows_len; auto).
    assert (F1 : rowptr A = rowptr (rows_csr (csr_ind A) (csr_n A) R)) by (rewrite <- RA; auto).
    assert (F2 : colind A = colind (rows_csr (csr_ind A) (csr_n A) R)) by (rewrite <- RA; auto).
    assert (F3 : nzval A = nzval (rows_csr (csr_ind A) (csr_n A) R)) by (rewrite <- RA; auto).
    unfold rows_csr in *. cbn in F1, F2, F3. rewrite <- Lm. f_equal; auto.
    + rewrite F1. generalize (map (@length (nat * Qc)) R) as cn. intros cn.
      assert (PS : forall a, prefix_sums a cn = map (fun x => a + x) (prefix_sums 0 cn)) by (intros a; rewrite <- prefix_sums_shift, Nat.add_0_r; auto).
      rewrite (PS idx), (PS (csr_ind A)), map_map. apply map_ext. intros; lia.
    + rewrite F2, map_map. apply map_ext. intros; lia.
Qed.

(** ** distribution *)
Lemma entry_inside_shift lo up l j : lo <= up ->
  entry (map (fun cv : nat * Qc => (fst cv - lo, snd cv)) (filter (inside lo up) l)) j = if j <? up - lo then entry l (lo + j) else 0%Qc.
Proof.
  intros LU. unfold entry. rewrite sum_map. cbn [fst snd]. rewrite sum_filter. destruct (Nat.ltb_spec j (up - lo)).
  - apply sum_ext. intros cv _. unfold inside. destruct (Nat.leb_spec lo (fst cv)), (Nat.ltb_spec (fst cv) up); cbn [andb];
      destruct (Nat.eqb_spec (fst cv - lo) j), (Nat.eqb_spec (fst cv) (lo + j)); auto; lia.
  - apply sum_zero. intros cv _. unfold inside. destruct (Nat.leb_spec lo (fst cv)), (Nat.ltb_spec (fst cv) up); cbn [andb]; auto.
    destruct (Nat.eqb_spec (fst cv - lo) j); auto. lia.
Qed.
Lemma entry_outside lo up l j :
  entry (filter (fun cv : nat * Qc => negb (inside lo up cv)) l) j = if (lo <=? j) && (j <? up) then 0%Qc else entry l j.
Proof.
  unfold entry. rewrite sum_filter. destruct ((lo <=? j) && (j <? up)) eqn:E.
  - apply sum_zero. intros cv _. unfold inside. destruct (Nat.eqb_spec (fst cv) j) as [->|]; [rewrite E; reflexivity|]. destruct (negb _); reflexivity.
  - apply sum_ext. intros cv _. unfold inside. destruct (Nat.eqb_spec (fst cv) j) as [->|]; [rewrite E; reflexivity|]. destruct (negb _); reflexivity.
Qed.
Lemma entry_upper i l j : entry (filter (fun cv : nat * Qc => i <=? fst cv) l) j = if i <=? j then entry l j else 0%Qc.
Proof.
  unfold entry. rewrite sum_filter. destruct (Nat.leb_spec i j).
  - apply sum_ext. intros cv _. destruct (Nat.eqb_spec (fst cv) j) as [->|]; [destruct (Nat.leb_spec i j); auto; lia|]. destruct (i <=? _); reflexivity.
  - apply sum_zero. intros cv _. destruct (Nat.eqb_spec (fst cv) j) as [->|]; [destruct (Nat.leb_spec i j); auto; lia|]. destruct (i <=? _); reflexivity.
Qed.

Lemma sub_rows_bound A lo up : forall r, In r (sub_rows A lo up) -> forall cv, In cv r -> fst cv < snd up - snd lo.
Proof.
  intros r Hr cv Hcv. apply in_map_iff in Hr. destruct Hr as (i & <- & Hi). apply in_map_iff in Hcv. destruct Hcv as (cv' & <- & Hcv).
  unfold cut in Hcv. apply filter_In in Hcv. destruct Hcv as [_ E]. unfold inside in E. apply andb_prop in E. destruct E as [E1 E2].
  apply Nat.leb_le in E1. apply Nat.ltb_lt in E2. cbn. lia.
Qed.
Lemma excl_rows_bound A lo up : csr_wf A -> fst up <= csr_m A -> forall r, In r (excl_rows A lo up) -> forall cv, In cv r -> fst cv < csr_n A.
Proof.
  intros H Hm r Hr cv Hcv. apply in_map_iff in Hr. destruct Hr as (i & <- & Hi). apply in_seq in Hi. apply filter_In in Hcv.
  apply (csr_line_In A (fst lo + i) cv H ltac:(lia)), Hcv.
Qed.
Lemma upper_rows_bound A : csr_wf A -> forall r, In r (upper_rows A) -> forall cv, In cv r -> fst cv < csr_n A.
Proof.
  intros H r Hr cv Hcv. apply in_map_iff in Hr. destruct Hr as (i & <- & Hi). apply in_seq in Hi. apply filter_In in Hcv.
  apply (csr_line_In A i cv H ltac:(lia)), Hcv.
Qed.

Lemma rows_rows ind n R : csr_rows_of (rows_csr ind n R) = R.
Proof.
  apply (nth_ext' _ _ []); [rewrite csr_rows_len; reflexivity|]. intros i Hi. rewrite csr_rows_len in Hi. cbn in Hi.
  rewrite csr_rows_nth by auto. apply rows_line; auto.
Qed.

Lemma dist_of_csr_ok A tiles r lo hi : csr_wf A -> csr_n A = csr_m A ->
  nth_error tiles r = Some (lo, hi) -> lo <= hi <= csr_m A ->
  (forall i, i < csr_m A -> ordered_line (csr_line A i)) ->
  exists D, dist_of_csr A tiles r = Ok D /\ dist_part (csr_m A) tiles r D /\
    forall i j, i < hi - lo -> j < csr_m A -> dist_entry D lo hi i j = csr_entry A (lo + i) j.
Proof.
  intros H SQ Ht Hlh HO. unfold dist_of_csr. rewrite Ht.
  rewrite extract_submatrix_ok; cbn [fst snd]; auto; try lia. 2:{ intros; apply HO; lia. }
  cbn [bind]. rewrite extract_exclcol_ok; cbn [fst snd]; auto; try lia. 2:{ intros; apply HO; lia. }
  cbn [bind].
  assert (W1 : csr_wf (rows_csr (csr_ind A) (hi - lo) (sub_rows A (lo, lo) (hi, hi)))) by (apply rows_csr_wf, (sub_rows_bound A (lo,lo) (hi,hi))).
  assert (W2 : csr_wf (rows_csr (csr_ind A) (csr_n A) (excl_rows A (lo, lo) (hi, hi)))) by (apply rows_csr_wf, excl_rows_bound; auto; cbn; lia).
  rewrite !set_indexing_ok by auto. cbn [bind]. rewrite !rows_rows. cbn [csr_n rows_csr].
  assert (L1 : length (sub_rows A (lo, lo) (hi, hi)) = hi - lo) by (unfold sub_rows; rewrite map_length, seq_length; auto).
  assert (L2 : length (excl_rows A (lo, lo) (hi, hi)) = hi - lo) by (unfold excl_rows; rewrite map_length, seq_length; auto).
  eexists. split; [reflexivity|]. split.
  - unfold dist_part. cbn [d_n d_tiles d_diag d_off]. split; [auto|]. split; [auto|]. exists lo, hi. split; [auto|].
    split; [apply rows_csr_wf, (sub_rows_bound A (lo,lo) (hi,hi))|]. cbn [csr_m csr_n rows_csr]. split; [auto|]. split; [auto|].
    intros B HB. injection HB as <-. split; [apply rows_csr_wf, excl_rows_bound; auto; cbn; lia|].
    cbn [csr_m csr_n csr_ind colind rows_csr]. split; [auto|]. split; [auto|]. split; [auto|].
    intros c Hc. apply in_map_iff in Hc. destruct Hc as (cv & <- & Hcv). cbn. apply in_concat in Hcv. destruct Hcv as (row & Hr & Hcv).
    apply in_map_iff in Hr. destruct Hr as (i & <- & Hi). apply filter_In in Hcv. destruct Hcv as [_ E]. unfold inside in E. cbn [snd] in E.
    destruct (Nat.leb_spec lo (fst cv)), (Nat.ltb_spec (fst cv) hi); cbn in E; try discriminate; lia.
  - intros i j Hi Hj. unfold dist_entry. cbn [d_diag d_off]. rewrite !rows_entry by lia.
    unfold sub_rows, excl_rows, cut. cbn [fst snd]. rewrite !nth_map_seq by auto. fold (csr_entry A (lo + i) j).
    destruct (Nat.leb_spec lo j), (Nat.ltb_spec j hi); cbn [andb].
    + rewrite entry_inside_shift by lia. destruct (Nat.ltb_spec (j - lo) (hi - lo)); [|lia]. unfold csr_entry. f_equal. lia.
    + rewrite entry_outside. destruct (Nat.leb_spec lo j), (Nat.ltb_spec j hi); cbn [andb]; try lia; reflexivity.
    + rewrite entry_outside. destruct (Nat.leb_spec lo j), (Nat.ltb_spec j hi); cbn [andb]; try lia; reflexivity.
    + rewrite entry_outside. destruct (Nat.leb_spec lo j), (Nat.ltb_spec j hi); cbn [andb]; try lia; reflexivity.
Qed.

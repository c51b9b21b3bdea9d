(** Submatrix extraction. *)
From Coq Require Import QArith Qcanon Sorting.Permutation Sorting.Sorted.
From Verif Require Import Base SDProofs4 Sums Nondet Ham Asci Mem MemProofs Spmv SparseSpec CsrView CsrProofs SpmvProofs PSpmvProofs3 Sparse ConvSpec SparseProofs1.
Local Open Scope nat_scope.

Definition below (b : nat) (cv : nat * Qc) : bool := fst cv <? b.
Lemma ordered_cons x l : ordered_line (x :: l) -> ordered_line l /\ forall y, In y l -> fst x <= fst y.
Proof.
  intros H. inversion H as [|? ? H1 H2]; subst. split; auto. intros y Hy. rewrite Forall_forall in H2. apply H2, in_map, Hy.
Qed.
Lemma ordered_filter p l : ordered_line l -> ordered_line (filter p l).
Proof.
  induction l as [|x l IH]; cbn [filter]; auto. intros H. apply ordered_cons in H. destruct H as [H1 H2].
  destruct (p x); [|apply IH; auto]. unfold ordered_line. cbn [map]. constructor; [apply IH; auto|].
  apply Forall_forall. intros z Hz. apply in_map_iff in Hz. destruct Hz as (y & <- & Hy). apply filter_In in Hy. apply H2, Hy.
Qed.
Lemma ordered_split b l : ordered_line l -> l = filter (below b) l ++ filter (fun cv => negb (below b cv)) l.
Proof.
  induction l as [|x l IH]; cbn [filter]; auto. intros H. apply ordered_cons in H. destruct H as [H1 H2].
  destruct (below b x) eqn:E; cbn [negb app]; [|unfold below in E; apply Nat.ltb_ge in E].
  - f_equal. apply IH; auto.
  - assert (F : filter (below b) l = []).
    { apply (filter_none (below b)). intros y Hy. specialize (H2 y Hy). unfold below. apply Nat.ltb_ge. lia. }
    assert (G : filter (fun cv => negb (below b cv)) l = l).
    { apply (filter_all (fun cv => negb (below b cv))). intros y Hy. specialize (H2 y Hy). unfold below. apply negb_true_iff, Nat.ltb_ge. lia. }
    rewrite F, G. reflexivity.
Qed.
Lemma filter_filter {A} (p q : A -> bool) l : filter p (filter q l) = filter (fun x => q x && p x) l.
Proof. induction l; cbn; auto. destruct (q a); cbn; [destruct (p a)|]; rewrite IHl; reflexivity. Qed.

(** std::partition_point on an ordered row *)
Lemma prefix_length_app {A} (p : A -> bool) l m : (forall x, In x l -> p x = true) -> (forall x, In x m -> p x = false) ->
  prefix_length p (l ++ m) = length l.
Proof.
  intros H H'. induction l as [|x l IH]; cbn.
  - destruct m as [|y m]; cbn; auto. rewrite H' by (left; auto). reflexivity.
  - rewrite H by (left; auto). rewrite IH; auto. intros; apply H; right; auto.
Qed.
Lemma partition_point_ok {A} (p : A -> bool) l m : (forall x, In x l -> p x = true) -> (forall x, In x m -> p x = false) ->
  partition_point p (l ++ m) = Ok (length l).
Proof.
  intros H H'. unfold partition_point. rewrite prefix_length_app; auto.
  rewrite skipn_app, skipn_all, Nat.sub_diag. cbn. replace (forallb _ m) with true; auto.
  symmetry. apply forallb_forall. intros x Hx. rewrite H'; auto.
Qed.
Lemma row_point ind b l : ordered_line l ->
  partition_point (fun j => j - ind <? b) (map (fun cv => ind + fst cv) l) = Ok (length (filter (below b) l)).
Proof.
  intros H. rewrite (ordered_split b l H) at 1. rewrite map_app, partition_point_ok.
  - rewrite map_length. reflexivity.
  - intros x Hx. apply in_map_iff in Hx. destruct Hx as (cv & <- & Hcv). apply filter_In in Hcv. destruct Hcv as [_ E].
    unfold below in E. replace (ind + fst cv - ind) with (fst cv) by lia. auto.
  - intros x Hx. apply in_map_iff in Hx. destruct Hx as (cv & <- & Hcv). apply filter_In in Hcv. destruct Hcv as [_ E].
    unfold below in E. replace (ind + fst cv - ind) with (fst cv) by lia. apply negb_true_iff in E. auto.
Qed.

Section ROW.
  Context (l : list (nat * Qc)) (Hl : ordered_line l) (lo up : nat) (LU : lo <= up).
  Lemma filter_below_sub : filter (below up) l = filter (below lo) l ++ filter (inside lo up) l.
  Proof.
    rewrite (ordered_split lo (filter (below up) l)) by (apply ordered_filter; auto). rewrite !filter_filter. f_equal; apply filter_ext; intros cv; unfold below, inside.
    - destruct (Nat.ltb_spec (fst cv) lo), (Nat.ltb_spec (fst cv) up); cbn; auto; lia.
    - destruct (Nat.ltb_spec (fst cv) lo), (Nat.ltb_spec (fst cv) up), (Nat.leb_spec lo (fst cv)); cbn; auto; lia.
  Qed.
  Lemma firstn_below b : firstn (length (filter (below b) l)) l = filter (below b) l.
  Proof. rewrite (ordered_split b l Hl) at 2. rewrite firstn_app, firstn_all, Nat.sub_diag. cbn. apply app_nil_r. Qed.
  Lemma skipn_below b : skipn (length (filter (below b) l)) l = filter (fun cv => negb (below b cv)) l.
  Proof. rewrite (ordered_split b l Hl) at 2. rewrite skipn_app, skipn_all, Nat.sub_diag. reflexivity. Qed.
  Lemma seg_inside : seg l (length (filter (below lo) l)) (length (filter (below up) l)) = filter (inside lo up) l.
  Proof.
    unfold seg. rewrite firstn_skipn_comm.
    replace (length (filter (below lo) l) + (length (filter (below up) l) - length (filter (below lo) l))) with (length (filter (below up) l)).
    - rewrite firstn_below, filter_below_sub, skipn_app, skipn_all, Nat.sub_diag. reflexivity.
    - rewrite filter_below_sub, app_length. lia.
  Qed.
  Lemma points_le : length (filter (below lo) l) <= length (filter (below up) l) <= length l.
  Proof.
    split; [rewrite filter_below_sub, app_length; lia|].
    rewrite (ordered_split up l Hl) at 2. rewrite app_length. lia.
  Qed.
  Lemma filter_outside : filter (below lo) l ++ filter (fun cv => negb (below up cv)) l = filter (fun cv => negb (inside lo up cv)) l.
  Proof.
    rewrite (ordered_split lo (filter (fun cv => negb (inside lo up cv)) l)) by (apply ordered_filter; auto).
    rewrite !filter_filter. f_equal; apply filter_ext; intros cv; unfold below, inside.
    - destruct (Nat.ltb_spec (fst cv) lo), (Nat.ltb_spec (fst cv) up), (Nat.leb_spec lo (fst cv)); cbn; auto; lia.
    - destruct (Nat.ltb_spec (fst cv) lo), (Nat.ltb_spec (fst cv) up), (Nat.leb_spec lo (fst cv)); cbn; auto; lia.
  Qed.
End ROW.

Lemma count_rows A lo M p q : csr_wf A -> lo + M <= csr_m A ->
  (forall i cv, i < csr_m A -> In cv (csr_line A i) -> p (csr_ind A + fst cv) = q cv) ->
  count_row_nzval_submat A lo M p = Ok (map (fun i => length (filter q (csr_line A (lo + i)))) (seq 0 M)).
Proof.
  intros H HM Hp. unfold count_row_nzval_submat. apply mapM_ok. intros i Hi. apply in_seq in Hi.
  rewrite row_range_ok by (auto; lia). cbn [bind fst snd]. rewrite row_cols by (auto; lia). cbn [bind].
  unfold count_if. f_equal. assert (HP := Hp (lo + i)). clear Hp.
  induction (csr_line A (lo + i)) as [|cv l IH]; cbn; auto. rewrite HP by (auto; try lia; left; auto).
  destruct (q cv); cbn; rewrite IH; auto; intros; apply HP; auto; right; auto.
Qed.

Lemma put_all_nil {A} (l : list A) i : put_all l i [] = Ok l. Proof. reflexivity. Qed.
Lemma put_all_app {A} (xs ys : list A) : forall l i, put_all l i (xs ++ ys) = do l' <- put_all l i xs; put_all l' (i + length xs) ys.
Proof.
  induction xs as [|x xs IH]; intros l i; cbn [app put_all length bind].
  - rewrite Nat.add_0_r. reflexivity.
  - destruct (put l i x) as [l'|]; cbn [bind]; auto. rewrite IH. replace (S i + length xs) with (i + S (length xs)) by lia. reflexivity.
Qed.

(** the copy loop of an extraction: row [i] of the result is [R i] *)
Lemma offset_map_seq (R : nat -> list (nat * Qc)) M i : i <= M ->
  offset (map R (seq 0 M)) i = list_sum (map (fun k => length (R k)) (seq 0 i)).
Proof.
  intros H. unfold offset. rewrite map_map, firstn_map.
  assert (E : firstn i (seq 0 M) = seq 0 i).
  { apply (nth_ext' _ _ 0); [rewrite firstn_length, !seq_length; lia|]. intros q Hq. rewrite firstn_length, seq_length in Hq.
    rewrite nth_firstn, !seq_nth by lia. reflexivity. }
  rewrite E. reflexivity.
Qed.
Lemma ptr_offset ind (R : nat -> list (nat * Qc)) M i : i < M ->
  at_ (prefix_sums ind (map (fun k => length (R k)) (seq 0 M))) i = Ok (ind + offset (map R (seq 0 M)) i).
Proof.
  intros H. rewrite (at_ok _ _ 0) by (rewrite prefix_sums_length, map_length, seq_length; lia).
  rewrite prefix_sums_nth by (rewrite map_length, seq_length; lia). unfold offset. rewrite map_map. reflexivity.
Qed.

(** ** extract_submatrix *)
Definition cut (A : csr) (lo up : nat * nat) (i : nat) : list (nat * Qc) :=
  filter (inside (snd lo) (snd up)) (csr_line A (fst lo + i)).
Definition sub_rows (A : csr) (lo up : nat * nat) : list (list (nat * Qc)) :=
  map (fun i => map (fun cv => (fst cv - snd lo, snd cv)) (cut A lo up i)) (seq 0 (fst up - fst lo)).

Lemma concat_map_map {A B} (f : A -> B) (R : nat -> list A) l : concat (map (fun i => map f (R i)) l) = map f (concat (map R l)).
Proof. rewrite concat_map, map_map. reflexivity. Qed.

Lemma rowcnts_ok cnts ind m : length cnts = m -> rowptr_from_rowcnts m cnts (repeat 0 (m + 1)) ind = Ok (prefix_sums ind cnts).
Proof.
  intros L. unfold rowptr_from_rowcnts. apply rowptr_loop; auto.
  intros rp i Hi Lr. rewrite (at_ok cnts i 0) by lia. cbn [bind]. reflexivity.
Qed.
Lemma nnz_rows (R : nat -> list (nat * Qc)) l : list_sum (map (fun i => length (R i)) l) = length (concat (map R l)).
Proof. rewrite concat_length, map_map. reflexivity. Qed.

Lemma extract_submatrix_ok A lo up : csr_wf A ->
  fst lo <= fst up <= csr_m A -> snd lo <= snd up ->
  (forall i, fst lo <= i < fst up -> ordered_line (csr_line A i)) ->
  extract_submatrix A lo up = Ok (rows_csr (csr_ind A) (snd up - snd lo) (sub_rows A lo up)).
Proof.
  intros H HR HC HO. destruct lo as [rl cl], up as [ru cu]. cbn [fst snd] in *.
  unfold extract_submatrix. rewrite !minus_ok by lia. cbn [bind].
  rewrite (count_rows A rl (ru - rl) _ (inside cl cu)); auto; try lia.
  2:{ intros i cv Hi Hcv. replace (csr_ind A + fst cv - csr_ind A) with (fst cv) by lia. reflexivity. }
  cbn [bind].
  change (map (fun i => length (filter (inside cl cu) (csr_line A (rl + i)))) (seq 0 (ru - rl)))
    with (map (fun i => length (cut A (rl, cl) (ru, cu) i)) (seq 0 (ru - rl))).
  set (R := cut A (rl, cl) (ru, cu)). set (M := ru - rl).
  unfold csr_alloc. cbn [rowptr colind nzval]. rewrite rowcnts_ok by (rewrite map_length, seq_length; auto). cbn [bind].
  rewrite nnz_rows. set (rows := map R (seq 0 M)).
  assert (LR : length rows = M) by (unfold rows; rewrite map_length, seq_length; auto).
  rewrite (fill_rows (csr_ind A) rows); [| |rewrite LR; apply Permutation_refl].
  2:{ intros ci nz i Hi _ _. rewrite row_range_ok by (auto; lia). cbn [bind].
      rewrite LR in Hi. rewrite ptr_offset by auto. fold rows. cbn [bind]. rewrite minus_ok by lia. cbn [bind].
      replace (csr_ind A + offset rows i - csr_ind A) with (offset rows i) by lia.
      rewrite row_cols by (auto; lia). cbn [bind].
      assert (OL : ordered_line (csr_line A (rl + i))) by (apply HO; lia).
      rewrite !row_point by auto. cbn [bind].
      pose proof (points_le _ OL cl cu HC) as PL. destruct (Nat.leb_spec (length (filter (below cl) (csr_line A (rl + i)))) (length (filter (below cu) (csr_line A (rl + i))))); [|lia].
      destruct (row_part A (rl + i) _ _ H ltac:(lia) PL) as [P1 P2].
      rewrite P1, P2. cbn [bind]. rewrite seg_inside by auto.
      replace (nth i rows []) with (R i) by (unfold rows; rewrite nth_map_seq; auto). reflexivity. }
  cbn [bind].
  assert (MM : mapM (fun i => minus_ i cl) (map (fun cv => csr_ind A + fst cv) (concat rows)) =
               Ok (map (fun cv => csr_ind A + fst cv - cl) (concat rows))).
  { rewrite <- (map_map (fun cv => csr_ind A + fst cv) (fun c => c - cl)). apply mapM_ok. intros c Hc. apply minus_ok.
    apply in_map_iff in Hc. destruct Hc as (cv & <- & Hcv). apply in_concat in Hcv. destruct Hcv as (r & Hr & Hcv).
    apply in_map_iff in Hr. destruct Hr as (i & <- & Hi). unfold R, cut in Hcv. apply filter_In in Hcv.
    destruct Hcv as [_ E]. unfold inside in E. cbn [snd] in E. apply andb_prop in E. destruct E as [E _]. apply Nat.leb_le in E. lia. }
  rewrite MM. cbn [bind]. f_equal. unfold rows_csr, sub_rows. cbn [fst snd]. fold M R. rewrite !map_length, seq_length.
  rewrite (concat_map_map (fun cv => (fst cv - cl, snd cv)) R), !map_map. fold rows.
  rewrite (map_ext (fun x => length (map (fun cv : nat * Qc => (fst cv - cl, snd cv)) (R x))) (fun x => length (R x))) by (intros; apply map_length).
  f_equal.
  apply map_ext_in. intros cv Hcv. cbn [fst].
  apply in_concat in Hcv. destruct Hcv as (r & Hr & Hcv).
  apply in_map_iff in Hr. destruct Hr as (i & <- & Hi). unfold R, cut in Hcv. apply filter_In in Hcv.
  destruct Hcv as [_ E]. unfold inside in E. cbn [snd] in E. apply andb_prop in E. destruct E as [E _]. apply Nat.leb_le in E. lia.
Qed.

(** ** extract_submatrix_inclrow_exclcol *)
Definition excl_rows (A : csr) (lo up : nat * nat) : list (list (nat * Qc)) :=
  map (fun i => filter (fun cv => negb (inside (snd lo) (snd up) cv)) (csr_line A (fst lo + i))) (seq 0 (fst up - fst lo)).

Lemma extract_exclcol_ok A lo up : csr_wf A ->
  fst lo <= fst up <= csr_m A -> snd lo <= snd up ->
  (forall i, fst lo <= i < fst up -> ordered_line (csr_line A i)) ->
  extract_submatrix_inclrow_exclcol A lo up = Ok (rows_csr (csr_ind A) (csr_n A) (excl_rows A lo up)).
Proof.
  intros H HR HC HO. destruct lo as [rl cl], up as [ru cu]. cbn [fst snd] in *.
  unfold extract_submatrix_inclrow_exclcol. rewrite !minus_ok by lia. cbn [bind].
  rewrite (count_rows A rl (ru - rl) _ (fun cv => negb (inside cl cu cv))); auto; try lia.
  2:{ intros i cv Hi Hcv. replace (csr_ind A + fst cv - csr_ind A) with (fst cv) by lia. unfold inside.
      destruct (Nat.ltb_spec (fst cv) cl), (Nat.ltb_spec (fst cv) cu), (Nat.leb_spec cl (fst cv)), (Nat.leb_spec cu (fst cv)); cbn; auto; lia. }
  cbn [bind]. set (R := fun i => filter (fun cv => negb (inside cl cu cv)) (csr_line A (rl + i))). set (M := ru - rl).
  change (map (fun i => length (filter (fun cv => negb (inside cl cu cv)) (csr_line A (rl + i)))) (seq 0 M)) with (map (fun i => length (R i)) (seq 0 M)).
  unfold csr_alloc. cbn [rowptr colind nzval]. rewrite rowcnts_ok by (rewrite map_length, seq_length; auto). cbn [bind].
  rewrite nnz_rows. set (rows := map R (seq 0 M)).
  assert (LR : length rows = M) by (unfold rows; rewrite map_length, seq_length; auto).
  rewrite (fill_rows (csr_ind A) rows); [| |rewrite LR; apply Permutation_refl].
  2:{ intros ci nz i Hi _ _. rewrite row_range_ok by (auto; lia). cbn [bind].
      rewrite LR in Hi. rewrite ptr_offset by auto. fold rows. cbn [bind]. rewrite minus_ok by lia. cbn [bind].
      replace (csr_ind A + offset rows i - csr_ind A) with (offset rows i) by lia.
      rewrite row_cols by (auto; lia). cbn [bind].
      assert (OL : ordered_line (csr_line A (rl + i))) by (apply HO; lia).
      rewrite !row_point by auto. cbn [bind].
      pose proof (points_le _ OL cl cu HC) as PL. destruct (Nat.leb_spec (length (filter (below cl) (csr_line A (rl + i)))) (length (filter (below cu) (csr_line A (rl + i))))); [|lia].
      destruct (row_bounds A (rl + i) H ltac:(lia)) as (_ & _ & _ & B4). cbn zeta in B4.
      destruct (row_part A (rl + i) 0 (length (filter (below cl) (csr_line A (rl + i)))) H ltac:(lia) ltac:(lia)) as [P1 P2]. rewrite Nat.add_0_r in P1, P2.
      destruct (row_part A (rl + i) (length (filter (below cu) (csr_line A (rl + i)))) (length (csr_line A (rl + i))) H ltac:(lia) ltac:(lia)) as [P3 P4].
      assert (EE : nth (rl + i) (rowptr A) 0 - csr_ind A + length (csr_line A (rl + i)) = nth (S (rl + i)) (rowptr A) 0 - csr_ind A).
      { destruct (row_bounds A (rl + i) H ltac:(lia)) as (B1 & _). cbn zeta in B1. lia. }
      rewrite EE in P3, P4.
      rewrite P1, P2. cbn [bind].
      assert (S1 : seg (csr_line A (rl + i)) 0 (length (filter (below cl) (csr_line A (rl + i)))) = filter (below cl) (csr_line A (rl + i))).
      { unfold seg. rewrite Nat.sub_0_r. cbn [skipn]. apply firstn_below; auto. }
      assert (S2 : seg (csr_line A (rl + i)) (length (filter (below cu) (csr_line A (rl + i)))) (length (csr_line A (rl + i))) = filter (fun cv => negb (below cu cv)) (csr_line A (rl + i))).
      { unfold seg. rewrite skipn_below by auto. apply firstn_all2.
        rewrite (ordered_split cu (csr_line A (rl + i)) OL) at 2. rewrite app_length. lia. }
      rewrite P3, P4, S1, S2. cbn [bind].
      replace (nth i rows []) with (R i) by (unfold rows; rewrite nth_map_seq; auto). unfold R.
      rewrite <- (filter_outside _ OL cl cu HC). rewrite !map_app, !put_all_app.
      destruct (put_all ci (offset rows i) _) as [ci1|e1]; cbn [bind]; auto.
      rewrite !map_length. destruct (put_all ci1 _ _) as [ci2|e2]; cbn [bind]; auto.
      destruct (put_all nz _ _) as [nz1|e3]; cbn [bind]; auto. }
  cbn [bind]. f_equal. unfold rows_csr, excl_rows. cbn [fst snd]. fold M. rewrite !map_length, seq_length.
  f_equal. rewrite map_map. reflexivity.
Qed.

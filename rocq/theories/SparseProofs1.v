(** A compressed matrix is determined by its list of rows; filling the arrays of
    a compressed matrix row by row. *)
From Coq Require Import QArith Qcanon Sorting.Permutation Sorting.Sorted.
From Verif Require Import Base Sums Nondet Ham Asci Mem MemProofs Spmv SparseSpec CsrView CsrProofs SpmvProofs PSpmvProofs3 Sparse.
Local Open Scope nat_scope.

Definition rows_csr (ind n : nat) (rows : list (list (nat * Qc))) : csr :=
  mk_csr (length rows) n ind (prefix_sums ind (map (@length _) rows))
    (map (fun cv => ind + fst cv) (concat rows)) (map snd (concat rows)).

Lemma prefix_sums_shift l : forall a b, prefix_sums (a + b) l = map (fun x => a + x) (prefix_sums b l).
Proof. induction l; intros x b; cbn; auto. rewrite <- Nat.add_assoc, IHl. reflexivity. Qed.

Lemma rows_line ind n rows i : i < length rows -> csr_line (rows_csr ind n rows) i = nth i rows [].
Proof.
  intros H. unfold csr_line, rows_csr. cbn. rewrite <- (seg_rows rows i H). unfold line.
  assert (PS : prefix_sums ind (map (@length (nat * Qc)) rows) = map (fun x => ind + x) (prefix_sums 0 (map (@length (nat * Qc)) rows))).
  { rewrite <- prefix_sums_shift, Nat.add_0_r. reflexivity. }
  rewrite PS.
  assert (L : length (prefix_sums 0 (map (@length (nat * Qc)) rows)) = length rows + 1) by (rewrite prefix_sums_length, map_length; auto).
  rewrite !(nth_indep (map _ _) 0 (ind + 0)) by (rewrite map_length; lia).
  rewrite !(map_nth (fun x => ind + x)), !Nat.sub_0_r.
  replace (ind + nth i (prefix_sums 0 (map (length (A:=nat * Qc)) rows)) 0 - ind) with (nth i (prefix_sums 0 (map (length (A:=nat * Qc)) rows)) 0) by lia.
  replace (ind + nth (S i) (prefix_sums 0 (map (length (A:=nat * Qc)) rows)) 0 - ind) with (nth (S i) (prefix_sums 0 (map (length (A:=nat * Qc)) rows)) 0) by lia.
  f_equal. unfold seg. rewrite !skipn_map, !firstn_map, !map_map. apply map_ext. intros; lia.
Qed.

Lemma rows_csr_wf ind n rows : (forall r, In r rows -> forall cv, In cv r -> fst cv < n) -> csr_wf (rows_csr ind n rows).
Proof.
  intros H. unfold csr_wf, rows_csr, wf_compressed. cbn. rewrite prefix_sums_length, !map_length. split; [reflexivity|].
  split. { destruct (map (@length (nat * Qc)) rows); reflexivity. }
  split; [|split; [|split]]; auto.
  - intros i Hi. rewrite !prefix_sums_nth by (rewrite map_length; lia).
    rewrite list_sum_firstn_S by (rewrite map_length; lia). lia.
  - rewrite prefix_sums_nth by (rewrite map_length; lia). rewrite firstn_all2 by (rewrite map_length; lia).
    rewrite concat_length. reflexivity.
  - intros c Hc. apply in_map_iff in Hc. destruct Hc as ([c' v] & <- & Hc). cbn.
    apply in_concat in Hc. destruct Hc as (r & Hr & Hc). specialize (H r Hr _ Hc). cbn in H. lia.
Qed.

Lemma rows_entry ind n rows i j : i < length rows -> csr_entry (rows_csr ind n rows) i j = entry (nth i rows []) j.
Proof. intros H. unfold csr_entry. rewrite rows_line; auto. Qed.

(** lines of a well-formed compressed format, cut out of the arrays *)
Section LINES.
  Context {ind m n : nat} {ptr idx : list nat} {val : list Qc} (H : wf_compressed ind m n ptr idx val).

  Lemma ptr_len : length ptr = m + 1. Proof. apply H. Qed.
  Lemma ptr_step i : i < m -> nth i ptr 0 <= nth (S i) ptr 0. Proof. apply H. Qed.
  Lemma line_length i : i < m -> length (line ind ptr idx val i) = nth (S i) ptr 0 - nth i ptr 0.
  Proof.
    intros Hi. pose proof (ptr_range _ _ _ _ _ _ H i ltac:(lia)). pose proof (ptr_range _ _ _ _ _ _ H (S i) ltac:(lia)).
    pose proof (ptr_step i Hi). destruct H as (_ & _ & _ & _ & V & _).
    rewrite line_seq; try lia. rewrite map_length, seq_length. lia.
  Qed.
  Lemma ptr_prefix k : k <= m -> nth k ptr 0 = ind + list_sum (map (fun i => length (line ind ptr idx val i)) (seq 0 k)).
  Proof.
    induction k as [|k IH]; intros Hk; [cbn; rewrite Nat.add_0_r; apply H|].
    rewrite seq_S, map_app, list_sum_app. cbn [map list_sum fold_right plus]. rewrite line_length by lia.
    pose proof (ptr_step k ltac:(lia)). rewrite <- (Nat.add_0_r (nth (S k) ptr 0 - nth k ptr 0)) . cbn. rewrite Nat.add_0_r.
    specialize (IH ltac:(lia)). lia.
  Qed.
  Lemma ptr_lines : ptr = prefix_sums ind (map (@length _) (map (line ind ptr idx val) (seq 0 m))).
  Proof.
    apply (nth_ext' _ _ 0).
    - rewrite prefix_sums_length, !map_length, seq_length. apply H.
    - rewrite ptr_len. intros i Hi. rewrite prefix_sums_nth by (rewrite !map_length, seq_length; lia).
      rewrite ptr_prefix by lia. f_equal. rewrite map_map, firstn_map. rewrite <- (firstn_skipn i (seq 0 m)) at 1.
      f_equal. f_equal. rewrite firstn_app, firstn_firstn.
      assert (E : firstn i (seq 0 m) = seq 0 i).
      { apply (nth_ext' _ _ 0); [rewrite firstn_length, !seq_length; lia|]. intros q Hq. rewrite firstn_length, seq_length in Hq.
        rewrite nth_firstn, !seq_nth by lia. reflexivity. }
      rewrite E, Nat.min_id, seq_length, E, Nat.sub_diag. cbn. rewrite app_nil_r. reflexivity.
  Qed.
  (** all the stored elements, in order *)
  Definition pairs (a b : nat) : list (nat * Qc) := map (fun j => (nth j idx 0 - ind, nth j val 0%Qc)) (seq a (b - a)).
  Lemma line_pairs i : i < m -> line ind ptr idx val i = pairs (nth i ptr 0 - ind) (nth (S i) ptr 0 - ind).
  Proof.
    intros Hi. pose proof (ptr_range _ _ _ _ _ _ H i ltac:(lia)). pose proof (ptr_range _ _ _ _ _ _ H (S i) ltac:(lia)).
    pose proof (ptr_step i Hi). destruct H as (_ & _ & _ & _ & V & _).
    rewrite line_seq; try lia. unfold pairs.
    set (a := nth i ptr 0 - ind). set (b := nth (S i) ptr 0 - ind).
    replace (seq a (b - a)) with (map (fun j => a + j) (seq 0 (b - a))).
    - rewrite map_map. reflexivity.
    - clear. generalize (b - a) as k. clearbody a. clear. intros k. apply (nth_ext' _ _ 0); [rewrite map_length, !seq_length; auto|].
      intros i0 Hi0. rewrite map_length, seq_length in Hi0. rewrite nth_map_seq, seq_nth by auto. reflexivity.
  Qed.
  Lemma pairs_app a b c : a <= b -> b <= c -> pairs a b ++ pairs b c = pairs a c.
  Proof.
    intros. unfold pairs. rewrite <- map_app. f_equal. replace (c - a) with ((b - a) + (c - b)) by lia.
    rewrite seq_app. f_equal. f_equal. lia.
  Qed.
  Lemma lines_pairs k : k <= m -> concat (map (line ind ptr idx val) (seq 0 k)) = pairs 0 (nth k ptr 0 - ind).
  Proof.
    induction k as [|k IH]; intros Hk.
    - destruct H as (_ & E & _). cbn. rewrite E, Nat.sub_diag. reflexivity.
    - rewrite seq_S, map_app, concat_app, IH by lia. cbn [map concat plus]. rewrite app_nil_r, line_pairs by lia.
      pose proof (ptr_step k ltac:(lia)). apply pairs_app; lia.
  Qed.
  Lemma lines_all : concat (map (line ind ptr idx val) (seq 0 m)) = combine (map (fun c => c - ind) idx) val.
  Proof.
    rewrite lines_pairs by lia. destruct H as (_ & _ & _ & E & V & _). rewrite E.
    replace (ind + length idx - ind) with (length idx) by lia. unfold pairs. rewrite Nat.sub_0_r.
    rewrite <- (combine_map2 (fun j => nth j idx 0 - ind) (fun j => nth j val 0%Qc)). f_equal.
    - rewrite <- (map_map (fun j => nth j idx 0) (fun c => c - ind)). f_equal. apply (nth_ext' _ _ 0); rewrite ?map_length, ?seq_length; auto.
      intros i Hi. rewrite nth_map_seq; auto.
    - apply (nth_ext' _ _ 0%Qc); rewrite ?map_length, ?seq_length; auto. intros i Hi. rewrite nth_map_seq; auto.
  Qed.
  Lemma idx_lines : idx = map (fun cv => ind + fst cv) (concat (map (line ind ptr idx val) (seq 0 m))).
  Proof.
    rewrite lines_all. destruct H as (_ & _ & _ & _ & V & B). clear H. revert val V. induction idx as [|c l IH]; intros [|v vs] V; cbn in *; try lia; auto.
    f_equal; [|apply IH; auto]. specialize (B c (or_introl eq_refl)). lia.
  Qed.
  Lemma val_lines : val = map snd (concat (map (line ind ptr idx val) (seq 0 m))).
  Proof.
    rewrite lines_all. destruct H as (_ & _ & _ & _ & V & _). clear H. revert val V. induction idx as [|c l IH]; intros [|v vs] V; cbn in *; try lia; auto.
    f_equal; auto.
  Qed.
  (** array segments *)
  Lemma seg_idx i : i < m -> seg idx (nth i ptr 0 - ind) (nth (S i) ptr 0 - ind) = map (fun cv => ind + fst cv) (line ind ptr idx val i).
  Proof.
    intros Hi. pose proof (ptr_range _ _ _ _ _ _ H i ltac:(lia)). pose proof (ptr_range _ _ _ _ _ _ H (S i) ltac:(lia)).
    pose proof (ptr_step i Hi). destruct H as (_ & _ & _ & _ & V & B).
    rewrite line_seq; try lia. rewrite (seg_seq _ _ _ 0) by lia. rewrite map_map. apply map_ext_in. intros j Hj. apply in_seq in Hj. cbn [fst].
    specialize (B (nth (nth i ptr 0 - ind + j) idx 0) ltac:(apply nth_In; lia)). lia.
  Qed.
  Lemma seg_val i : i < m -> seg val (nth i ptr 0 - ind) (nth (S i) ptr 0 - ind) = map snd (line ind ptr idx val i).
  Proof.
    intros Hi. pose proof (ptr_range _ _ _ _ _ _ H i ltac:(lia)). pose proof (ptr_range _ _ _ _ _ _ H (S i) ltac:(lia)).
    pose proof (ptr_step i Hi). destruct H as (_ & _ & _ & _ & V & B).
    rewrite line_seq; try lia. rewrite (seg_seq _ _ _ 0%Qc) by lia. rewrite map_map. reflexivity.
  Qed.
End LINES.

Definition csr_rows_of (A : csr) : list (list (nat * Qc)) := map (csr_line A) (seq 0 (csr_m A)).
Lemma rows_of_csr A : csr_wf A -> A = rows_csr (csr_ind A) (csr_n A) (csr_rows_of A).
Proof.
  intros H. destruct A as [m n ind rp ci nz]. unfold csr_wf in H. unfold rows_csr, csr_rows_of. cbn in *.
  change (csr_line {| csr_m := m; csr_n := n; csr_ind := ind; rowptr := rp; colind := ci; nzval := nz |}) with (line ind rp ci nz).
  rewrite map_length, seq_length, <- (ptr_lines H), <- (idx_lines H), <- (val_lines H). reflexivity.
Qed.
Lemma csr_rows_len A : length (csr_rows_of A) = csr_m A.
Proof. unfold csr_rows_of. rewrite map_length, seq_length. reflexivity. Qed.
Lemma csr_rows_nth A i : i < csr_m A -> nth i (csr_rows_of A) [] = csr_line A i.
Proof. intros. unfold csr_rows_of. apply nth_map_seq. auto. Qed.
Lemma csr_rows_bound A : csr_wf A -> forall r, In r (csr_rows_of A) -> forall cv, In cv r -> fst cv < csr_n A.
Proof.
  intros H r Hr cv Hcv. apply in_map_iff in Hr. destruct Hr as (i & <- & Hi). apply in_seq in Hi.
  apply (csr_line_In A i cv H ltac:(lia) Hcv).
Qed.

(** reading a row *)
Lemma row_range_ok A i : csr_wf A -> i < csr_m A ->
  row_range A i = Ok (nth i (rowptr A) 0 - csr_ind A, nth (S i) (rowptr A) 0 - csr_ind A).
Proof.
  intros H Hi. unfold row_range. pose proof (ptr_range _ _ _ _ _ _ H i ltac:(lia)). pose proof (ptr_range _ _ _ _ _ _ H (S i) ltac:(lia)).
  pose proof (ptr_len H). rewrite !(at_ok _ _ 0) by lia. cbn [bind]. rewrite Nat.add_1_r, !minus_ok by lia. reflexivity.
Qed.
Lemma row_bounds A i : csr_wf A -> i < csr_m A ->
  let a := nth i (rowptr A) 0 - csr_ind A in let b := nth (S i) (rowptr A) 0 - csr_ind A in
  a <= b /\ b <= length (colind A) /\ b <= length (nzval A) /\ b - a = length (csr_line A i).
Proof.
  intros H Hi. pose proof (ptr_range _ _ _ _ _ _ H i ltac:(lia)). pose proof (ptr_range _ _ _ _ _ _ H (S i) ltac:(lia)).
  pose proof (ptr_step H i Hi). unfold csr_line. rewrite (line_length H) by auto. destruct H as (_ & _ & _ & _ & V & _). cbn zeta. lia.
Qed.
Lemma row_cols A i : csr_wf A -> i < csr_m A ->
  slice_ (colind A) (nth i (rowptr A) 0 - csr_ind A) (nth (S i) (rowptr A) 0 - csr_ind A) = Ok (map (fun cv => csr_ind A + fst cv) (csr_line A i)).
Proof.
  intros H Hi. destruct (row_bounds A i H Hi) as (B1 & B2 & _). rewrite slice_ok by auto. f_equal. apply (seg_idx H i Hi).
Qed.
Lemma row_vals A i : csr_wf A -> i < csr_m A ->
  slice_ (nzval A) (nth i (rowptr A) 0 - csr_ind A) (nth (S i) (rowptr A) 0 - csr_ind A) = Ok (map snd (csr_line A i)).
Proof.
  intros H Hi. destruct (row_bounds A i H Hi) as (B1 & _ & B3 & _). rewrite slice_ok by auto. f_equal. apply (seg_val H i Hi).
Qed.
(** part of a row *)
Lemma seg_seg {A} (l : list A) a b c e : a + e <= b -> seg l (a + c) (a + e) = seg (seg l a b) c e.
Proof.
  intros H. unfold seg. rewrite <- skipn_skipn'. replace (a + e - (a + c)) with (e - c) by lia.
  rewrite skipn_firstn_comm, firstn_firstn. f_equal. lia.
Qed.
Lemma row_part A i c e : csr_wf A -> i < csr_m A -> c <= e <= length (csr_line A i) ->
  slice_ (colind A) (nth i (rowptr A) 0 - csr_ind A + c) (nth i (rowptr A) 0 - csr_ind A + e) = Ok (map (fun cv => csr_ind A + fst cv) (seg (csr_line A i) c e)) /\
  slice_ (nzval A) (nth i (rowptr A) 0 - csr_ind A + c) (nth i (rowptr A) 0 - csr_ind A + e) = Ok (map snd (seg (csr_line A i) c e)).
Proof.
  intros H Hi Hce. destruct (row_bounds A i H Hi) as (B1 & B2 & B3 & B4). cbn zeta in *.
  pose proof (seg_idx H i Hi) as S1. pose proof (seg_val H i Hi) as S2.
  split; rewrite slice_ok by lia; f_equal; fold (csr_line A i) in *; unfold seg; rewrite <- firstn_map, <- skipn_map.
  - fold (csr_line A i) in S1. rewrite <- S1.
    change (seg (colind A) (nth i (rowptr A) 0 - csr_ind A + c) (nth i (rowptr A) 0 - csr_ind A + e) = seg (seg (colind A) (nth i (rowptr A) 0 - csr_ind A) (nth (S i) (rowptr A) 0 - csr_ind A)) c e).
    apply seg_seg. lia.
  - fold (csr_line A i) in S2. rewrite <- S2.
    change (seg (nzval A) (nth i (rowptr A) 0 - csr_ind A + c) (nth i (rowptr A) 0 - csr_ind A + e) = seg (seg (nzval A) (nth i (rowptr A) 0 - csr_ind A) (nth (S i) (rowptr A) 0 - csr_ind A)) c e).
    apply seg_seg. lia.
Qed.

(** ** writing rows *)
Lemma put_all_mid {A} (a b c x : list A) : length x = length b -> put_all (a ++ b ++ c) (length a) x = Ok (a ++ x ++ c).
Proof.
  intros L. rewrite put_all_ok. destruct (Nat.leb_spec (length x) (length (b ++ c))); [|rewrite app_length in *; lia].
  do 3 f_equal. rewrite L, skipn_app, skipn_all, Nat.sub_diag. reflexivity.
Qed.
Definition offset {A} (L : list (list A)) (i : nat) : nat := list_sum (firstn i (map (@length A) L)).
Lemma put_row {A} (L : list (list A)) i (x : list A) : i < length L -> length x = length (nth i L []) ->
  put_all (concat L) (offset L i) x = Ok (concat (upd L i x)).
Proof.
  intros Hi Hx.
  assert (SP : L = firstn i L ++ nth i L [] :: skipn (S i) L).
  { clear Hx. revert i Hi. induction L as [|r L IH]; intros [|i] Hi; cbn in *; try lia; auto. f_equal. apply IH. lia. }
  assert (SP' : upd L i x = firstn i L ++ x :: skipn (S i) L).
  { clear Hx SP. revert i Hi. induction L as [|r L IH]; intros [|i] Hi; cbn in *; try lia; auto. f_equal. apply IH. lia. }
  rewrite SP'. rewrite SP at 1. rewrite !concat_app. cbn [concat].
  unfold offset. rewrite firstn_map, <- concat_length. apply put_all_mid. auto.
Qed.
Lemma offset_same {A B} (L : list (list A)) (L' : list (list B)) i : map (@length A) L = map (@length B) L' -> offset L i = offset L' i.
Proof. unfold offset. intros ->. reflexivity. Qed.
Lemma upd_map_length {A} (L : list (list A)) i x : i < length L -> length x = length (nth i L []) ->
  map (@length A) (upd L i x) = map (@length A) L.
Proof.
  revert i. induction L as [|r L IH]; intros [|i] Hi Hx; cbn in *; try lia; auto; f_equal; auto. apply IH; auto; lia.
Qed.

(** a loop over rows, in any order, each iteration writing its row of both arrays *)
Section FILL.
  Context (ind : nat) (rows : list (list (nat * Qc))).
  Let cols := map (map (fun cv : nat * Qc => ind + fst cv)) rows.
  Let vals := map (map (@snd nat Qc)) rows.
  Variable f : list nat * list Qc -> nat -> res (list nat * list Qc).
  Hypothesis Hf : forall ci nz i, i < length rows ->
    length ci = length (concat rows) -> length nz = length (concat rows) ->
    f (ci, nz) i =
      do ci' <- put_all ci (offset rows i) (map (fun cv => ind + fst cv) (nth i rows []));
      do nz' <- put_all nz (offset rows i) (map snd (nth i rows []));
      Ok (ci', nz').

  Lemma fill_rows order : Permutation (seq 0 (length rows)) order ->
    foldM order f (repeat 0 (length (concat rows)), repeat 0%Qc (length (concat rows)))
    = Ok (map (fun cv => ind + fst cv) (concat rows), map snd (concat rows)).
  Proof.
    intros P.
    assert (LC : map (@length _) cols = map (@length _) rows) by (unfold cols; rewrite map_map; apply map_ext; intros; apply map_length).
    assert (LV : map (@length _) vals = map (@length _) rows) by (unfold vals; rewrite map_map; apply map_ext; intros; apply map_length).
    destruct (foldM_inv f (fun done s => exists L1 L2, s = (concat L1, concat L2) /\
        map (@length _) L1 = map (@length _) rows /\ map (@length _) L2 = map (@length _) rows /\
        forall i, i < length rows -> In i done -> nth i L1 [] = nth i cols [] /\ nth i L2 [] = nth i vals [])
      order [] (repeat 0 (length (concat rows)), repeat 0%Qc (length (concat rows)))) as (s' & E & L1 & L2 & -> & M1 & M2 & D).
    - exists (map (fun r => repeat 0 (length r)) rows), (map (fun r => repeat 0%Qc (length r)) rows).
      split; [|split; [|split]].
      + assert (Q : forall X (x : X), repeat x (length (concat rows)) = concat (map (fun r => repeat x (length r)) rows)).
        { intros X x. clear. induction rows as [|r R IH]; cbn; auto. rewrite app_length, repeat_app, IH. reflexivity. }
        rewrite <- !Q. reflexivity.
      + rewrite map_map. apply map_ext. intros; apply repeat_length.
      + rewrite map_map. apply map_ext. intros; apply repeat_length.
      + intros i _ [].
    - intros done i s (L1 & L2 & -> & M1 & M2 & D) Hi.
      assert (Hi' : i < length rows).
      { apply Permutation_sym in P. apply (Permutation_in _ P) in Hi. apply in_seq in Hi. lia. }
      assert (G1 : length L1 = length rows) by (rewrite <- (map_length (@length nat)), M1, map_length; auto).
      assert (G2 : length L2 = length rows) by (rewrite <- (map_length (@length Qc)), M2, map_length; auto).
      assert (N1 : length (nth i L1 []) = length (nth i rows [])).
      { change 0 with (@length nat []). rewrite <- (map_nth (@length nat)), M1. change (@length nat []) with (@length (nat * Qc) []). apply map_nth. }
      assert (N2 : length (nth i L2 []) = length (nth i rows [])).
      { rewrite <- (map_nth (@length Qc)), M2. change (@length Qc []) with (@length (nat * Qc) []). apply map_nth. }
      rewrite Hf; auto; try (rewrite !concat_length; congruence).
      assert (P1 : put_all (concat L1) (offset rows i) (map (fun cv => ind + fst cv) (nth i rows [])) = Ok (concat (upd L1 i (map (fun cv => ind + fst cv) (nth i rows []))))).
      { rewrite <- (offset_same L1 rows i M1). apply put_row; rewrite ?map_length; lia. }
      assert (P2 : put_all (concat L2) (offset rows i) (map snd (nth i rows [])) = Ok (concat (upd L2 i (map snd (nth i rows []))))).
      { rewrite <- (offset_same L2 rows i M2). apply put_row; rewrite ?map_length; lia. }
      rewrite P1. cbn [bind]. rewrite P2. cbn [bind].
      eexists. split; [reflexivity|]. eexists _, _. split; [reflexivity|].
      rewrite !upd_map_length by (rewrite ?map_length; lia). split; [auto|]. split; [auto|].
      intros j Hj Hd. rewrite !upd_nth by lia.
      destruct (Nat.eqb_spec j i) as [->|n].
      + unfold cols, vals. split.
        * change (@nil nat) with (map (fun cv : nat * Qc => ind + fst cv) []). rewrite map_nth. reflexivity.
        * change (@nil Qc) with (map (@snd nat Qc) []). rewrite map_nth. reflexivity.
      + apply D; auto. apply in_app_or in Hd. destruct Hd as [|[->|[]]]; auto. congruence.
    - rewrite E. cbn [app] in D.
      assert (G1 : length L1 = length rows) by (rewrite <- (map_length (@length nat)), M1, map_length; auto).
      assert (G2 : length L2 = length rows) by (rewrite <- (map_length (@length Qc)), M2, map_length; auto).
      assert (A : forall i, i < length rows -> In i order) by (intros i Hi; apply (Permutation_in _ P), in_seq; lia).
      assert (L1 = cols) as ->.
      { apply (nth_ext' _ _ []); [unfold cols; rewrite map_length; lia|]. intros i Hi. apply D; [lia|apply A; lia]. }
      assert (L2 = vals) as ->.
      { apply (nth_ext' _ _ []); [unfold vals; rewrite map_length; lia|]. intros i Hi. apply D; [lia|apply A; lia]. }
      unfold cols, vals. rewrite !concat_map. reflexivity.
  Qed.
End FILL.

(** row pointers accumulated in a loop *)
Lemma foldM_seq {St} (f : St -> nat -> res St) (I : nat -> St -> Prop) s0 n : forall s,
  I s0 s -> (forall k s, s0 <= k < s0 + n -> I k s -> exists s', f s k = Ok s' /\ I (S k) s') ->
  exists s', foldM (seq s0 n) f s = Ok s' /\ I (s0 + n) s'.
Proof.
  revert s0. induction n as [|n IH]; intros s0 s H0 H; cbn [seq foldM].
  - exists s. rewrite Nat.add_0_r. auto.
  - destruct (H s0 s ltac:(lia) H0) as (s1 & E & H1). rewrite E. cbn [bind].
    destruct (IH (Datatypes.S s0) s1 H1) as (s2 & E2 & H2).
    + intros; apply H; auto; lia.
    + exists s2. split; auto. replace (s0 + Datatypes.S n) with (Datatypes.S s0 + n) by lia. auto.
Qed.

Lemma rowptr_loop (f : list nat -> nat -> res (list nat)) cnts ind m :
  length cnts = m ->
  (forall rp i, i < m -> length rp = m + 1 -> f rp i = do x <- at_ rp i; put rp (i + 1) (x + nth i cnts 0)) ->
  (do rp <- put (repeat 0 (m + 1)) 0 ind; foldM (seq 0 m) f rp) = Ok (prefix_sums ind cnts).
Proof.
  intros L Hf. rewrite put_ok by (rewrite repeat_length; lia). cbn [bind].
  destruct (foldM_seq f (fun k rp => length rp = m + 1 /\
      forall j, j <= k -> nth j rp 0 = nth j (prefix_sums ind cnts) 0) 0 m
    (upd (repeat 0 (m + 1)) 0 ind)) as (s & E & Ls & R).
  - rewrite upd_length, repeat_length. split; [lia|].
    intros k Hk. assert (k = 0) by lia. subst k. rewrite upd_nth by (rewrite repeat_length; lia). cbn. destruct cnts; reflexivity.
  - intros k rp Hk (Lr & R). rewrite Hf by lia. rewrite (at_ok _ _ 0) by lia. cbn [bind]. rewrite put_ok by lia.
    eexists. split; [reflexivity|]. rewrite upd_length. split; [auto|]. intros j Hj. rewrite upd_nth by lia.
    destruct (Nat.eqb_spec j (k + 1)) as [->|n]; [|apply R; lia].
    rewrite (R k) by lia. rewrite !prefix_sums_nth by lia. rewrite Nat.add_1_r, list_sum_firstn_S by lia. lia.
  - rewrite E. f_equal. apply (nth_ext' _ _ 0); [rewrite prefix_sums_length; lia|]. intros i Hi. apply R. lia.
Qed.

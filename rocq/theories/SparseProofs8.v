(** Row and column permutations of a compressed-row matrix. *)
From Coq Require Import QArith Qcanon Sorting.Permutation Sorting.Sorted.
From Verif Require Import Base SDProofs SDProofs4 Sums Nondet Ham Asci Constraint Mem MemProofs Spmv SparseSpec CsrView SpmvSpec CsrProofs SpmvProofs PSpmvProofs2 PSpmvProofs3 Sparse ConvSpec SparseProofs1 SparseProofs2 SparseProofs3 SparseProofs4 SparseProofs6 SparseProofs7.
Local Open Scope nat_scope.

Definition perm_rows (A : csr) (p : list nat) : list (list (nat * Qc)) := map (csr_line A) p.
Lemma perm_rows_len A p : is_perm (csr_m A) p -> length (perm_rows A p) = csr_m A.
Proof. intros P. unfold perm_rows. rewrite map_length. apply perm_len, P. Qed.
Lemma perm_rows_nth A p i : is_perm (csr_m A) p -> i < csr_m A -> nth i (perm_rows A p) [] = csr_line A (nth i p 0).
Proof.
  intros P Hi. unfold perm_rows. rewrite (nth_indep _ [] (csr_line A 0)) by (rewrite map_length, (perm_len _ _ P); auto). apply map_nth.
Qed.
Lemma perm_rows_nnz A p : csr_wf A -> is_perm (csr_m A) p -> length (concat (perm_rows A p)) = length (nzval A).
Proof.
  intros H P. assert (E : nzval A = map snd (concat (csr_rows_of A))) by (rewrite (rows_of_csr A H) at 1; reflexivity).
  rewrite E, map_length. unfold perm_rows, csr_rows_of. unfold is_perm in P. rewrite !concat_length.
  generalize (csr_line A). clear -P. intros f. induction P; cbn [map list_sum fold_right]; unfold list_sum in *; cbn [fold_right]; lia.
Qed.
Lemma permuted_rowptr_ok A p : csr_wf A -> is_perm (csr_m A) p ->
  permuted_rowptr A p (repeat 0 (csr_m A + 1)) = Ok (prefix_sums (csr_ind A) (map (@length _) (perm_rows A p))).
Proof.
  intros H P. unfold permuted_rowptr. apply rowptr_loop; [rewrite map_length; apply perm_rows_len; auto|].
  intros rp i Hi L. pose proof (perm_len _ _ P) as LP. rewrite (at_ok _ _ 0) by lia. cbn [bind].
  pose proof (perm_bound _ _ i P Hi) as HB. rewrite row_range_ok by auto. cbn [bind fst snd].
  destruct (row_bounds A (nth i p 0) H HB) as (B1 & _ & _ & B4). rewrite minus_ok by auto. cbn [bind]. rewrite B4.
  assert (E : nth i (map (@length (nat * Qc)) (perm_rows A p)) 0 = length (csr_line A (nth i p 0))).
  { change 0 with (length (@nil (nat * Qc))) at 1. rewrite (map_nth (@length (nat * Qc))), perm_rows_nth by auto. reflexivity. }
  rewrite E. reflexivity.
Qed.
Lemma ptr_minus ind cnts i m : length cnts = m -> i < m -> 
  (do rp <- at_ (prefix_sums ind cnts) i; minus_ rp ind) = Ok (list_sum (firstn i cnts)).
Proof.
  intros L Hi. rewrite (at_ok _ _ 0) by (rewrite prefix_sums_length; lia). cbn [bind]. rewrite prefix_sums_nth by lia.
  rewrite minus_ok by lia. f_equal. lia.
Qed.
Lemma permute_rows_ok A p : csr_wf A -> is_perm (csr_m A) p ->
  always (permute_rows A p) (fun B => B = rows_csr (csr_ind A) (csr_n A) (perm_rows A p)).
Proof.
  intros H P. unfold permute_rows. cbn [csr_alloc rowptr colind nzval].
  apply always_bind with (P := fun x => x = prefix_sums (csr_ind A) (map (@length _) (perm_rows A p))).
  { eapply always_det; [|reflexivity]. apply permuted_rowptr_ok; auto. }
  intros rp ->.
  apply always_bind with (P := fun s => s = (map (fun cv => csr_ind A + fst cv) (concat (perm_rows A p)), map snd (concat (perm_rows A p)))).
  2:{ intros s ->. apply always_ret. unfold rows_csr. rewrite perm_rows_len; auto. }
  match goal with |- always (parallel_for _ ?f _) _ => assert (HF : forall ci nz i, i < length (perm_rows A p) -> length ci = length (concat (perm_rows A p)) -> length nz = length (concat (perm_rows A p)) ->
    f (ci, nz) i = do ci' <- put_all ci (offset (perm_rows A p) i) (map (fun cv => csr_ind A + fst cv) (nth i (perm_rows A p) []));
      do nz' <- put_all nz (offset (perm_rows A p) i) (map snd (nth i (perm_rows A p) [])); Ok (ci', nz')) end.
  { intros ci nz i Hi _ _. rewrite perm_rows_len in Hi by auto. pose proof (perm_len _ _ P) as LP. pose proof (perm_bound _ _ i P Hi) as HB.
    cbv beta iota. rewrite (at_ok p _ 0) by lia. cbn [bind]. rewrite row_range_ok by auto. cbn [bind].
    assert (PM := ptr_minus (csr_ind A) (map (@length _) (perm_rows A p)) i (csr_m A) ltac:(rewrite map_length; apply perm_rows_len; auto) Hi).
    destruct (at_ (prefix_sums (csr_ind A) (map (length (A:=nat * Qc)) (perm_rows A p))) i) as [rp|]; [|discriminate]. cbn [bind] in *. rewrite PM. cbn [bind].
    rewrite row_cols, row_vals by auto. cbn [bind]. rewrite perm_rows_nth by auto. reflexivity. }
  match goal with |- always (parallel_for _ ?f _) _ => pose proof (fill_rows (csr_ind A) (perm_rows A p) f HF) as FR end.
  rewrite perm_rows_len in FR by auto. rewrite perm_rows_nnz in FR by auto.
  split.
  - eexists. exists (seq 0 (csr_m A)). split; [auto|reflexivity].
  - intros r (order & PO & ->). eexists. split; [apply FR; auto|reflexivity].
Qed.

(** ** columns *)
Lemma foldND_inv {I St} (f : St -> I -> nd St) (J : list I -> St -> Prop) (l : list I) : forall done s,
  J done s -> (forall done x s, J done s -> In x l -> always (f s x) (fun s' => J (done ++ [x]) s')) ->
  always (foldND l f s) (fun s' => J (done ++ l) s').
Proof.
  induction l as [|x l IH]; intros done s H0 H; cbn [foldND].
  - rewrite app_nil_r. apply always_ret; auto.
  - eapply always_bind; [apply (H done x s H0); left; auto|]. cbv beta. intros s' H1.
    replace (done ++ x :: l) with ((done ++ [x]) ++ l) by (rewrite <- app_assoc; reflexivity).
    apply IH; auto. intros; apply H; auto. right; auto.
Qed.
Lemma fill_pair {S1 S2 : Type} (x : nat -> S1) (y : nat -> S2) o (f : list S1 * list S2 -> nat -> res (list S1 * list S2)) n :
  (forall a b j, j < n -> f (a, b) j = do a' <- put a (o + j) (x j); do b' <- put b (o + j) (y j); Ok (a', b')) ->
  forall a b, o + n <= length a -> o + n <= length b ->
  foldM (seq 0 n) f (a, b) = do a' <- put_all a o (map x (seq 0 n)); do b' <- put_all b o (map y (seq 0 n)); Ok (a', b').
Proof.
  intros Hf a b La Lb.
  assert (G : forall k s a b, s + k = n -> o + n <= length a -> o + n <= length b ->
    foldM (seq s k) f (a, b) = do a' <- put_all a (o + s) (map x (seq s k)); do b' <- put_all b (o + s) (map y (seq s k)); Ok (a', b')).
  { clear a b La Lb. induction k as [|k IH]; intros s a b E La Lb; cbn [seq map put_all foldM]; [reflexivity|].
    rewrite Hf by lia. rewrite !put_ok by lia. cbn [bind]. rewrite IH by (rewrite ?upd_length; lia).
    rewrite Nat.add_succ_r. reflexivity. }
  rewrite (G n 0 a b) by lia. rewrite Nat.add_0_r. reflexivity.
Qed.
Lemma keyed_sort (keys : list nat) (l : list nat) :
  always (std_sort (fun i j => nth i keys 0 <? nth j keys 0) l)
    (fun l' => Permutation l l' /\ StronglySorted le (map (fun i => nth i keys 0) l')).
Proof.
  eapply always_weaken; [|apply std_sort_always].
  - cbv beta. intros l' [P ST]. split; auto. revert ST. apply sorted_map. intros x y E. apply Nat.ltb_ge in E. auto.
  - intros x y E. apply Nat.ltb_lt in E. apply Nat.ltb_ge. lia.
  - intros x y z E1 E2. apply Nat.ltb_ge in E1, E2. apply Nat.ltb_ge. lia.
Qed.

(** the new row: the old one with columns renamed, in non-decreasing order of columns *)
Definition renamed (q : list nat) (l r : list (nat * Qc)) : Prop :=
  Permutation (map (fun cv => (nth (fst cv) q 0, snd cv)) l) r /\ ordered_line r.

Section COLS.
  Context (A : csr) (q : list nat).
  Hypothesis H : csr_wf A.
  Hypothesis HQ : is_perm (csr_n A) q.
  (** every thread's index vector is a permutation of 0, 1, ... *)
  Definition idx_ok (iv : list nat) : Prop := Permutation (seq 0 (length iv)) iv.

  Lemma cols_iter (Aprp : list nat) (row_of : nat -> res nat) ths ci nz i p off :
    row_of i = Ok p -> p < csr_m A -> 0 < length ths -> Forall idx_ok ths ->
    i < length Aprp -> nth i Aprp 0 = csr_ind A + off ->
    off + length (csr_line A p) <= length ci -> off + length (csr_line A p) <= length nz ->
    always (permute_cols_iter A q Aprp row_of (ths, ci, nz) i) (fun s' => exists ths' ci' nz' r,
      s' = (ths', ci', nz') /\ length ths' = length ths /\ Forall idx_ok ths' /\ renamed q (csr_line A p) r /\
      put_all ci off (map (fun cv => csr_ind A + fst cv) r) = Ok ci' /\ put_all nz off (map snd r) = Ok nz').
  Proof.
    intros Er Hp HT HI Hi Eo Lc Lz. unfold permute_cols_iter.
    eapply always_bind with (P := fun t => t < length ths).
    { split; [exists (Ok 0), 0; auto|]. intros r (t & Ht & ->). eauto. }
    intros t Ht. rewrite Er. eapply always_bind; [eapply always_det with (P := fun x => x = p); reflexivity|]. intros x ->.
    rewrite row_range_ok by auto. eapply always_bind; [eapply always_det with (P := fun x => x = (nth p (rowptr A) 0 - csr_ind A, nth (S p) (rowptr A) 0 - csr_ind A)); reflexivity|]. intros x ->. cbv beta iota.
    destruct (row_bounds A p H Hp) as (B1 & B2 & B3 & B4).
    set (st := nth p (rowptr A) 0 - csr_ind A) in *. set (en := nth (S p) (rowptr A) 0 - csr_ind A) in *.
    rewrite minus_ok by auto. eapply always_bind; [eapply always_det with (P := fun x => x = en - st); reflexivity|]. intros x ->.
    rewrite (at_ok Aprp _ 0) by auto. eapply always_bind; [eapply always_det with (P := fun x => x = csr_ind A + off); auto|]. intros x ->.
    rewrite minus_ok by lia. replace (csr_ind A + off - csr_ind A) with off by lia.
    eapply always_bind; [eapply always_det with (P := fun x => x = off); reflexivity|]. intros x ->.
    rewrite (at_ok ths _ []) by auto. eapply always_bind; [eapply always_det with (P := fun x => x = nth t ths []); reflexivity|]. intros x ->.
    set (d := (0, 0%Qc)).
    assert (LS : csr_line A p = map (fun j => (nth (st + j) (colind A) 0 - csr_ind A, nth (st + j) (nzval A) 0%Qc)) (seq 0 (en - st))).
    { unfold csr_line. rewrite line_seq by (auto; destruct H as (_ & _ & _ & _ & V & _); auto). reflexivity. }
    assert (LN : forall j, j < en - st -> nth j (csr_line A p) d = (nth (st + j) (colind A) 0 - csr_ind A, nth (st + j) (nzval A) 0%Qc)).
    { intros j Hj. rewrite LS. rewrite nth_map_seq; auto. }
    assert (CB : forall j, j < en - st -> csr_ind A <= nth (st + j) (colind A) 0 < csr_ind A + csr_n A).
    { intros j Hj. destruct H as (_ & _ & _ & _ & _ & C). apply C, nth_In. lia. }
    pose proof (perm_len _ _ HQ) as LQ.
    set (key := fun j => nth (fst (nth j (csr_line A p) d)) q 0).
    eapply always_bind; [eapply always_det with (P := fun x => x = map key (seq 0 (en - st)))|].
    { apply (mapM_ok _ key). intros j Hj. apply in_seq in Hj. specialize (CB j ltac:(lia)). rewrite (at_ok (colind A) _ 0) by lia. cbn [bind].
      rewrite minus_ok by lia. cbn [bind]. unfold key. rewrite LN by lia. cbn [fst]. apply at_ok. lia. }
    { reflexivity. }
    intros x ->.
    set (iv := if negb (length (nth t ths []) =? en - st) then seq 0 (en - st) else nth t ths []).
    assert (PI : Permutation (seq 0 (en - st)) iv).
    { unfold iv. destruct (Nat.eqb_spec (length (nth t ths [])) (en - st)) as [e|]; cbn [negb]; auto.
      rewrite <- e. rewrite Forall_forall in HI. apply HI. apply nth_In; auto. }
    eapply always_bind; [apply keyed_sort|]. cbv beta. intros iv' [P1 ST].
    assert (P2 : Permutation (seq 0 (en - st)) iv') by (rewrite PI; auto).
    assert (L2 : length iv' = en - st) by (apply Permutation_length in P2; rewrite seq_length in P2; auto).
    assert (I2 : forall j, In j iv' -> j < en - st) by (intros j Hj; apply (Permutation_in _ (Permutation_sym P2)) in Hj; apply in_seq in Hj; lia).
    set (r := map (fun j => (key j, snd (nth j (csr_line A p) d))) iv').
    assert (RN : renamed q (csr_line A p) r).
    { split.
      - unfold r. rewrite <- P2. assert (LL : length (csr_line A p) = en - st) by lia.
        rewrite (list_as_map (csr_line A p) d) at 1. rewrite map_map, LL. apply Permutation_refl.
      - unfold ordered_line, r. rewrite map_map. cbn [fst].
        rewrite (map_ext_in _ (fun i => nth i (map key (seq 0 (en - st))) 0)); auto.
        intros j Hj. rewrite nth_map_seq; auto. }
    assert (Lr : length r = en - st) by (unfold r; rewrite map_length; auto).
    match goal with |- context [foldM (seq 0 (en - st)) ?f (ci, nz)] =>
      rewrite (fill_pair (fun j => csr_ind A + fst (nth j r d)) (fun j => snd (nth j r d)) off f (en - st)) end; [| |lia|lia].
    2:{ intros a b j Hj. pose proof (I2 (nth j iv' 0) ltac:(apply nth_In; lia)) as HJ. specialize (CB _ HJ).
        assert (NR : nth j r d = (key (nth j iv' 0), snd (nth (nth j iv' 0) (csr_line A p) d))).
        { unfold r. rewrite (nth_indep _ d ((fun j => (key j, snd (nth j (csr_line A p) d))) 0)) by (rewrite map_length; lia).
          rewrite (map_nth (fun j => (key j, snd (nth j (csr_line A p) d)))). reflexivity. }
        rewrite (at_ok iv' _ 0) by lia. cbn [bind]. rewrite (at_ok (colind A) _ 0) by lia. cbn [bind]. rewrite minus_ok by lia. cbn [bind].
        rewrite (at_ok q _ 0) by lia. cbn [bind]. rewrite (at_ok (nzval A) _ 0%Qc) by lia. rewrite NR. cbn [fst snd bind].
        unfold key. rewrite LN by auto. cbn [fst snd]. rewrite Nat.add_comm with (m := csr_ind A). reflexivity. }
    assert (M1 : map (fun j => csr_ind A + fst (nth j r d)) (seq 0 (en - st)) = map (fun cv => csr_ind A + fst cv) r).
    { symmetry. rewrite (list_as_map r d) at 1. rewrite map_map, Lr. reflexivity. }
    assert (M2 : map (fun j => snd (nth j r d)) (seq 0 (en - st)) = map snd r).
    { symmetry. rewrite (list_as_map r d) at 1. rewrite map_map, Lr. reflexivity. }
    rewrite M1, M2.
    assert (W : forall X (l : list X) (xs : list X), length xs = en - st -> off + (en - st) <= length l -> exists l', put_all l off xs = Ok l').
    { intros X l xs Lx Ll. exists (firstn off l ++ xs ++ skipn (off + length xs) l).
      pose proof (put_all_mid (firstn off l) (firstn (length xs) (skipn off l)) (skipn (off + length xs) l) xs) as PM.
      rewrite <- skipn_skipn', firstn_skipn, firstn_skipn in PM. replace (length (firstn off l)) with off in PM by (rewrite firstn_length; lia). rewrite skipn_skipn' in PM.
      apply PM. rewrite firstn_length, skipn_length. lia. }
    destruct (W _ ci (map (fun cv => csr_ind A + fst cv) r)) as (ci' & E1); [rewrite map_length; auto|lia|].
    destruct (W _ nz (map snd r)) as (nz' & E2); [rewrite map_length; auto|lia|].
    rewrite E1, E2. cbn [bind]. eapply always_bind; [eapply always_det with (P := fun x => x = (ci', nz')); reflexivity|]. intros x ->.
    rewrite put_ok by auto. eapply always_bind; [eapply always_det with (P := fun x => x = upd ths t iv'); reflexivity|]. intros x ->.
    apply always_ret. exists (upd ths t iv'), ci', nz', r. rewrite upd_length. split; [auto|]. split; [auto|]. split; [|auto].
    apply Forall_forall. intros v Hv. apply (In_nth _ _ []) in Hv. destruct Hv as (k & Hk & <-). rewrite upd_length in Hk. rewrite upd_nth by auto.
    destruct (k =? t); [unfold idx_ok; rewrite L2; auto|]. rewrite Forall_forall in HI. apply HI, nth_In; auto.
  Qed.

  (** the loop over all rows; [rs] lists the source row of every new row *)
  Lemma cols_loop (rs : list nat) (Aprp : list nat) (row_of : nat -> res nat) T : 0 < T ->
    is_perm (csr_m A) rs -> (forall i, i < csr_m A -> row_of i = Ok (nth i rs 0)) ->
    Aprp = prefix_sums (csr_ind A) (map (@length _) (perm_rows A rs)) ->
    always (parallel_nd (seq 0 (csr_m A)) (permute_cols_iter A q Aprp row_of)
        (repeat [] T, repeat 0 (length (nzval A)), repeat 0%Qc (length (nzval A))))
      (fun s => exists ths rows, s = (ths, map (fun cv => csr_ind A + fst cv) (concat rows), map snd (concat rows)) /\
         length rows = csr_m A /\ forall i, i < csr_m A -> renamed q (csr_line A (nth i rs 0)) (nth i rows [])).
  Proof.
    intros HT P HR ->. set (rows0 := perm_rows A rs). pose proof (perm_rows_len A rs P) as L0. fold rows0 in L0.
    pose proof (perm_rows_nnz A rs H P) as N0. fold rows0 in N0.
    assert (G : forall order, Permutation (seq 0 (csr_m A)) order ->
      always (foldND order (permute_cols_iter A q (prefix_sums (csr_ind A) (map (@length _) rows0)) row_of)
        (repeat [] T, repeat 0 (length (nzval A)), repeat 0%Qc (length (nzval A))))
      (fun s => exists ths rows, s = (ths, map (fun cv => csr_ind A + fst cv) (concat rows), map snd (concat rows)) /\
         length rows = csr_m A /\ forall i, i < csr_m A -> renamed q (csr_line A (nth i rs 0)) (nth i rows []))).
    2:{ split.
        - destruct (G (seq 0 (csr_m A)) (Permutation_refl _)) as [(r & Hr) _]. exists r, (seq 0 (csr_m A)). auto.
        - intros r (order & PO & Hr). destruct (G order PO) as [_ GG]. apply GG, Hr. }
    intros order PO.
    eapply always_weaken; [|apply (foldND_inv _ (fun done s => exists ths L1 L2, s = (ths, concat L1, concat L2) /\
      length ths = T /\ Forall idx_ok ths /\
      map (@length _) L1 = map (@length _) rows0 /\ map (@length _) L2 = map (@length _) rows0 /\
      forall i, i < csr_m A -> In i done -> exists r, renamed q (csr_line A (nth i rs 0)) r /\
        nth i L1 [] = map (fun cv => csr_ind A + fst cv) r /\ nth i L2 [] = map snd r) order [])].
    - cbn [app]. intros s (ths & L1 & L2 & -> & _ & _ & M1 & M2 & D).
      assert (A1 : forall i, i < csr_m A -> In i order) by (intros i Hi; apply (Permutation_in _ PO), in_seq; lia).
      assert (G1 : length L1 = csr_m A) by (rewrite <- (map_length (@length nat)), M1, map_length; auto).
      assert (G2 : length L2 = csr_m A) by (rewrite <- (map_length (@length Qc)), M2, map_length; auto).
      assert (CH : exists rows, length rows = csr_m A /\ forall i, i < csr_m A -> renamed q (csr_line A (nth i rs 0)) (nth i rows []) /\
         nth i L1 [] = map (fun cv => csr_ind A + fst cv) (nth i rows []) /\ nth i L2 [] = map snd (nth i rows [])).
      { exists (map (fun i => combine (map (fun c => c - csr_ind A) (nth i L1 [])) (nth i L2 [])) (seq 0 (csr_m A))).
        rewrite map_length, seq_length. split; auto. intros i Hi. rewrite nth_map_seq by auto. destruct (D i Hi (A1 i Hi)) as (r & R1 & E1 & E2).
        rewrite E1, E2, map_map, combine_map2.
        rewrite (map_ext _ (fun cv => cv)), map_id by (intros [c v]; cbn; f_equal; lia). auto. }
      destruct CH as (rows & LR & HH). exists ths, rows. split; [|split; auto; intros i Hi; apply HH; auto].
      f_equal; [f_equal|].
      + rewrite concat_map. f_equal. apply (nth_ext' _ _ []); [rewrite map_length; lia|]. intros i Hi.
        change (@nil nat) with (map (fun cv : nat * Qc => csr_ind A + fst cv) []) at 2. rewrite map_nth. apply HH. lia.
      + rewrite concat_map. f_equal. apply (nth_ext' _ _ []); [rewrite map_length; lia|]. intros i Hi.
        change (@nil Qc) with (map (@snd nat Qc) []) at 2. rewrite map_nth. apply HH. lia.
    - exists (repeat [] T), (map (fun r => repeat 0 (length r)) rows0), (map (fun r => repeat 0%Qc (length r)) rows0).
      split; [|split; [apply repeat_length|split; [|split; [|split]]]].
      + rewrite <- N0.
        assert (Q : forall X (x : X), repeat x (length (concat rows0)) = concat (map (fun r => repeat x (length r)) rows0)).
        { intros X x. clear. induction rows0 as [|r R IH]; cbn; auto. rewrite app_length, repeat_app, IH. reflexivity. }
        rewrite <- !Q. reflexivity.
      + apply Forall_forall. intros v Hv. apply repeat_spec in Hv. subst v. apply Permutation_refl.
      + rewrite map_map. apply map_ext. intros; apply repeat_length.
      + rewrite map_map. apply map_ext. intros; apply repeat_length.
      + intros i _ [].
    - intros done i s (ths & L1 & L2 & -> & LT & FI & M1 & M2 & D) Hi.
      assert (Hi' : i < csr_m A) by (apply (Permutation_in _ (Permutation_sym PO)) in Hi; apply in_seq in Hi; lia).
      assert (G1 : length L1 = csr_m A) by (rewrite <- (map_length (@length nat)), M1, map_length; auto).
      assert (G2 : length L2 = csr_m A) by (rewrite <- (map_length (@length Qc)), M2, map_length; auto).
      assert (NL : nth i rows0 [] = csr_line A (nth i rs 0)) by (apply perm_rows_nth; auto).
      assert (N1 : length (nth i L1 []) = length (csr_line A (nth i rs 0))).
      { rewrite <- NL, <- (map_nth (@length nat)), M1. change (@length nat []) with (@length (nat * Qc) []). apply map_nth. }
      assert (N2 : length (nth i L2 []) = length (csr_line A (nth i rs 0))).
      { rewrite <- NL, <- (map_nth (@length Qc)), M2. change (@length Qc []) with (@length (nat * Qc) []). apply map_nth. }
      assert (OB : forall X (L : list (list X)), length L = csr_m A -> map (@length _) L = map (@length _) rows0 -> offset rows0 i + length (csr_line A (nth i rs 0)) <= length (concat L)).
      { intros X L LL ML. rewrite concat_length, ML. unfold offset. rewrite <- NL.
        assert (E : length (nth i rows0 []) = nth i (map (@length _) rows0) 0) by (change 0 with (length (@nil (nat * Qc))); rewrite map_nth; auto).
        rewrite E, <- list_sum_firstn_S by (rewrite map_length; lia).
        rewrite <- (firstn_skipn (S i) (map (@length (nat * Qc)) rows0)) at 2. rewrite list_sum_app. lia. }
      eapply always_weaken; [|apply (cols_iter (prefix_sums (csr_ind A) (map (@length _) rows0)) row_of ths (concat L1) (concat L2) i (nth i rs 0) (offset rows0 i)); auto].
      + cbv beta. intros s (ths' & ci' & nz' & r & -> & LT' & FI' & RN & E1 & E2).
        assert (Lr : length r = length (csr_line A (nth i rs 0))).
        { destruct RN as [PR _]. apply Permutation_length in PR. rewrite map_length in PR. auto. }
        rewrite <- (offset_same L1 rows0 i M1) in E1. rewrite put_row in E1 by (rewrite ?map_length; lia). injection E1 as <-.
        rewrite <- (offset_same L2 rows0 i M2) in E2. rewrite put_row in E2 by (rewrite ?map_length; lia). injection E2 as <-.
        eexists _, _, _. split; [reflexivity|]. split; [lia|]. split; [auto|].
        rewrite !upd_map_length by (rewrite ?map_length; lia). split; [auto|]. split; [auto|].
        intros j Hj Hd. rewrite !upd_nth by lia. destruct (Nat.eqb_spec j i) as [->|ne].
        * exists r. auto.
        * apply D; auto. apply in_app_or in Hd. destruct Hd as [|[->|[]]]; auto. congruence.
      + apply perm_bound; auto.
      + lia.
      + rewrite prefix_sums_length, map_length. lia.
      + rewrite prefix_sums_nth by (rewrite map_length; lia). reflexivity.
  Qed.
End COLS.

Lemma renamed_length q l r : renamed q l r -> length r = length l.
Proof. intros [P _]. apply Permutation_length in P. rewrite map_length in P. auto. Qed.
Lemma renamed_bound n q l r : is_perm n q -> renamed q l r -> (forall cv, In cv l -> fst cv < n) -> forall cv, In cv r -> fst cv < n.
Proof.
  intros HQ [P _] HB cv Hcv. apply (Permutation_in _ (Permutation_sym P)) in Hcv. apply in_map_iff in Hcv. destruct Hcv as (x & <- & Hx). cbn.
  apply perm_bound; auto.
Qed.
(** entry (j) of the renamed row is entry (p j) of the old one *)
Lemma renamed_entry n p q l r j : is_perm n q -> (forall i, i < n -> nth (nth i p 0) q 0 = i) -> (forall i, i < n -> nth (nth i q 0) p 0 = i) -> is_perm n p ->
  renamed q l r -> (forall cv, In cv l -> fst cv < n) -> j < n -> entry r j = entry l (nth j p 0).
Proof.
  intros HQ Q1 Q2 HP [P _] HB Hj. unfold entry. rewrite <- (sum_perm _ _ _ P), sum_map. apply sum_ext. intros cv Hcv. cbn [fst snd].
  specialize (HB cv Hcv). destruct (Nat.eqb_spec (nth (fst cv) q 0) j) as [e|ne], (Nat.eqb_spec (fst cv) (nth j p 0)) as [e'|ne']; auto; exfalso.
  - apply ne'. rewrite <- e. symmetry. apply Q2; auto.
  - apply ne. rewrite e'. apply Q1; auto.
Qed.

(** the matrix returned by both column permutations *)
Definition permuted (A B : csr) (rs q : list nat) : Prop :=
  exists rows, B = rows_csr (csr_ind A) (csr_n A) rows /\ length rows = csr_m A /\
    forall i, i < csr_m A -> renamed q (csr_line A (nth i rs 0)) (nth i rows []).
Lemma permuted_props A B rs p q : csr_wf A -> is_perm (csr_m A) rs -> is_perm (csr_n A) p -> is_perm (csr_n A) q ->
  (forall i, i < csr_n A -> nth (nth i p 0) q 0 = i) -> (forall i, i < csr_n A -> nth (nth i q 0) p 0 = i) ->
  permuted A B rs q ->
  csr_wf B /\ csr_m B = csr_m A /\ csr_n B = csr_n A /\ csr_ind B = csr_ind A /\
  (forall i, i < csr_m A -> length (csr_line B i) = length (csr_line A (nth i rs 0)) /\ ordered_line (csr_line B i)) /\
  (forall i j, i < csr_m A -> j < csr_n A -> csr_entry B i j = csr_entry A (nth i rs 0) (nth j p 0)).
Proof.
  intros H HR HP HQ Q1 Q2 (rows & -> & L & D). 
  assert (BND : forall i, i < csr_m A -> forall cv, In cv (nth i rows []) -> fst cv < csr_n A).
  { intros i Hi. apply (renamed_bound _ q (csr_line A (nth i rs 0))); auto. intros cv Hcv. apply (csr_line_In A (nth i rs 0) cv H); auto. apply perm_bound; auto. }
  split; [apply rows_csr_wf; intros r Hr cv Hcv; apply (In_nth _ _ []) in Hr; destruct Hr as (i & Hi & <-); apply (BND i); auto; lia|].
  split; [cbn; auto|]. split; [auto|]. split; [auto|]. split.
  - intros i Hi. rewrite rows_line by lia. specialize (D i Hi). split; [apply (renamed_length q); auto|apply D].
  - intros i j Hi Hj. rewrite rows_entry by lia. unfold csr_entry. apply (renamed_entry (csr_n A) p q); auto.
    intros cv Hcv. apply (csr_line_In A (nth i rs 0) cv H); auto. apply perm_bound; auto.
Qed.
Lemma perm_id n : is_perm n (seq 0 n). Proof. apply Permutation_refl. Qed.
Lemma rows_len_permuted A rows rs q : csr_wf A -> is_perm (csr_m A) rs -> length rows = csr_m A ->
  (forall i, i < csr_m A -> renamed q (csr_line A (nth i rs 0)) (nth i rows [])) -> map (@length _) rows = map (@length _) (perm_rows A rs).
Proof.
  intros H HR L D. apply (nth_ext' _ _ 0); [rewrite !map_length, perm_rows_len; auto|]. intros i Hi. rewrite map_length in Hi.
  change 0 with (@length (nat * Qc) []). rewrite !map_nth. rewrite perm_rows_nth by (auto; lia). apply (renamed_length q). apply D. lia.
Qed.
Lemma permute_cols_ok T A p q : csr_wf A -> 0 < T -> is_perm (csr_n A) p -> invert_perm p = Ok q -> is_perm (csr_n A) q ->
  always (permute_cols T A p) (fun B => permuted A B (seq 0 (csr_m A)) q).
Proof.
  intros H HT HP E HQ. unfold permute_cols. rewrite E.
  eapply always_bind; [eapply always_det with (P := fun x => x = q); reflexivity|]. intros x ->.
  cbn [csr_alloc rowptr colind nzval].
  assert (ER : perm_rows A (seq 0 (csr_m A)) = csr_rows_of A) by reflexivity.
  assert (EP : rowptr A = prefix_sums (csr_ind A) (map (@length _) (csr_rows_of A))) by (rewrite (rows_of_csr A H) at 1; reflexivity).
  eapply always_bind; [eapply always_det with (P := fun x => x = rowptr A); [apply put_all_full; apply (ptr_len H)|reflexivity]|]. intros x ->.
  eapply always_bind; [apply (cols_loop A q H HQ (seq 0 (csr_m A)) (rowptr A) (fun i => Ok i) T HT (perm_id _)); auto|].
  { intros i Hi. rewrite seq_nth by auto. reflexivity. }
  cbv beta. intros s (ths & rows & -> & L & D). apply always_ret. exists rows. split; [|auto].
  unfold rows_csr. rewrite L. f_equal. rewrite (rows_len_permuted A rows (seq 0 (csr_m A)) q H (perm_id _) L D). exact EP.
Qed.
Lemma permute_rows_cols_ok T A rs p q : csr_wf A -> 0 < T -> is_perm (csr_m A) rs -> is_perm (csr_n A) p -> invert_perm p = Ok q -> is_perm (csr_n A) q ->
  always (permute_rows_cols T A rs p) (fun B => permuted A B rs q).
Proof.
  intros H HT HR HP E HQ. unfold permute_rows_cols. rewrite E.
  eapply always_bind; [eapply always_det with (P := fun x => x = q); reflexivity|]. intros x ->.
  cbn [csr_alloc rowptr colind nzval].
  eapply always_bind; [eapply always_det with (P := fun x => x = prefix_sums (csr_ind A) (map (@length _) (perm_rows A rs))); [apply permuted_rowptr_ok; auto|reflexivity]|]. intros x ->.
  eapply always_bind; [apply (cols_loop A q H HQ rs _ (at_ rs) T HT HR); auto|].
  { intros i Hi. apply at_ok. rewrite (perm_len _ _ HR). auto. }
  cbv beta. intros s (ths & rows & -> & L & D). apply always_ret. exists rows. split; [|auto].
  unfold rows_csr. rewrite L. f_equal. rewrite (rows_len_permuted A rows rs q H HR L D). reflexivity.
Qed.

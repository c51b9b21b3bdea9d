(** Conversions between coordinate and compressed formats. *)
From Coq Require Import QArith Qcanon Sorting.Permutation Sorting.Sorted.
From Verif Require Import Base SDProofs4 Sums Nondet Ham Asci Mem MemProofs Spmv SparseSpec CsrView SpmvSpec CsrProofs SpmvProofs PSpmvProofs2 PSpmvProofs3 CooProofs Sparse ConvSpec SparseProofs1 SparseProofs2 SparseProofs3.
Local Open Scope nat_scope.

(** the (minor, value) pairs of the triples (major, minor, value) with major index [i] *)
Definition bucket (T : list (nat * nat * Qc)) (i : nat) : list (nat * Qc) :=
  map (fun t => (snd (fst t), snd t)) (filter (fun t => fst (fst t) =? i) T).
Definition tsum (T : list (nat * nat * Qc)) (i j : nat) : Qc :=
  sum T (fun t => if (fst (fst t) =? i) && (snd (fst t) =? j) then snd t else 0%Qc).
Lemma bucket_entry T i j : entry (bucket T i) j = tsum T i j.
Proof.
  unfold entry, bucket, tsum. rewrite sum_map, sum_filter. apply sum_ext. intros t _. cbn [fst snd].
  destruct (fst (fst t) =? i); cbn [andb]; auto.
Qed.

(** ** coo_of_csr *)
Definition row_triples (R : list (list (nat * Qc))) : list (nat * nat * Qc) :=
  concat (map (fun i => map (fun cv => (i, fst cv, snd cv)) (nth i R [])) (seq 0 (length R))).

Lemma coo_of_csr_ok A : csr_wf A ->
  coo_of_csr A = Ok (mk_coo (csr_m A) (csr_n A) (csr_ind A)
    (concat (map (fun i => repeat (i + csr_ind A) (length (csr_line A i))) (seq 0 (csr_m A)))) (colind A) (nzval A)).
Proof.
  intros H. unfold coo_of_csr.
  set (F := fun i => repeat (i + csr_ind A) (length (csr_line A i))).
  assert (NZ : length (nzval A) = length (colind A)) by apply H.
  assert (TOT : length (concat (map F (seq 0 (csr_m A)))) = length (nzval A)).
  { rewrite NZ, concat_length, map_map. pose proof (ptr_prefix H (csr_m A) ltac:(lia)) as P.
    assert (E : nth (csr_m A) (rowptr A) 0 = csr_ind A + length (colind A)) by apply H. rewrite E in P.
    rewrite (map_ext (fun x => length (F x)) (fun i => length (line (csr_ind A) (rowptr A) (colind A) (nzval A) i))); [lia|].
    intros i. unfold F. apply repeat_length. }
  match goal with |- (do s <- foldM _ ?f _; _) = _ =>
    destruct (foldM_seq f (fun k s => exists rest, s = (concat (map F (seq 0 k)) ++ rest, length (concat (map F (seq 0 k)))) /\
        length (concat (map F (seq 0 k))) + length rest = length (nzval A)) 0 (csr_m A) (repeat 0 (length (nzval A)), 0)) as ([ri it] & E & rest & Es & Lr) end.
  - exists (repeat 0 (length (nzval A))). split; [reflexivity|]. cbn. apply repeat_length.
  - intros i s Hi (rest & -> & L). pose proof (ptr_len H).
    rewrite !(at_ok _ _ 0) by lia. cbn [bind].
    assert (LL : nth (i + 1) (rowptr A) 0 - nth i (rowptr A) 0 = length (csr_line A i)).
    { unfold csr_line. rewrite (line_length H) by lia. rewrite Nat.add_1_r. reflexivity. }
    rewrite LL. fold (F i). assert (LF : length (F i) = length (csr_line A i)) by (unfold F; apply repeat_length).
    assert (SS : concat (map F (seq 0 (S i))) = concat (map F (seq 0 i)) ++ F i) by (rewrite seq_S, map_app, concat_app; cbn [map concat plus]; rewrite app_nil_r; auto).
    assert (ROOM : length (F i) <= length rest).
    { assert (Q : length (concat (map F (seq 0 (S i)))) <= length (concat (map F (seq 0 (csr_m A))))).
      { replace (csr_m A) with (S i + (csr_m A - S i)) by lia. rewrite seq_app, map_app, concat_app, app_length. lia. }
      rewrite SS, app_length in Q. lia. }
    rewrite put_all_ok. destruct (Nat.leb_spec (length (F i)) (length rest)); [|lia]. cbn [bind].
    eexists. split; [reflexivity|]. exists (skipn (length (F i)) rest). rewrite SS, app_length, LF. split; [f_equal; rewrite app_assoc; auto|].
    rewrite skipn_length. lia.
  - rewrite E. cbn [bind]. injection Es as -> ->. cbn [plus] in *. rewrite TOT in *.
    assert (rest = []) by (destruct rest; auto; cbn in Lr; lia). subst rest. rewrite app_nil_r, TOT, Nat.eqb_refl.
    assert (PA : forall X (x : X) (l : list X), length l = length (nzval A) -> put_all (repeat x (length (nzval A))) 0 l = Ok l).
    { intros X x l L. pose proof (put_all_mid [] (repeat x (length (nzval A))) [] l) as Q. cbn in Q. rewrite !app_nil_r in Q. apply Q. rewrite repeat_length; auto. }
    rewrite !PA by auto. reflexivity.
Qed.

Lemma coo_of_csr_triples A B : csr_wf A -> coo_of_csr A = Ok B ->
  coo_wf B /\ coo_m B = csr_m A /\ coo_n B = csr_n A /\ coo_ind B = csr_ind A /\
  coo_triples B = concat (map (fun i => map (fun cv => (i, fst cv, snd cv)) (csr_line A i)) (seq 0 (csr_m A))).
Proof.
  intros H E. rewrite coo_of_csr_ok in E by auto. injection E as <-. cbn [coo_m coo_n coo_ind].
  assert (TOT : length (concat (map (fun i => repeat (i + csr_ind A) (length (csr_line A i))) (seq 0 (csr_m A)))) = length (colind A)).
  { rewrite concat_length, map_map. pose proof (ptr_prefix H (csr_m A) ltac:(lia)) as P.
    assert (E : nth (csr_m A) (rowptr A) 0 = csr_ind A + length (colind A)) by apply H. rewrite E in P.
    rewrite (map_ext _ (fun i => length (line (csr_ind A) (rowptr A) (colind A) (nzval A) i))); [lia|].
    intros i. apply repeat_length. }
  assert (NZ : length (nzval A) = length (colind A)) by apply H.
  split; [|split; [|split; [|split]]]; auto.
  - unfold coo_wf. cbn. rewrite TOT, NZ. split; auto. split; auto. split.
    + intros r Hr. apply in_concat in Hr. destruct Hr as (l & Hl & Hr). apply in_map_iff in Hl. destruct Hl as (i & <- & Hi).
      apply repeat_spec in Hr. apply in_seq in Hi. lia.
    + apply H.
  - unfold coo_triples. cbn. pose proof (idx_lines H) as EI. pose proof (val_lines H) as EV. cbn in EI, EV.
    change (line (csr_ind A) (rowptr A) (colind A) (nzval A)) with (csr_line A) in EI, EV.
    rewrite EI, EV. clear. induction (seq 0 (csr_m A)) as [|i l IH]; cbn; auto.
    rewrite !map_app, IHl || rewrite !map_app.
    assert (CA : forall X Y (a c : list X) (b e : list Y), length a = length b -> combine (a ++ c) (b ++ e) = combine a b ++ combine c e).
    { clear. intros X Y a. induction a as [|x a IH]; intros c [|y b] e L; cbn in *; try lia; auto. f_equal. apply IH. lia. }
    rewrite !CA by (rewrite ?combine_length, ?map_length, ?repeat_length, ?map_length; lia). rewrite IH. f_equal.
    clear. induction (csr_line A i) as [|cv l IH]; cbn; auto. rewrite IH. repeat f_equal; lia.
Qed.

Lemma tsum_concat {X} (F : X -> list (nat * nat * Qc)) l i j : tsum (concat (map F l)) i j = sum l (fun x => tsum (F x) i j).
Proof. unfold tsum. induction l; cbn; auto. rewrite sum_app, IHl. reflexivity. Qed.
Lemma tsum_row (l : list (nat * Qc)) k i j : tsum (map (fun cv => (k, fst cv, snd cv)) l) i j = if k =? i then entry l j else 0%Qc.
Proof.
  unfold tsum, entry. rewrite sum_map. cbn [fst snd]. destruct (k =? i); cbn [andb]; auto. apply sum_zero. auto.
Qed.
Lemma coo_of_csr_entry A B i j : csr_wf A -> coo_of_csr A = Ok B -> i < csr_m A -> coo_entry B i j = csr_entry A i j.
Proof.
  intros H E Hi. destruct (coo_of_csr_triples A B H E) as (_ & _ & _ & _ & T). unfold coo_entry. rewrite T.
  change (tsum (concat (map (fun i => map (fun cv => (i, fst cv, snd cv)) (csr_line A i)) (seq 0 (csr_m A)))) i j = csr_entry A i j).
  rewrite tsum_concat. rewrite (sum_ext _ _ (fun k => if k =? i then csr_entry A i j else 0%Qc)).
  - rewrite (sum_single (seq 0 (csr_m A)) i (fun k => if k =? i then csr_entry A i j else 0%Qc)).
    + rewrite Nat.eqb_refl. reflexivity.
    + apply seq_NoDup.
    + apply in_seq. lia.
    + intros k Hk Hn. destruct (Nat.eqb_spec k i); congruence.
  - intros k _. rewrite tsum_row. destruct (Nat.eqb_spec k i) as [->|]; auto.
Qed.

(** ** pointers of a sorted index array *)
Lemma is_sorted_spec l : is_sorted_ l = true -> StronglySorted le l.
Proof.
  induction l as [|x l IH]; intros H; [constructor|]. destruct l as [|y l].
  - repeat constructor.
  - change (is_sorted_ (x :: y :: l)) with (negb (y <? x) && is_sorted_ (y :: l)) in H. apply andb_prop in H. destruct H as [H1 H2].
    specialize (IH H2). apply negb_true_iff, Nat.ltb_ge in H1. constructor; auto.
    inversion IH as [|? ? I1 I2]; subst. constructor; auto. rewrite Forall_forall in *. intros z Hz. specialize (I2 z Hz). lia.
Qed.
Lemma spec_is_sorted l : StronglySorted le l -> is_sorted_ l = true.
Proof.
  induction 1 as [|x l H IH F]; auto. destruct l as [|y l]; auto.
  change (is_sorted_ (x :: y :: l)) with (negb (y <? x) && is_sorted_ (y :: l)). rewrite IH, andb_true_r.
  apply negb_true_iff, Nat.ltb_ge. rewrite Forall_forall in F. apply F. left; auto.
Qed.
Lemma sorted_nth l : StronglySorted le l -> forall i j, i <= j < length l -> nth i l 0 <= nth j l 0.
Proof.
  induction 1 as [|x l H IH F]; intros i j [H1 H2]; cbn in H2; [lia|]. destruct i as [|i], j as [|j]; cbn; auto; try lia.
  - rewrite Forall_forall in F. apply F, nth_In. lia.
  - apply IH. lia.
Qed.

Definition cnt (l : list nat) (x : nat) : nat := length (filter (fun y => y =? x) l).
Lemma cnt_prefix l ind k : (forall x, In x l -> ind <= x) ->
  list_sum (map (fun i => cnt l (ind + i)) (seq 0 k)) = length (filter (fun x => x <? ind + k) l).
Proof.
  intros H. induction k as [|k IH].
  - cbn. rewrite filter_none; auto. intros x Hx. apply Nat.ltb_ge. specialize (H x Hx). lia.
  - rewrite seq_S, map_app, list_sum_app, IH. cbn [map list_sum fold_right plus]. rewrite Nat.add_0_r. unfold cnt.
    clear IH. induction l as [|x l IHl]; cbn [filter length]; auto.
    specialize (IHl (fun y Hy => H y (or_intror Hy))). specialize (H x (or_introl eq_refl)).
    destruct (Nat.ltb_spec x (ind + k)), (Nat.eqb_spec x (ind + k)), (Nat.ltb_spec x (ind + S k)); cbn [length]; lia.
Qed.

Lemma coo_ptr_ok ind m idx : StronglySorted le idx -> (forall x, In x idx -> ind <= x < ind + m) ->
  (forall k, k < m -> In (ind + k) idx) ->
  coo_ptr ind (length idx) m idx (repeat 0 (m + 1)) = Ok (prefix_sums ind (map (fun k => cnt idx (ind + k)) (seq 0 m))).
Proof.
  intros ST B FULL. unfold coo_ptr.
  set (P := prefix_sums ind (map (fun k => cnt idx (ind + k)) (seq 0 m))).
  assert (LP : length P = m + 1) by (unfold P; rewrite prefix_sums_length, map_length, seq_length; auto).
  assert (NP : forall k, k <= m -> nth k P 0 = ind + length (filter (fun x => x <? ind + k) idx)).
  { intros k Hk. unfold P. rewrite prefix_sums_nth by (rewrite map_length, seq_length; auto). rewrite firstn_map.
    assert (E : firstn k (seq 0 m) = seq 0 k).
    { apply (nth_ext' _ _ 0); [rewrite firstn_length, !seq_length; lia|]. intros q Hq. rewrite firstn_length, seq_length in Hq.
      rewrite nth_firstn, !seq_nth by lia. reflexivity. }
    rewrite E, cnt_prefix; auto. intros x Hx. apply B, Hx. }
  unfold put_at at 1. rewrite repeat_length. destruct (Nat.ltb_spec 0 (m + 1)); [|lia]. rewrite put_ok by (rewrite repeat_length; lia). cbn [bind].
  match goal with |- (do s <- foldM _ ?f _; _) = _ =>
    destruct (foldM_seq f (fun i s => length (fst s) = m + 1 /\ (snd s < m \/ snd s = 0) /\
        (forall k, k <= snd s -> nth k (fst s) 0 = nth k P 0) /\
        (forall q, q < i -> nth q idx 0 <= ind + snd s) /\ (0 < i -> nth (i - 1) idx 0 = ind + snd s) /\ (i = 0 -> snd s = 0)) 0 (length idx) (upd (repeat 0 (m + 1)) 0 ind, 0)) as ([ptr cur] & E & L & C & R & U & LA & Z0) end.
  - cbn [fst snd]. rewrite upd_length, repeat_length. split; [auto|]. split; [auto|]. split; [|split; [|split]; intros; lia].
    intros k Hk. assert (k = 0) by lia. subst k. rewrite upd_nth by (rewrite repeat_length; lia). cbn [Nat.eqb]. rewrite NP by lia.
    rewrite filter_none; [cbn; lia|]. intros x Hx. apply Nat.ltb_ge. specialize (B x Hx). lia.
  - intros i [ptr cur] Hi (L & C & R & U & LA & Z0). cbn [fst snd] in *.
    rewrite (at_ok _ _ 0) by lia. cbn [bind]. set (x := nth i idx 0).
    assert (Bx : ind <= x < ind + m) by (apply B, nth_In; lia).
    assert (GE : ind + cur <= x).
    { destruct i as [|i]; [rewrite Z0 by auto; lia|rewrite <- LA by lia; apply sorted_nth; auto; lia]. }
    destruct (Nat.eqb_spec x (cur + ind)) as [Ex|Nx]; cbn [negb].
    + eexists. split; [reflexivity|]. cbn [fst snd]. split; [auto|]. split; [auto|]. split; [auto|]. split; [|split; [|intros; lia]].
      * intros q Hq. destruct (Nat.eq_dec q i) as [->|]; [fold x; lia|apply U; lia].
      * intros _. replace (S i - 1) with i by lia. fold x. lia.
    + assert (Xs : x = ind + cur + 1).
      { destruct (Nat.eq_dec x (ind + cur + 1)) as [|Hne]; auto. exfalso.
        destruct (In_nth _ _ 0 (FULL (cur + 1) ltac:(lia))) as (q & Hq & Eq).
        destruct (Nat.lt_ge_cases q i) as [HL|HG].
        - specialize (U q HL). lia.
        - pose proof (sorted_nth _ ST i q ltac:(lia)) as HH. fold x in HH. lia. }
      assert (I0 : 0 < i).
      { destruct i as [|i]; [|lia]. exfalso. destruct (In_nth _ _ 0 (FULL 0 ltac:(lia))) as (q & Hq & Eq).
        pose proof (sorted_nth _ ST 0 q ltac:(lia)) as HH. fold x in HH. lia. }
      unfold put_at. rewrite L. destruct (Nat.ltb_spec (cur + 1) (m + 1)); [|lia]. rewrite put_ok by lia. cbn [bind].
      eexists. split; [reflexivity|]. cbn [fst snd]. rewrite upd_length. split; [auto|]. split; [lia|]. split; [|split; [|split; [|intros; lia]]].
      * intros k Hk. rewrite upd_nth by lia. destruct (Nat.eqb_spec k (cur + 1)) as [->|]; [|apply R; lia].
        rewrite NP by lia. rewrite <- (firstn_skipn i idx), filter_app, app_length.
        rewrite filter_all, filter_none.
        -- rewrite firstn_length. cbn. lia.
        -- intros y Hy. apply Nat.ltb_ge. destruct (In_nth _ _ 0 Hy) as (q & Hq & <-). rewrite nth_skipn.
           rewrite skipn_length in Hq. pose proof (sorted_nth _ ST i (i + q) ltac:(lia)) as HH. fold x in HH. lia.
        -- intros y Hy. apply Nat.ltb_lt. destruct (In_nth _ _ 0 Hy) as (q & Hq & <-). rewrite firstn_length in Hq.
           rewrite nth_firstn by lia. specialize (U q ltac:(lia)). lia.
      * intros q Hq. destruct (Nat.eq_dec q i) as [->|]; [fold x; lia|specialize (U q ltac:(lia)); lia].
      * intros _. replace (S i - 1) with i by lia. fold x. lia.
  - rewrite E. cbn [bind fst snd] in *. unfold put_at. rewrite L. destruct (Nat.ltb_spec m (m + 1)); [|lia]. rewrite put_ok by lia.
    f_equal. apply (nth_ext' _ _ 0); [rewrite upd_length; lia|]. intros k Hk. rewrite upd_length, L in Hk. rewrite upd_nth by lia.
    destruct (Nat.eqb_spec k m) as [->|Hkm].
    + rewrite NP by lia. rewrite filter_all; [lia|]. intros y Hy. apply Nat.ltb_lt. apply B, Hy.
    + apply R. destruct (In_nth _ _ 0 (FULL (m - 1) ltac:(lia))) as (q & Hq & Eq). specialize (U q ltac:(lia)). lia.
Qed.

(** a list sorted by key is the concatenation of its buckets *)
Lemma sorted_buckets {X} (key : X -> nat) (T : list X) m : StronglySorted le (map key T) -> (forall t, In t T -> key t < m) ->
  concat (map (fun i => filter (fun t => key t =? i) T) (seq 0 m)) = T.
Proof.
  intros ST B. revert T ST B. induction m as [|m IH]; intros T ST B.
  - destruct T as [|t T]; auto. specialize (B t (or_introl eq_refl)). lia.
  - rewrite seq_S, map_app, concat_app. cbn [map concat plus]. rewrite app_nil_r.
    assert (SP : T = filter (fun t => key t <? m) T ++ filter (fun t => key t =? m) T).
    { clear IH. induction T as [|t T IHT]; cbn [filter]; auto. cbn [map] in ST. inversion ST as [|? ? S1 S2]; subst.
      specialize (IHT S1 (fun x Hx => B x (or_intror Hx))). rewrite Forall_forall in S2. pose proof (B t (or_introl eq_refl)).
      destruct (Nat.ltb_spec (key t) m), (Nat.eqb_spec (key t) m); try lia; cbn [app].
      - f_equal. auto.
      - rewrite filter_none, filter_all; auto.
        + intros x Hx. apply Nat.eqb_eq. specialize (S2 (key x) (in_map key _ _ Hx)). specialize (B x (or_intror Hx)). lia.
        + intros x Hx. apply Nat.ltb_ge. specialize (S2 (key x) (in_map key _ _ Hx)). lia. }
    transitivity (filter (fun t => key t <? m) T ++ filter (fun t => key t =? m) T); [|auto].
    f_equal. rewrite <- (IH (filter (fun t => key t <? m) T)).
    + f_equal. apply map_ext_in. intros i Hi. apply in_seq in Hi. rewrite filter_filter. apply filter_ext. intros t.
      destruct (Nat.eqb_spec (key t) i), (Nat.ltb_spec (key t) m); cbn; auto; lia.
    + assert (Q : StronglySorted le (map key (filter (fun t => key t <? m) T))).
      { clear - ST. induction T as [|t T IHT]; cbn [filter map]; [constructor|]. cbn in ST. inversion ST as [|? ? S1 S2]; subst.
        destruct (key t <? m); auto. cbn [map]. constructor; auto. rewrite Forall_forall in *. intros y Hy. apply S2.
        apply in_map_iff in Hy. destruct Hy as (z & <- & Hz). apply filter_In in Hz. apply in_map, Hz. }
      exact Q.
    + intros t Ht. apply filter_In in Ht. destruct Ht as [_ E]. apply Nat.ltb_lt in E. auto.
Qed.

Lemma triples_proj A : coo_wf A ->
  map (fun t => coo_ind A + fst (fst t)) (coo_triples A) = coo_row A /\
  map (fun t => coo_ind A + snd (fst t)) (coo_triples A) = coo_col A /\
  map snd (coo_triples A) = coo_val A.
Proof.
  intros H. rewrite (coo_triples_seq A H), !map_map. cbn [fst snd]. destruct H as (L1 & L2 & B1 & B2). split; [|split].
  - apply (nth_ext' _ _ 0); rewrite map_length, seq_length; auto. intros i Hi. rewrite nth_map_seq by auto.
    assert (In (nth i (coo_row A) 0) (coo_row A)) by (apply nth_In; lia). specialize (B1 _ H). lia.
  - apply (nth_ext' _ _ 0); rewrite map_length, seq_length; auto. intros i Hi. rewrite nth_map_seq by auto.
    assert (In (nth i (coo_col A) 0) (coo_col A)) by (apply nth_In; lia). specialize (B2 _ H). lia.
  - apply (nth_ext' _ _ 0%Qc); rewrite map_length, seq_length; auto. intros i Hi. rewrite nth_map_seq by auto. reflexivity.
Qed.
Lemma triples_bound A t : coo_wf A -> In t (coo_triples A) -> fst (fst t) < coo_m A /\ snd (fst t) < coo_n A.
Proof.
  intros H Ht. destruct (triples_proj A H) as (P1 & P2 & _). destruct H as (_ & _ & B1 & B2).
  assert (I1 : In (coo_ind A + fst (fst t)) (coo_row A)) by (rewrite <- P1; apply (in_map (fun t => coo_ind A + fst (fst t)) _ _ Ht)).
  assert (I2 : In (coo_ind A + snd (fst t)) (coo_col A)) by (rewrite <- P2; apply (in_map (fun t => coo_ind A + snd (fst t)) _ _ Ht)).
  specialize (B1 _ I1). specialize (B2 _ I2). lia.
Qed.
Lemma put_all_full {X} (x : X) (l : list X) n : length l = n -> put_all (repeat x n) 0 l = Ok l.
Proof.
  intros L. pose proof (put_all_mid [] (repeat x n) [] l) as Q. cbn in Q. rewrite !app_nil_r in Q. apply Q. rewrite repeat_length; auto.
Qed.
Lemma cnt_map {X} (f : X -> nat) ind T k : cnt (map (fun t => ind + f t) T) (ind + k) = length (filter (fun t => f t =? k) T).
Proof.
  unfold cnt. induction T as [|t T IH]; cbn; auto.
  destruct (Nat.eqb_spec (ind + f t) (ind + k)), (Nat.eqb_spec (f t) k); cbn; auto; lia.
Qed.
Lemma sorted_shift ind l : StronglySorted le (map (fun x => ind + x) l) -> StronglySorted le l.
Proof.
  induction l as [|x l IH]; cbn; intros H; [constructor|]. inversion H as [|? ? S1 S2]; subst. constructor; auto.
  rewrite Forall_forall in *. intros y Hy. specialize (S2 (ind + y) (in_map _ _ _ Hy)). lia.
Qed.

(** every row occurs *)
Lemma csr_of_coo_ok A : coo_wf A -> StronglySorted le (coo_row A) ->
  (forall i, i < coo_m A -> exists t, In t (coo_triples A) /\ fst (fst t) = i) ->
  csr_of_coo A = Ok (rows_csr (coo_ind A) (coo_n A) (map (bucket (coo_triples A)) (seq 0 (coo_m A)))).
Proof.
  intros H ST FULL. unfold csr_of_coo, is_sorted_by_row_index. rewrite spec_is_sorted by auto.
  unfold csr_alloc. cbn [rowptr colind nzval]. destruct (triples_proj A H) as (P1 & P2 & P3).
  change (map (fun t => snd t) (coo_triples A) = coo_val A) in P3. assert (LL := H). destruct LL as (L1 & L2 & B1 & B2). rewrite <- L1 at 1.
  rewrite coo_ptr_ok; auto.
  2:{ intros k Hk. destruct (FULL k Hk) as (t & Ht & Et). rewrite <- P1. apply in_map_iff. exists t. split; auto; lia. }
  cbn [bind]. rewrite !put_all_full by auto. cbn [bind]. f_equal. unfold rows_csr.
  assert (CB : concat (map (bucket (coo_triples A)) (seq 0 (coo_m A))) = map (fun t => (snd (fst t), snd t)) (coo_triples A)).
  { unfold bucket. rewrite (concat_map_map (fun t => (snd (fst t), snd t)) (fun i => filter (fun t => fst (fst t) =? i) (coo_triples A))). f_equal.
    apply (sorted_buckets (fun t => fst (fst t))).
    - apply (sorted_shift (coo_ind A)). rewrite map_map, P1. exact ST.
    - intros t Ht. apply (triples_bound A t H Ht). }
  rewrite CB, !map_map, map_length, seq_length. cbn [fst snd]. rewrite P2, P3. f_equal. f_equal.
  apply map_ext. intros k. rewrite <- P1, (cnt_map (fun t => fst (fst t))). unfold bucket. rewrite map_length. reflexivity.
Qed.
Lemma bucket_bound A : coo_wf A -> forall r, In r (map (bucket (coo_triples A)) (seq 0 (coo_m A))) -> forall cv, In cv r -> fst cv < coo_n A.
Proof.
  intros H r Hr cv Hcv. apply in_map_iff in Hr. destruct Hr as (i & <- & _). apply in_map_iff in Hcv. destruct Hcv as (t & <- & Ht).
  apply filter_In in Ht. apply (triples_bound A t H), Ht.
Qed.
(** transposed triples *)
Definition flip (t : nat * nat * Qc) : nat * nat * Qc := (snd (fst t), fst (fst t), snd t).
Definition rows_csc (ind m : nat) (cols : list (list (nat * Qc))) : csc :=
  mk_csc m (length cols) ind (prefix_sums ind (map (@length _) cols)) (map (fun cv => ind + fst cv) (concat cols)) (map snd (concat cols)).
Lemma csc_of_coo_ok A : coo_wf A -> coo_m A = coo_n A -> StronglySorted le (coo_col A) ->
  (forall j, j < coo_n A -> exists t, In t (coo_triples A) /\ snd (fst t) = j) ->
  csc_of_coo A = Ok (rows_csc (coo_ind A) (coo_m A) (map (bucket (map flip (coo_triples A))) (seq 0 (coo_n A)))).
Proof.
  intros H SQ ST FULL. unfold csc_of_coo, is_sorted_by_col_index. rewrite spec_is_sorted by auto.
  unfold csc_alloc. cbn [colptr rowind csc_val]. destruct (triples_proj A H) as (P1 & P2 & P3).
  change (map (fun t => snd t) (coo_triples A) = coo_val A) in P3. assert (LL := H). destruct LL as (L1 & L2 & B1 & B2). rewrite <- L2 at 1. rewrite SQ at 1.
  rewrite coo_ptr_ok; auto.
  2:{ intros k Hk. destruct (FULL k Hk) as (t & Ht & Et). rewrite <- P2. apply in_map_iff. exists t. split; auto; lia. }
  cbn [bind]. rewrite !put_all_full by auto. cbn [bind]. f_equal. unfold rows_csc.
  set (T := map flip (coo_triples A)).
  assert (CB : concat (map (bucket T) (seq 0 (coo_n A))) = map (fun t => (snd (fst t), snd t)) T).
  { unfold bucket. rewrite (concat_map_map (fun t => (snd (fst t), snd t)) (fun i => filter (fun t => fst (fst t) =? i) T)). f_equal.
    apply (sorted_buckets (fun t => fst (fst t))).
    - apply (sorted_shift (coo_ind A)). unfold T. rewrite !map_map. cbn [flip fst snd]. rewrite P2. exact ST.
    - intros t Ht. apply in_map_iff in Ht. destruct Ht as (t' & <- & Ht). apply (triples_bound A t' H Ht). }
  rewrite CB. unfold T. rewrite !map_map, map_length, seq_length. cbn [flip fst snd]. rewrite P1, P3. f_equal. f_equal.
  apply map_ext. intros k. rewrite <- P2, (cnt_map (fun t => snd (fst t))). unfold bucket. rewrite map_length.
  clear. induction (coo_triples A) as [|t T IH]; cbn; auto. destruct (snd (fst t) =? k); cbn; auto.
Qed.

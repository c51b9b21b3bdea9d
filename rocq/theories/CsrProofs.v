(** The CSR Hamiltonian (C17, C18). *)
From Coq Require Import QArith Qcanon Sorting.Permutation Sorting.Sorted.
From Verif Require Import Base Bits BitsProofs SD Spec SDProofs SDProofs2 SDProofs4 SDProofs5 Sums
  FockSpec FockProofs Ham HamProofs HamProofs2 HamProofs3 HamProofs4 HamProofs5 HamProofs7 HamProofs8 SparseSpec CsrView.
Local Open Scope nat_scope.

(** ** arrays built row by row *)
Lemma prefix_sums_length l : forall acc, length (prefix_sums acc l) = length l + 1.
Proof. induction l as [|x l IH]; intros acc; cbn [prefix_sums length]; auto. rewrite IH. lia. Qed.

Lemma list_sum_firstn_S (l : list nat) i : i < length l ->
  list_sum (firstn (S i) l) = list_sum (firstn i l) + nth i l 0.
Proof.
  revert i. induction l as [|x l IH]; intros i Hi; cbn [length] in Hi; [lia|].
  destruct i as [|i]; [cbn; lia|]. cbn [nth]. 
  change (x + list_sum (firstn (S i) l) = x + list_sum (firstn i l) + nth i l 0).
  rewrite IH by lia. lia.
Qed.

Lemma prefix_sums_nth l : forall acc i, i <= length l ->
  nth i (prefix_sums acc l) 0 = acc + list_sum (firstn i l).
Proof.
  induction l as [|x l IH]; intros acc i Hi; cbn [prefix_sums length] in *.
  - assert (i = 0) by lia. subst. cbn. lia.
  - destruct i as [|i]; cbn [nth firstn]; [cbn; lia|]. rewrite IH by lia. cbn [list_sum fold_right].
    change (fold_right Nat.add 0 (firstn i l)) with (list_sum (firstn i l)). lia.
Qed.

Lemma skipn_concat {A} (rows : list (list A)) : forall i, i <= length rows ->
  skipn (list_sum (firstn i (map (@length A) rows))) (concat rows) = concat (skipn i rows).
Proof.
  induction rows as [|r rows IH]; intros i Hi; cbn [length] in Hi.
  - assert (i = 0) by lia. subst. reflexivity.
  - destruct i as [|i]; [reflexivity|]. cbn [map firstn list_sum fold_right concat skipn].
    change (fold_right Nat.add 0 (firstn i (map (@length A) rows))) with (list_sum (firstn i (map (@length A) rows))).
    rewrite skipn_app, skipn_all2 by lia. cbn [app].
    rewrite <- IH by lia. f_equal. lia.
Qed.

Lemma concat_length {A} (rows : list (list A)) : length (concat rows) = list_sum (map (@length A) rows).
Proof. induction rows as [|r rows IH]; cbn; auto. rewrite app_length, IH. reflexivity. Qed.

Lemma map_fst_combine {A B} (l : list (A * B)) : combine (map fst l) (map snd l) = l.
Proof. induction l as [|[a b] l IH]; cbn; auto. rewrite IH. reflexivity. Qed.

Lemma skipn_map {A B} (f : A -> B) k : forall l, skipn k (map f l) = map f (skipn k l).
Proof. induction k as [|k IH]; intros [|x l]; cbn; auto. Qed.

Lemma seg_rows (rows : list (list (nat * Qc))) i : i < length rows ->
  line 0 (prefix_sums 0 (map (@length _) rows)) (map fst (concat rows)) (map snd (concat rows)) i
  = nth i rows [].
Proof.
  intros Hi. unfold line. rewrite !prefix_sums_nth by (rewrite map_length; lia).
  rewrite !Nat.sub_0_r. rewrite !Nat.add_0_l. rewrite list_sum_firstn_S by (rewrite map_length; auto).
  unfold seg. rewrite Nat.add_comm, Nat.add_sub.
  pose proof (skipn_concat rows i (Nat.lt_le_incl _ _ Hi)) as SC.
  set (k := list_sum (firstn i (map (@length (nat * Qc)) rows))) in *. clearbody k.
  rewrite !skipn_map, !firstn_map, SC.
  rewrite (map_ext _ (fun c => c)) by (intros; lia). rewrite map_id, map_fst_combine.
  change 0 with (@length (nat * Qc) []). rewrite map_nth.
  replace (skipn i rows) with (nth i rows [] :: skipn (S i) rows).
  - cbn [concat]. rewrite firstn_app, Nat.sub_diag, firstn_all. cbn. apply app_nil_r.
  - clear SC k. revert i Hi. induction rows as [|r rows IH]; intros i Hi; cbn [length] in Hi; [lia|].
    destruct i as [|i]; cbn [nth skipn]; auto. rewrite <- IH by lia. reflexivity.
Qed.

Lemma rows_wf (rows : list (list (nat * Qc))) n :
  (forall r, In r rows -> forall c, In c (map fst r) -> c < n) ->
  wf_compressed 0 (length rows) n (prefix_sums 0 (map (@length _) rows))
    (map fst (concat rows)) (map snd (concat rows)).
Proof.
  intros H. unfold wf_compressed. rewrite prefix_sums_length, map_length. split; [reflexivity|].
  split. { destruct (map (@length (nat * Qc)) rows); reflexivity. }
  split; [|split; [|split]].
  - intros i Hi. rewrite !prefix_sums_nth by (rewrite map_length; lia).
    rewrite list_sum_firstn_S by (rewrite map_length; lia). lia.
  - rewrite prefix_sums_nth by (rewrite map_length; lia). rewrite firstn_all2 by (rewrite map_length; lia).
    rewrite map_length, concat_length. reflexivity.
  - rewrite !map_length. reflexivity.
  - intros c Hc. split; [lia|]. apply in_map_iff in Hc. destruct Hc as ([c' v] & <- & Hc).
    apply in_concat in Hc. destruct Hc as (r & Hr & Hc). apply (H r Hr). apply in_map_iff. eexists. split; eauto.
Qed.

(** ** one row *)
(** entry (bra, ket) is stored iff both are non-empty, they differ in at most
    four spin orbitals and the element exceeds the threshold in magnitude *)
Definition near (b k : N) : bool := (bs_count (N.lxor b k) <=? 4).
Definition stored (thr : Qc) (b k : N) (x : Qc) : bool :=
  negb (b =? 0)%N && negb (k =? 0)%N && near b k && abs_gt x thr.

Lemma In_firstn {A} k : forall (l : list A) x, In x (firstn k l) -> In x l.
Proof. induction k as [|k IH]; intros [|y l] x; cbn; auto; try tauto. intros [?|?]; auto. Qed.
Lemma In_skipn {A} k : forall (l : list A) x, In x (skipn k l) -> In x l.
Proof. induction k as [|k IH]; intros [|y l] x; cbn; auto. Qed.
Lemma skipn_skipn' {A} a : forall b (l : list A), skipn b (skipn a l) = skipn (a + b) l.
Proof. induction a as [|a IH]; intros b l; cbn [skipn plus]; auto. destruct l; [apply skipn_nil|apply IH]. Qed.

Section CSR.
  Variables (W : nat) (HW : spin_width W) (h : ints).
  Notation n := (norb h).
  Hypothesis Hn : n <= W / 2.
  Hypothesis Vsym : forall p q r s, p < n -> q < n -> r < n -> s < n ->
    V_pqrs h p q r s = V_pqrs h r s p q.
  Variables (na nb : nat).
  (** a determinant of the space, or an empty placeholder *)
  Definition det (x : N) : Prop := x = 0%N \/ good W n na nb x.
  Notation Hm b k := (ham W n (T_pq h) (V_pqrs h) b k).

  Definition spec_row (thr : Qc) (b : N) (j0 : nat) (kets : list N) : list (nat * Qc) :=
    flat_map (fun jk => if stored thr b (snd jk) (Hm b (snd jk)) then [(fst jk, Hm b (snd jk))] else [])
      (combine (seq j0 (length kets)) kets).

  Lemma count_eqb x : (bs_count x =? 0) = (x =? 0)%N.
  Proof.
    destruct (Nat.eqb_spec (bs_count x) 0) as [E|E].
    - apply count_zero in E. subst. reflexivity.
    - destruct (N.eqb_spec x 0) as [->|D]; [exfalso; apply E; reflexivity|reflexivity].
  Qed.

  Lemma csr_row_ok thr bra : good W n na nb bra -> bra <> 0%N -> forall kets j,
    (forall k, In k kets -> det k) ->
    csr_row W h thr bra (positions n (alpha W bra)) (positions n (beta W bra)) j kets =
    Ok (spec_row thr bra j kets).
  Proof.
    intros Gb Nb. induction kets as [|ket kets IH]; intros j Hk; cbn [csr_row]; [reflexivity|].
    unfold spec_row. cbn [length seq combine flat_map fst snd]. fold (spec_row thr bra (S j) kets).
    specialize (IH (S j) (fun k Hk' => Hk k (or_intror Hk'))).
    rewrite count_eqb. unfold stored, near.
    rewrite (proj2 (N.eqb_neq bra 0) Nb). cbn [negb andb].
    destruct (N.eqb_spec ket 0) as [->|Nk]; cbn [orb negb andb].
    { rewrite IH. reflexivity. }
    destruct (bs_count (N.lxor bra ket) <=? 4); cbn [negb andb]; [|rewrite IH; reflexivity].
    destruct (Hk ket (or_introl eq_refl)) as [?|Gk]; [congruence|].
    pose proof (good_wf W HW n Hn na nb bra Gb) as Wb. pose proof (good_wf W HW n Hn na nb ket Gk) as Wk.
    rewrite lo_xor, hi_xor, <- !alpha_lo, <- !beta_hi by auto.
    destruct Gb as (Sb & Ab & Bb), Gk as (Sk & Ak & Bk).
    rewrite (matrix_element_spin_ok W h Hn Vsym bra ket Sb Sk na nb) by auto.
    cbn [bind]. rewrite IH. cbn [bind]. destruct (abs_gt _ thr); reflexivity.
  Qed.

  Lemma spec_row_empty thr j kets : spec_row thr 0 j kets = [].
  Proof.
    unfold spec_row. generalize (combine (seq j (length kets)) kets). intros l.
    induction l as [|[j' k] l IH]; cbn [flat_map]; auto.
  Qed.

  Lemma csr_rows_ok thr bras kets : (forall b, In b bras -> det b) -> (forall k, In k kets -> det k) ->
    csr_rows W h thr bras kets = Ok (map (fun b => spec_row thr b 0 kets) bras).
  Proof.
    intros Hb Hk. unfold csr_rows. apply mapM_ok. intros bra Hbra. rewrite count_eqb.
    destruct (N.eqb_spec bra 0) as [->|Nb]; [rewrite spec_row_empty; reflexivity|].
    destruct (Hb bra Hbra) as [?|G]; [congruence|].
    pose proof (good_wf W HW n Hn na nb bra G) as Wb.
    rewrite <- !alpha_lo, <- !beta_hi by auto. destruct (G) as ([Sa Sb] & _).
    rewrite !bits_to_indices_ok by (eapply wf_le; eauto). cbn [bind].
    rewrite (positions_wf n (W / 2) (alpha W bra)), (positions_wf n (W / 2) (beta W bra)) by auto.
    apply csr_row_ok; auto.
  Qed.

  Lemma spec_row_In thr b j0 kets c v : In (c, v) (spec_row thr b j0 kets) ->
    exists j k, c = j0 + j /\ j < length kets /\ nth j kets 0%N = k /\ v = Hm b k /\ stored thr b k v = true.
  Proof.
    unfold spec_row. revert j0. induction kets as [|k kets IH]; intros j0; cbn [length seq combine flat_map]; [intros []|].
    intros H. apply in_app_iff in H. destruct H as [H|H].
    - cbn [fst snd] in H. destruct (stored thr b k (Hm b k)) eqn:E; [|destruct H].
      destruct H as [H|[]]. injection H as <- <-. exists 0, k. cbn. repeat split; auto; lia.
    - apply IH in H. destruct H as (j & k' & -> & L & N & V & ST). exists (S j), k'. cbn [nth]. repeat split; auto; lia.
  Qed.

  Lemma spec_row_sorted thr b j0 kets : sorted_line (spec_row thr b j0 kets).
  Proof.
    unfold sorted_line. revert j0. induction kets as [|k kets IH]; intros j0; [constructor|].
    unfold spec_row. cbn [length seq combine flat_map fst snd]. fold (spec_row thr b (S j0) kets).
    destruct (stored thr b k (Hm b k)); cbn [app map fst]; auto. constructor; auto.
    apply Forall_forall. intros c Hc. apply in_map_iff in Hc. destruct Hc as ([c' v] & <- & Hc).
    apply spec_row_In in Hc. destruct Hc as (j & k' & -> & _). cbn. lia.
  Qed.

  Lemma repeat0_prefix k : prefix_sums 0 (repeat 0 k) = repeat 0 (k + 1).
  Proof. induction k as [|k IH]; cbn [repeat prefix_sums plus]; auto. rewrite IH. reflexivity. Qed.

  Lemma make_block_ok thr bras kets : (forall b, In b bras -> det b) -> (forall k, In k kets -> det k) ->
    exists A, make_csr_block W h thr bras kets = Ok A /\
      csr_m A = length bras /\ csr_n A = length kets /\ csr_ind A = 0 /\ csr_wf A /\
      forall i, i < length bras -> csr_line A i = spec_row thr (nth i bras 0%N) 0 kets.
  Proof.
    intros Hb Hk.
    assert (X : exists A, make_csr_block W h thr bras kets = Ok A /\
      A = let rows := map (fun b => spec_row thr b 0 kets) bras in
          mk_csr (length bras) (length kets) 0 (prefix_sums 0 (map (@length _) rows))
            (map fst (concat rows)) (map snd (concat rows))).
    { unfold make_csr_block. destruct ((length bras =? 0) || (length kets =? 0)) eqn:E.
      - eexists. split; [reflexivity|]. cbn zeta.
        assert (Z : map (fun b => spec_row thr b 0 kets) bras = repeat [] (length bras)).
        { apply orb_true_iff in E. destruct E as [E|E]; apply Nat.eqb_eq in E; apply length_zero_iff_nil in E; subst.
          - reflexivity.
          - clear. induction bras as [|b bras IH]; cbn [map length repeat]; auto. rewrite IH. reflexivity. }
        rewrite Z. assert (Y : map (@length (nat * Qc)) (repeat [] (length bras)) = repeat 0 (length bras)).
        { generalize (length bras). intros k. induction k; cbn; auto. rewrite IHk. reflexivity. }
        assert (Y2 : concat (repeat (@nil (nat * Qc)) (length bras)) = []).
        { generalize (length bras). intros k. induction k; cbn; auto. }
        rewrite Y, Y2, repeat0_prefix. reflexivity.
      - unfold make_csr_block_. rewrite csr_rows_ok by auto. cbn [bind]. eexists. split; reflexivity. }
    destruct X as (A & E & EA). exists A. split; [exact E|]. cbn zeta in EA. subst A.
    cbn [csr_m csr_n csr_ind]. split; [reflexivity|]. split; [reflexivity|]. split; [reflexivity|].
    unfold csr_wf, csr_line. cbn [csr_m csr_n csr_ind rowptr colind nzval]. split.
    - assert (R := rows_wf (map (fun b => spec_row thr b 0 kets) bras) (length kets)).
      rewrite map_length in R. apply R.
      intros r Hr c Hc. apply in_map_iff in Hr. destruct Hr as (b & <- & _).
      apply in_map_iff in Hc. destruct Hc as ([c' v] & <- & Hc). apply spec_row_In in Hc.
      destruct Hc as (j & k & -> & L & _). cbn. lia.
    - intros i Hi. rewrite seg_rows by (rewrite map_length; auto).
      rewrite (nth_indep _ [] (spec_row thr 0%N 0 kets)) by (rewrite map_length; auto).
      apply (map_nth (fun b => spec_row thr b 0 kets)).
  Qed.

  (** *** distributed blocks *)
  Lemma spec_row_shift thr b j0 kets :
    map (fun cv => (fst cv + j0, snd cv)) (spec_row thr b 0 kets) = spec_row thr b j0 kets.
  Proof.
    enough (G : forall a, map (fun cv => (fst cv + j0, snd cv)) (spec_row thr b a kets) = spec_row thr b (a + j0) kets).
    { apply G. }
    induction kets as [|k kets IH]; intros a; [reflexivity|].
    unfold spec_row. cbn [length seq combine flat_map fst snd].
    fold (spec_row thr b (S a) kets). fold (spec_row thr b (S (a + j0)) kets).
    rewrite map_app. rewrite IH. cbn [plus]. f_equal.
    destruct (stored thr b k (Hm b k)); reflexivity.
  Qed.
  Lemma spec_row_app thr b j0 k1 k2 :
    spec_row thr b j0 (k1 ++ k2) = spec_row thr b j0 k1 ++ spec_row thr b (j0 + length k1) k2.
  Proof.
    revert j0. induction k1 as [|k k1 IH]; intros j0.
    - cbn [app length]. rewrite Nat.add_0_r. reflexivity.
    - unfold spec_row. cbn [app length seq combine flat_map fst snd].
      fold (spec_row thr b (S j0) (k1 ++ k2)). fold (spec_row thr b (S j0) k1).
      rewrite IH, <- app_assoc. replace (j0 + S (length k1)) with (S j0 + length k1) by lia. reflexivity.
  Qed.
  Lemma spec_row_zeros thr b j0 k : spec_row thr b j0 (repeat 0%N k) = [].
  Proof.
    revert j0. induction k as [|k IH]; intros j0; [reflexivity|].
    unfold spec_row. cbn [repeat length seq combine flat_map fst snd].
    fold (spec_row thr b (S j0) (repeat 0%N k)). rewrite IH. unfold stored.
    cbn [N.eqb negb]. rewrite andb_false_r. reflexivity.
  Qed.
  Lemma spec_row_range thr b j0 kets c v : In (c, v) (spec_row thr b j0 kets) -> j0 <= c < j0 + length kets.
  Proof. intros H. apply spec_row_In in H. destruct H as (j & k & -> & L & _). lia. Qed.

  Lemma filter_keep {A} (f : A -> bool) l : (forall x, In x l -> f x = true) -> filter f l = l.
  Proof.
    induction l as [|x l IH]; cbn; intros H; auto. rewrite (H x) by auto. rewrite IH by auto. reflexivity.
  Qed.

  Lemma dist_ok thr sds nranks st en : st <= en -> en <= length sds ->
    (forall b, In b sds -> good W n na nb b) ->
    exists A D O, make_csr_hamiltonian W h thr sds = Ok A /\
      make_dist_csr W h thr sds nranks st en = Ok (D, O) /\
      csr_wf D /\ csr_m D = en - st /\ csr_n D = en - st /\
      (forall i, i < en - st ->
        map (fun cv => (fst cv + st, snd cv)) (csr_line D i) = filter (inside st en) (csr_line A (st + i))) /\
      (1 < nranks -> exists B, O = Some B /\ csr_wf B /\ csr_m B = en - st /\ csr_n B = length sds /\
        forall i, i < en - st ->
          csr_line B i = filter (fun cv => negb (inside st en cv)) (csr_line A (st + i))) /\
      (nranks <= 1 -> O = None).
  Proof.
    intros L1 L2 G.
    assert (DT : forall x, In x sds -> det x) by (intros x Hx; right; auto).
    set (mine := firstn (en - st) (skipn st sds)).
    assert (Lm : length mine = en - st).
    { unfold mine. rewrite firstn_length, skipn_length. lia. }
    assert (DM : forall x, In x mine -> det x).
    { intros x Hx. apply DT. unfold mine in Hx. apply In_firstn, In_skipn in Hx. exact Hx. }
    assert (SP : sds = firstn st sds ++ mine ++ skipn en sds).
    { unfold mine. rewrite <- (firstn_skipn st sds) at 1. f_equal.
      rewrite <- (firstn_skipn (en - st) (skipn st sds)) at 1. f_equal.
      rewrite skipn_skipn'. f_equal. lia. }
    assert (Lf : length (firstn st sds) = st) by (rewrite firstn_length; lia).
    destruct (make_block_ok thr sds sds DT DT) as (A & EA & _ & _ & _ & _ & RA).
    destruct (make_block_ok thr mine mine DM DM) as (D & ED & mD & nD & iD & WD & RD).
    set (off := firstn st sds ++ repeat 0%N (en - st) ++ skipn en sds).
    assert (DO : forall x, In x off -> det x).
    { intros x Hx. unfold off in Hx. rewrite !in_app_iff in Hx. destruct Hx as [H|[H|H]].
      - apply DT. rewrite SP. rewrite !in_app_iff. auto.
      - left. apply repeat_spec in H. auto.
      - apply DT. rewrite SP. rewrite !in_app_iff. auto. }
    destruct (make_block_ok thr mine off DM DO) as (B & EB & mB & nB & iB & WB & RB).
    assert (Lo : length off = length sds).
    { unfold off. rewrite !app_length, repeat_length, Lf, skipn_length. lia. }
    assert (NTH : forall i, i < en - st -> nth (st + i) sds 0%N = nth i mine 0%N).
    { intros i Hi. rewrite SP at 1. rewrite app_nth2 by lia. rewrite app_nth1 by lia.
      f_equal. lia. }
    assert (ROW : forall b, spec_row thr b 0 sds =
      spec_row thr b 0 (firstn st sds) ++ spec_row thr b st mine ++ spec_row thr b en (skipn en sds)).
    { intros b. rewrite SP at 1. rewrite !spec_row_app, Lf, Lm. do 2 f_equal. f_equal. lia. }
    assert (ROWO : forall b, spec_row thr b 0 off =
      spec_row thr b 0 (firstn st sds) ++ spec_row thr b en (skipn en sds)).
    { intros b. unfold off. rewrite !spec_row_app, Lf, spec_row_zeros, repeat_length. cbn [app].
      do 2 f_equal. lia. }
    assert (IN : forall b, filter (inside st en) (spec_row thr b 0 sds) = spec_row thr b st mine).
    { intros b. rewrite ROW, !filter_app. rewrite (filter_none _ (spec_row thr b 0 (firstn st sds))).
      2:{ intros [c v] Hc. apply spec_row_range in Hc. unfold inside. cbn [fst].
          destruct (Nat.leb_spec st c); [lia|reflexivity]. }
      rewrite (filter_none _ (spec_row thr b en (skipn en sds))).
      2:{ intros [c v] Hc. apply spec_row_range in Hc. unfold inside. cbn [fst].
          destruct (Nat.ltb_spec c en); [lia|apply andb_false_r]. }
      cbn [app]. rewrite app_nil_r. apply filter_keep.
      intros [c v] Hc. apply spec_row_range in Hc. unfold inside. cbn [fst].
      destruct (Nat.leb_spec st c), (Nat.ltb_spec c en); try lia; reflexivity. }
    assert (OUT : forall b, filter (fun cv => negb (inside st en cv)) (spec_row thr b 0 sds) = spec_row thr b 0 off).
    { intros b. rewrite ROW, ROWO, !filter_app. rewrite (filter_none _ (spec_row thr b st mine)).
      2:{ intros [c v] Hc. apply spec_row_range in Hc. unfold inside. cbn [fst].
          destruct (Nat.leb_spec st c), (Nat.ltb_spec c en); try lia; reflexivity. }
      cbn [app]. f_equal; apply filter_keep; intros [c v] Hc; apply spec_row_range in Hc; unfold inside; cbn [fst].
      - destruct (Nat.leb_spec st c); [lia|reflexivity].
      - destruct (Nat.ltb_spec c en); [lia|]. rewrite andb_false_r. reflexivity. }
    unfold make_dist_csr. fold mine off. rewrite ED. cbn [bind].
    exists A, D, (if 1 <? nranks then Some B else None). split; [exact EA|]. split.
    { destruct (1 <? nranks); [rewrite EB|]; reflexivity. }
    split; [exact WD|]. split; [lia|]. split; [lia|]. split; [|split].
    - intros i Hi. rewrite RD by lia. rewrite RA by lia. rewrite NTH by auto. rewrite IN. apply spec_row_shift.
    - intros Hr. exists B. apply Nat.ltb_lt in Hr. rewrite Hr. split; auto. split; [exact WB|].
      split; [lia|]. split; [lia|]. intros i Hi. rewrite RB by lia. rewrite RA by lia. rewrite NTH by auto.
      symmetry. apply OUT.
    - intros Hr. apply Nat.ltb_ge in Hr. rewrite Hr. reflexivity.
  Qed.
End CSR.

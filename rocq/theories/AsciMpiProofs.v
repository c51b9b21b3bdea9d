(** Proofs about the selection on several ranks. *)
From Coq Require Import QArith Qcanon Sorting.Permutation Sorting.Sorted.
From Verif Require Import Base Nondet Bits SD Spec Sums Ham Asci AsciSpec AsciSort AsciSearch AsciSearch2 Constraint
  ConstraintSearch3 Collective CollectiveSpec CollectiveProofs QuickProofs AsciMpi.
Local Open Scope nat_scope.

(** candidates: states with non-zero score that are not core determinants *)
Definition cand (cdets : list N) (uniq : list contrib) (s : N) (x : Qc) : Prop :=
  In (s, x) uniq /\ x <> 0%Qc /\ ~ In s cdets.

Lemma finalize_ok W cdets C uniq :
  NoDup (map fst uniq) -> (forall s, In s (map fst uniq) -> wf W s) -> (forall s, In s cdets -> wf W s) ->
  length cdets <= length C ->
  always (finalize_pairs W cdets C uniq) (fun p1 => NoDup (map fst p1) /\
    forall s v, In (s, v) p1 <-> exists x, cand cdets uniq s x /\ v = (- Qcabs x)%Qc).
Proof.
  intros Nu Wu Wc LC. unfold finalize_pairs.
  set (scored := map (fun x : contrib => (fst x, (- Qcabs (snd x))%Qc)) uniq).
  set (sd := fun i => (nth i cdets 0%N, Qcabs (nth i C 0%Qc))).
  apply always_bind with (P := fun seeds => seeds = map sd (seq 0 (length cdets))).
  { eapply always_det; [|reflexivity]. apply mapM_ok. intros i Hi. apply in_seq in Hi.
    unfold at_. rewrite (nth_error_nth' C 0%Qc) by lia. reflexivity. }
  intros seeds ->.
  assert (SS : forall s v, In (s, v) (map sd (seq 0 (length cdets))) -> In s cdets /\ (0 <= v)%Qc).
  { intros s v H. apply in_map_iff in H. destruct H as (i & E & Hi). injection E as <- <-. apply in_seq in Hi.
    split; [apply nth_In; lia|apply Qcabs_nonneg]. }
  assert (SC : forall s, In s cdets -> exists v, In (s, v) (map sd (seq 0 (length cdets)))).
  { intros s Hs. apply (In_nth _ _ 0%N) in Hs. destruct Hs as (i & Hi & <-). exists (Qcabs (nth i C 0%Qc)).
    apply in_map_iff. exists i. split; auto. apply in_seq. lia. }
  assert (SU : forall s v, In (s, v) scored <-> exists x, In (s, x) uniq /\ v = (- Qcabs x)%Qc).
  { intros s v. unfold scored. rewrite in_map_iff. split.
    - intros ([a b] & E & H). cbn [fst snd] in E. injection E as -> <-. eauto.
    - intros (x & H & ->). exists (s, x). auto. }
  eapply always_bind; [apply keep_largest_ok|].
  { intros s Hs. rewrite map_app, in_app_iff in Hs. destruct Hs as [Hs|Hs].
    - apply Wu. unfold scored in Hs. rewrite map_map in Hs. exact Hs.
    - apply in_map_iff in Hs. destruct Hs as ([a b] & <- & Hs). apply SS in Hs. apply Wc, Hs. }
  intros kp (Ks & Ki & Kv).
  eapply always_bind; [apply std_partition_always|].
  intros [p1 p2] [P1 _]. cbn [fst snd] in P1 |- *.
  apply always_ret. split.
  { eapply Permutation_NoDup; [apply Permutation_map, P1|]. apply NoDup_fst_filter, NoDup_sorted_lt, Ks. }
  intros s v. transitivity (In (s, v) (filter (fun p : contrib => qlt (snd p) 0) kp)).
  { split; intros X; [eapply Permutation_in; [apply Permutation_sym, P1|exact X]|eapply Permutation_in; eauto]. }
  rewrite filter_In. cbn [snd]. rewrite qlt_true. split.
  - intros [H1 H2]. destruct (Kv _ _ H1) as [H3 H4]. rewrite in_app_iff in H3.
    assert (Nc : ~ In s cdets).
    { intros X. destruct (SC s X) as [w Hw]. specialize (H4 w). rewrite in_app_iff in H4.
      specialize (H4 (or_intror Hw)). apply SS in Hw. destruct Hw as [_ Hw].
      apply (Qclt_not_le _ _ H2). eapply Qcle_trans; eauto. }
    destruct H3 as [H3|H3]; [|apply SS in H3; tauto]. apply SU in H3. destruct H3 as (x & Hx & ->).
    exists x. split; auto. split; auto. split; auto. apply neg_abs_lt, H2.
  - intros (x & (Hx & X0 & Nc) & ->). split; [|apply neg_abs_lt, X0].
    assert (Hs : In s (map fst kp)).
    { apply Ki. rewrite map_app, in_app_iff. left. apply in_map_iff. exists (s, (- Qcabs x)%Qc). split; auto.
      apply SU. eauto. }
    apply in_map_iff in Hs. destruct Hs as ([s' v] & E & Hv). cbn [fst] in E. subst s'.
    destruct (Kv _ _ Hv) as [H3 _]. rewrite in_app_iff in H3. destruct H3 as [H3|H3].
    + apply SU in H3. destruct H3 as (x' & Hx' & ->). rewrite (NoDup_fst_inj uniq s x x' Nu Hx Hx'). exact Hv.
    + apply SS in H3. tauto.
Qed.

Lemma qgreater_weak : weak_order qgreater.
Proof.
  unfold qgreater. split.
  - intros x y H. apply qlt_true in H. apply qlt_false. apply Qclt_le_weak, H.
  - intros x y z H1 H2. apply qlt_false in H1, H2. apply qlt_false. eapply Qcle_trans; eauto.
Qed.
Lemma qequal_spec x y : qequal x y = negb (qgreater x y) && negb (qgreater y x).
Proof.
  unfold qequal, qgreater. destruct (Qc_eq_dec x y) as [->|N].
  - assert (E : qlt y y = false) by (apply qlt_false, Qcle_refl). rewrite E. reflexivity.
  - destruct (qlt y x) eqn:E1; auto. destruct (qlt x y) eqn:E2; auto. exfalso. apply N.
    apply qlt_false in E1, E2. apply Qcle_antisym; auto.
Qed.

Lemma always_and {A} (m : nd A) (P Q : A -> Prop) : always m P -> always m Q -> always m (fun a => P a /\ Q a).
Proof.
  intros [E H1] [_ H2]. split; auto. intros r Hr. destruct (H1 r Hr) as (a & -> & Pa). destruct (H2 _ Hr) as (b & Eb & Qb).
  injection Eb as <-. eauto.
Qed.

(** [v]: the k-th largest |score| *)
Definition mpi_selection (k : nat) (cdets : list N) (uniq : list contrib) (out : list N) : Prop :=
  exists sel v, out = sel ++ cdets /\ NoDup sel /\ length sel = k /\
    (forall s, In s sel -> exists x, cand cdets uniq s x /\ (v <= Qcabs x)%Qc) /\
    (exists s x, cand cdets uniq s x /\ Qcabs x = v) /\
    (* fewer than k candidates above v *)
    (forall l, NoDup l -> (forall s, In s l -> exists x, cand cdets uniq s x /\ (v < Qcabs x)%Qc) -> length l < k) /\
    (* all candidates reaching v are selected, unless there are more than k *)
    ((exists s x, cand cdets uniq s x /\ (v <= Qcabs x)%Qc /\ ~ In s sel) ->
     exists l, NoDup l /\ k < length l /\ forall s, In s l -> exists x, cand cdets uniq s x /\ (v <= Qcabs x)%Qc).

Lemma NoDup_app_disj {A} (a b : list A) x : NoDup (a ++ b) -> In x a -> In x b -> False.
Proof.
  induction a as [|y a IH]; intros N H1 H2; [destruct H1|]. cbn [app] in N. inversion N as [|? ? N1 N2]; subst.
  destruct H1 as [->|H1]; auto. apply N1, in_or_app. auto.
Qed.
Lemma NoDup_app_r' {A} (a b : list A) : NoDup (a ++ b) -> NoDup b.
Proof. induction a as [|x a IH]; auto. cbn [app]. intros H. inversion H; auto. Qed.
Lemma NoDup_app_l' {A} (a b : list A) : NoDup (a ++ b) -> NoDup a.
Proof. induction a as [|x a IH]; intros H; [constructor|]. cbn [app] in H. inversion H as [|? ? H1 H2]; subst. constructor; auto. intros X. apply H1, in_or_app. auto. Qed.

Lemma kept_concat cdets (pairs kept : list (list contrib)) :
  NoDup (map fst (concat pairs)) ->
  Forall2 (fun p q => NoDup (map fst q) /\
    forall s v, In (s, v) q <-> exists x, cand cdets p s x /\ v = (- Qcabs x)%Qc) pairs kept ->
  NoDup (map fst (concat kept)) /\
  forall s v, In (s, v) (concat kept) <-> exists x, cand cdets (concat pairs) s x /\ v = (- Qcabs x)%Qc.
Proof.
  intros Nd F. induction F as [|p q ps qs [Nq Iq] F IH].
  - cbn [concat map]. split; [constructor|]. intros s v. split; [intros []|]. intros (x & ([] & _) & _).
  - cbn [concat] in *. rewrite map_app in Nd. pose proof (NoDup_app_r' _ _ Nd) as Nr.
    destruct (IH Nr) as [IH1 IH2]. split.
    + rewrite map_app.
      assert (D : forall s, In s (map fst q) -> ~ In s (map fst (concat qs))).
      { intros s H1 H2. apply in_map_iff in H1, H2. destruct H1 as ([a v] & <- & H1), H2 as ([b w] & E & H2).
        cbn [fst] in E. subst b. cbn [fst] in *. apply Iq in H1. apply IH2 in H2. destruct H1 as (x & (H1 & _) & _), H2 as (y & (H2 & _) & _).
        apply (NoDup_app_disj _ _ a Nd); [apply (in_map fst) in H1|apply (in_map fst) in H2]; auto. }
      clear - Nq IH1 D. induction (map fst q) as [|y t IHt]; auto. cbn [app]. inversion Nq; subst. constructor.
      * rewrite in_app_iff. intros [X|X]; [auto|]. apply (D y); auto. left; auto.
      * apply IHt; auto. intros s Hs. apply D. right; auto.
    + intros s v. rewrite in_app_iff, Iq, IH2. unfold cand. setoid_rewrite in_app_iff. split.
      * intros [(x & (A & B & C0) & E)|(x & (A & B & C0) & E)]; exists x; auto 6.
      * intros (x & ([A|A] & B & C0) & E); [left|right]; exists x; auto 6.
Qed.

Lemma combine_const {A B} (l : list A) (ks : list B) v : length ks = length l -> Forall (fun x => x = v) ks ->
  combine l ks = map (fun a => (a, v)) l.
Proof.
  revert ks. induction l as [|a l IH]; intros [|x ks] H F; cbn [length combine map] in *; auto; try lia.
  inversion F; subst. f_equal. apply IH; auto.
Qed.
Lemma Forall2_len {A B} (R : A -> B -> Prop) l l' : Forall2 R l l' -> length l = length l'.
Proof. induction 1; cbn; auto. Qed.

Section SELECT.
  Variables (W ndets_max : nat) (cdets : list N) (C : list Qc) (pairs : list (list contrib)).
  Hypothesis NE : pairs <> [].
  Hypothesis Nu : NoDup (map fst (concat pairs)).
  Hypothesis Wu : forall s, In s (map fst (concat pairs)) -> wf W s.
  Hypothesis Wc : forall s, In s cdets -> wf W s.
  Hypothesis LC : length cdets <= length C.
  Hypothesis Tot : (Z.of_nat (length (concat pairs)) < 2 ^ 31)%Z.
  Hypothesis Lm : length cdets < ndets_max.
  Hypothesis L31 : (Z.of_nat (ndets_max - length cdets) < 2 ^ 31)%Z.
  Hypothesis L64 : (N.of_nat ndets_max < 2 ^ 64)%N.
  Notation k := (ndets_max - length cdets).
  Notation kept_ok kept := (length kept = length pairs /\ NoDup (map fst (concat kept)) /\
    forall s v, In (s, v) (concat kept) <-> exists x, cand cdets (concat pairs) s x /\ v = (- Qcabs x)%Qc).

  Lemma finalize_all : always (mapND (finalize_pairs W cdets C) pairs) (fun kept => kept_ok kept).
  Proof.
    eapply always_weaken; [|apply mapND_always with (R := fun p q => NoDup (map fst q) /\
       forall s v, In (s, v) q <-> exists x, cand cdets p s x /\ v = (- Qcabs x)%Qc)].
    - cbn beta. intros kept F. split; [symmetry; eapply Forall2_len; eauto|]. apply kept_concat; auto.
    - intros p Hp. apply in_split in Hp. destruct Hp as (l1 & l2 & E).
      assert (EC : concat pairs = concat l1 ++ p ++ concat l2) by (rewrite E, concat_app; reflexivity).
      apply finalize_ok; auto.
      + rewrite EC, !map_app in Nu. apply NoDup_app_r' in Nu. apply NoDup_app_l' in Nu. exact Nu.
      + intros s Hs. apply Wu. rewrite EC, !map_app, !in_app_iff. auto.
  Qed.
  Lemma kept_len kept : kept_ok kept -> length (concat kept) <= length (concat pairs).
  Proof.
    intros (_ & N1 & I1).
    rewrite <- (map_length fst (concat kept)), <- (map_length fst (concat pairs)).
    apply NoDup_incl_length; auto. intros s Hs. apply in_map_iff in Hs. destruct Hs as ([a v] & <- & Hs).
    apply I1 in Hs. destruct Hs as (x & (Hx & _) & _). apply (in_map fst) in Hx. exact Hx.
  Qed.
  Lemma top_k_eq : to_int (Z.of_N (size_sub ndets_max (length cdets))) = Z.of_nat k.
  Proof. rewrite size_sub_ok by (auto; lia). rewrite nat_N_Z. apply to_int_id. lia. Qed.

  Notation sc := (fun p : contrib => Qcabs (snd p)).
  Lemma concat_map_map (f : contrib -> Qc) (l : list (list contrib)) : concat (map (map f) l) = map f (concat l).
  Proof. symmetry. apply concat_map. Qed.

  Lemma parts_all kept v : always (mapND (fun lk : list contrib * Qc =>
      leg_partition (fun p => qlt (snd lk) (Qcabs (snd p))) (fun p => qequal (Qcabs (snd p)) (snd lk)) (fst lk))
      (map (fun l => (l, v)) kept)) (fun parts => length parts = length kept /\
    Permutation (concat (map (fun t : list contrib * list contrib * list contrib => map fst (fst (fst t) ++ snd (fst t))) parts))
      (map fst (filter (fun p => negb (qlt (Qcabs (snd p)) v)) (concat kept)))).
  Proof.
    induction kept as [|l ks IH]; cbn [map mapND].
    - apply always_ret. split; auto.
    - eapply always_bind; [apply leg_partition_always|]. cbn beta. intros [[a b] c] (P & F1 & F2 & F3). cbn [fst snd] in *.
      eapply always_bind; [apply IH|]. cbn beta. intros bs [Lb Pb]. apply always_ret.
      cbn [length map concat fst snd]. split; [congruence|].
      rewrite filter_app. rewrite (map_app fst (filter _ l)). apply Permutation_app; auto. apply Permutation_map.
      rewrite (filter_perm _ _ _ P). rewrite !filter_app.
      rewrite Forall_forall in F1, F2, F3.
      assert (X1 : filter (fun p : contrib => negb (qlt (Qcabs (snd p)) v)) a = a).
      { apply filter_full. intros x Hx. specialize (F1 x Hx). apply qlt_true in F1.
        assert (E : qlt (Qcabs (snd x)) v = false) by (apply qlt_false, Qclt_le_weak, F1). rewrite E. reflexivity. }
      assert (X2 : filter (fun p : contrib => negb (qlt (Qcabs (snd p)) v)) b = b).
      { apply filter_full. intros x Hx. destruct (F2 x Hx) as [_ E2]. unfold qequal in E2.
        destruct (Qc_eq_dec (Qcabs (snd x)) v) as [->|]; [|discriminate].
        assert (E : qlt v v = false) by (apply qlt_false, Qcle_refl). rewrite E. reflexivity. }
      assert (X3 : filter (fun p : contrib => negb (qlt (Qcabs (snd p)) v)) c = []).
      { apply filter_empty. intros x Hx. destruct (F3 x Hx) as [E1 E2]. unfold qequal in E2.
        destruct (Qc_eq_dec (Qcabs (snd x)) v) as [|Ne]; [discriminate|].
        destruct (qlt (Qcabs (snd x)) v) eqn:E; auto. exfalso. apply Ne. apply qlt_false in E1, E. apply Qcle_antisym; auto. }
      rewrite X1, X2, X3, app_nil_r. reflexivity.
  Qed.

  Lemma filter_map_len (p : Qc -> bool) (f : contrib -> Qc) l : length (filter p (map f l)) = length (filter (fun x => p (f x)) l).
  Proof. induction l as [|x r IH]; auto. cbn [map filter]. destruct (p (f x)); cbn [length]; auto. Qed.

  Lemma mpi_select_ok fuel g (l0 : list N) :
    NoDup l0 -> (forall s, In s l0 -> exists x, cand cdets (concat pairs) s x) -> k <= length l0 ->
    length (concat pairs) < fuel ->
    always (select_dets_mpi fuel g W ndets_max cdets C pairs) (mpi_selection k cdets (concat pairs)).
  Proof.
    intros N0 C0 K0 HF. unfold select_dets_mpi.
    eapply always_bind; [apply finalize_all|]. cbn beta. intros kept KO.
    pose proof (kept_len kept KO) as KL. destruct KO as (LK & NK & IK).
    assert (CN : length l0 <= length (concat kept)).
    { rewrite <- (map_length fst (concat kept)). apply NoDup_incl_length; auto. intros s Hs. destruct (C0 s Hs) as [x Hx].
      apply in_map_iff. exists (s, (- Qcabs x)%Qc). split; auto. apply IK. eauto. }
    rewrite top_k_eq. destruct (Z.ltb_spec (Z.of_nat k) 0) as [Bad|_]; [lia|]. rewrite Nat2Z.id.
    set (scores := map (map sc) kept).
    assert (LS : length (concat scores) = length (concat kept)) by (unfold scores; rewrite concat_map_map, map_length; auto).
    eapply always_bind with (P := fun kths => length kths = length scores /\ Forall (is_kth qgreater k (concat scores)) kths).
    { apply dist_quickselect_ok; try lia.
      - apply qgreater_weak.
      - apply qequal_spec.
      - unfold scores. intros E. apply map_eq_nil in E. subst kept. destruct pairs; [congruence|discriminate]. }
    intros kths [LK2 FK].
    assert (exists v, is_kth qgreater k (concat scores) v /\ Forall (fun x => x = v) kths) as (v & HV & FV).
    { destruct kths as [|v vs].
      - exfalso. cbn in LK2. unfold scores in LK2. rewrite map_length in LK2. destruct pairs; [congruence|]. cbn in LK. lia.
      - exists v. inversion FK as [|? ? H1 H2]; subst. split; auto. constructor; auto.
        eapply Forall_impl; [|exact H2]. cbn beta. intros w Hw.
        pose proof (is_kth_tie qgreater qgreater_weak k _ _ _ H1 Hw) as T1.
        pose proof (is_kth_tie qgreater qgreater_weak k _ _ _ Hw H1) as T2.
        unfold qgreater in T1, T2. apply qlt_false in T1, T2. apply Qcle_antisym; auto. }
    rewrite (combine_const kept kths v) by (auto; unfold scores in LK2; rewrite map_length in LK2; auto).
    eapply always_bind; [apply parts_all|]. cbn beta. intros parts [LP PP].
    set (keep := map (fun t : list contrib * list contrib * list contrib => map fst (fst (fst t) ++ snd (fst t))) parts) in *.
    set (geq := filter (fun p => negb (qlt (Qcabs (snd p)) v)) (concat kept)) in *.
    pose proof (Permutation_length PP) as PL. rewrite map_length in PL.
    pose proof (filter_len_le (fun p => negb (qlt (Qcabs (snd p)) v)) (concat kept)) as GL. fold geq in GL.
    assert (E0 : map (fun l : list N => to_int (Z.of_nat (length l))) keep = lens keep).
    { apply map_ext_in. intros d Hd. apply to_int_id.
      assert (length d <= length (concat keep)).
      { clear - Hd. induction keep as [|x r IH]; [destruct Hd|]. cbn [concat]. rewrite app_length. destruct Hd as [->|Hd]; [lia|]. specialize (IH Hd). lia. }
      lia. }
    rewrite E0.
    eapply always_bind.
    { apply always_det with (P := fun t => t = (sumz (lens keep), lens keep, starts 0 (lens keep)))
        (a := (sumz (lens keep), lens keep, starts 0 (lens keep))); auto.
      apply tgs_ok; [apply lens_nonneg|rewrite lens_sum; lia]. }
    intros [[tn sz] ls] E. injection E as -> -> ->. rewrite lens_sum.
    eapply always_bind.
    { eapply always_det with (P := fun t => t = concat keep); [|reflexivity].
      apply MPI_Allgatherv_ok. rewrite repeat_length, Nat2Z.id. reflexivity. }
    intros glob ->. apply always_ret.
    rewrite size_sub_ok by (auto; lia).
    destruct HV as (V1 & V2 & V3).
    unfold scores in V1, V2, V3. rewrite concat_map_map in V1, V2, V3. rewrite filter_map_len in V2, V3.
    unfold qgreater in V2, V3. change (filter (fun x : contrib => negb (qlt (Qcabs (snd x)) v)) (concat kept)) with geq in V3.
    set (sel := if (N.of_nat k <? Z.to_N (Z.of_nat (length (concat keep))))%N
                then firstn (N.to_nat (N.of_nat k)) (concat keep) else concat keep).
    assert (NG : NoDup (concat keep)).
    { eapply Permutation_NoDup; [apply Permutation_sym; exact PP|]. apply NoDup_fst_filter, NK. }
    assert (IG : forall s, In s (concat keep) <-> exists x, cand cdets (concat pairs) s x /\ (v <= Qcabs x)%Qc).
    { intros s. transitivity (In s (map fst geq)).
      { split; apply Permutation_in; auto. apply Permutation_sym; auto. }
      rewrite in_map_iff. unfold geq. setoid_rewrite filter_In. split.
      - intros ([a w] & <- & [H1 H2]). cbn [fst snd] in *. apply IK in H1. destruct H1 as (x & Hx & ->). exists x. split; auto.
        rewrite Qcabs_opp, (Qcabs_id (Qcabs x)) in H2 by apply Qcabs_nonneg.
        destruct (qlt (Qcabs x) v) eqn:E; [discriminate|]. apply qlt_false in E. exact E.
      - intros (x & Hx & Hv). exists (s, (- Qcabs x)%Qc). cbn [fst snd]. split; auto. split; [apply IK; eauto|].
        rewrite Qcabs_opp, (Qcabs_id (Qcabs x)) by apply Qcabs_nonneg.
        assert (E : qlt (Qcabs x) v = false) by (apply qlt_false, Hv). rewrite E. reflexivity. }
    assert (SI : forall s, In s sel -> In s (concat keep)).
    { intros s. unfold sel. destruct (_ <? _)%N; auto. intros Hs. rewrite <- (firstn_skipn (N.to_nat (N.of_nat k)) (concat keep)).
      apply in_or_app. auto. }
    exists sel, v. split; auto. split.
    { unfold sel. destruct (_ <? _)%N; auto.
      apply (NoDup_app_l' _ (skipn (N.to_nat (N.of_nat k)) (concat keep))). rewrite firstn_skipn. exact NG. }
    split.
    { unfold sel. rewrite Nnat.Nat2N.id. destruct (N.ltb_spec (N.of_nat k) (Z.to_N (Z.of_nat (length (concat keep))))).
      - rewrite firstn_length. lia.
      - lia. }
    split; [intros s Hs; apply IG, SI, Hs|]. split; [|split].
    - apply in_map_iff in V1. destruct V1 as ([s w] & E & Hs). cbn [snd] in E. apply IK in Hs. destruct Hs as (x & Hx & ->).
      exists s, x. split; auto. rewrite <- E, Qcabs_opp, (Qcabs_id (Qcabs x)); auto. apply Qcabs_nonneg.
    - intros l Nl Hl. eapply Nat.le_lt_trans; [|exact V2].
      rewrite <- (map_length fst (filter _ _)). apply NoDup_incl_length; auto. intros s Hs. destruct (Hl s Hs) as (x & Hx & Lt).
      apply in_map_iff. exists (s, (- Qcabs x)%Qc). split; auto. apply filter_In. split; [apply IK; eauto|]. cbn [snd].
      rewrite Qcabs_opp, (Qcabs_id (Qcabs x)) by apply Qcabs_nonneg. apply qlt_true, Lt.
    - intros (s & x & Hx & Hv & Ns). exists (concat keep). split; auto. split; [|intros t Ht; apply IG, Ht].
      unfold sel in Ns. destruct (N.ltb_spec (N.of_nat k) (Z.to_N (Z.of_nat (length (concat keep))))); [lia|].
      exfalso. apply Ns, IG. eauto.
  Qed.

  (* without ties the k best are selected *)
  Lemma mpi_select_best fuel g (l0 : list N) :
    NoDup l0 -> (forall s, In s l0 -> exists x, cand cdets (concat pairs) s x) -> k <= length l0 ->
    (forall s x t y, cand cdets (concat pairs) s x -> cand cdets (concat pairs) t y -> s <> t -> Qcabs x <> Qcabs y) ->
    length (concat pairs) < fuel ->
    always (select_dets_mpi fuel g W ndets_max cdets C pairs) (selection k cdets (concat pairs)).
  Proof.
    intros N0 C0 K0 NT HF. eapply always_weaken; [|apply (mpi_select_ok fuel g l0); auto].
    intros out (sel & v & -> & Ns & Lk & Is & (s0 & x0 & H0 & E0) & Lt & Ful). exists sel.
    split; auto. split; auto. split; [lia|]. split; [|split].
    - intros s Hs. destruct (Is s Hs) as (x & (A & B & D) & _). eauto.
    - intros s x t y Hs Hx Hy Nc Nt. destruct (Qc_eq_dec y 0) as [->|Y0].
      { rewrite (Qcabs_id 0) by apply Qcle_refl. apply Qcabs_nonneg. }
      destruct (Is s Hs) as (x' & (Hx' & _ & _) & Hv). rewrite <- (NoDup_fst_inj (concat pairs) s x x' Nu Hx Hx') in Hv.
      assert (CT : cand cdets (concat pairs) t y) by (split; auto).
      assert (Lv : (Qcabs y <= v)%Qc).
      { apply Qcnot_lt_le. intros Hlt.
        destruct (Ful) as (l & Nl & Ll & Il); [exists t, y; split; auto; split; auto; apply Qclt_le_weak, Hlt|].
        (* at most one element of l equals v *)
        assert (length (remove N.eq_dec s0 l) < k).
        { apply Lt. { clear - Nl. induction Nl as [|a l Na Nl IH]; cbn [remove]; [constructor|]. destruct (N.eq_dec s0 a); auto. constructor; auto. intros X. apply in_remove in X. tauto. }
          intros s' Hs'. apply in_remove in Hs'. destruct Hs' as [Hs' Ne]. destruct (Il s' Hs') as (z & Hz & Hvz). exists z. split; auto.
          apply Qcle_lt_or_eq in Hvz. destruct Hvz as [|E]; auto. exfalso. apply (NT s' z s0 x0 Hz H0 Ne). congruence. }
        assert (length l <= S (length (remove N.eq_dec s0 l))).
        { clear - Nl. induction Nl as [|a l Na Nl IH]; cbn [remove length]; auto. destruct (N.eq_dec s0 a) as [->|Ne]; cbn [length]; [|lia].
          rewrite notin_remove by auto. lia. }
        lia. }
      eapply Qcle_trans; eauto.
    - lia.
  Qed.

  (* too few candidates *)
  Lemma mpi_select_short fuel g : (forall l, NoDup l -> (forall s, In s l -> exists x, cand cdets (concat pairs) s x) -> length l < k) ->
    length (concat pairs) < fuel ->
    forall r, select_dets_mpi fuel g W ndets_max cdets C pairs r -> r = Err UB.
  Proof.
    intros Sh HF r Hr. unfold select_dets_mpi in Hr. destruct finalize_all as [_ FA].
    destruct Hr as [(e & He & ->)|(kept & Hk & Hr)]; [destruct (FA _ He) as (? & ? & _); discriminate|].
    destruct (FA _ Hk) as (kept' & E & KO). injection E as <-.
    pose proof (kept_len kept KO) as KL. destruct KO as (LK & NK & IK).
    rewrite top_k_eq in Hr. destruct (Z.ltb_spec (Z.of_nat k) 0) as [Bad|_]; [lia|]. rewrite Nat2Z.id in Hr.
    set (scores := map (map sc) kept) in *.
    assert (LS : length (concat scores) = length (concat kept)) by (unfold scores; rewrite concat_map_map, map_length; auto).
    assert (TL : forall r', dist_quickselect 0%Qc qgreater qequal fuel g k scores r' -> r' = Err UB).
    { apply dist_quickselect_too_large; try lia.
      - apply qgreater_weak.
      - apply qequal_spec.
      - unfold scores. intros E. apply map_eq_nil in E. subst kept. destruct pairs; [congruence|discriminate].
      - rewrite LS, <- (map_length fst (concat kept)). apply Sh; auto.
        intros s Hs. apply in_map_iff in Hs. destruct Hs as ([a v] & <- & Hs). apply IK in Hs. destruct Hs as (x & Hx & _). eauto. }
    destruct Hr as [(e & He & ->)|(kths & Hk2 & _)]; [specialize (TL _ He); congruence|specialize (TL _ Hk2); discriminate].
  Qed.
End SELECT.

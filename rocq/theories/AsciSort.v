(** Proofs about determinant_sort.hpp. *)
From Coq Require Import QArith Qcanon Sorting.Permutation Sorting.Sorted.
From Verif Require Import Base Nondet Bits BitsProofs SD Sums Ham HamProofs8 Asci AsciSpec.
Local Open Scope nat_scope.

Lemma qlt_spec x y : reflect (x < y)%Qc (qlt x y).
Proof. unfold qlt. destruct (Qclt_le_dec x y); constructor; auto. apply Qcle_not_lt. auto. Qed.

Lemma qlt_true x y : qlt x y = true <-> (x < y)%Qc.
Proof. destruct (qlt_spec x y); split; auto; try discriminate. Qed.
Lemma qlt_false x y : qlt x y = false <-> (y <= x)%Qc.
Proof.
  destruct (qlt_spec x y) as [H|H]; split; auto; try discriminate.
  - intros Q. exfalso. apply (Qclt_not_le _ _ H), Q.
  - intros _. apply Qcnot_lt_le, H.
Qed.

Section GROUP.
  Variable op : Qc -> Qc -> Qc.
  Fixpoint group (cur : contrib) (l : list contrib) : list contrib :=
    match l with
    | [] => [cur]
    | x :: r => if (fst x =? fst cur)%N then group (fst cur, op (snd cur) (snd x)) r
                else cur :: group x r
    end.
  Notation le := (fun x y : contrib => (fst x <= fst y)%N).

  Lemma group_In_state cur l s : StronglySorted le (cur :: l) ->
    (In s (map fst (group cur l)) <-> In s (map fst (cur :: l))).
  Proof.
    revert cur. induction l as [|x r IH]; intros cur Hs; cbn [group]; [tauto|].
    inversion Hs as [|? ? Hs1 Hc]; subst. inversion Hs1 as [|? ? Hs2 Hx]; subst.
    destruct (N.eqb_spec (fst x) (fst cur)) as [E|E].
    - rewrite IH.
      + cbn [map In fst]. rewrite E. tauto.
      + constructor; auto. cbn [fst]. inversion Hc; auto.
    - cbn [map In]. rewrite IH by auto. cbn [map In]. tauto.
  Qed.
  Lemma group_sorted cur l : StronglySorted le (cur :: l) ->
    StronglySorted N.lt (map fst (group cur l)).
  Proof.
    revert cur. induction l as [|x r IH]; intros cur Hs; cbn [group].
    - constructor; constructor.
    - inversion Hs as [|? ? Hs1 Hc]; subst. inversion Hs1 as [|? ? Hs2 Hx]; subst.
      inversion Hc as [|? ? Hc1 Hc2]; subst.
      destruct (N.eqb_spec (fst x) (fst cur)) as [E|E].
      + apply IH. constructor; auto.
      + cbn [map]. constructor; auto. apply Forall_forall. intros s Hin.
        apply group_In_state in Hin; auto. cbn [map In] in Hin.
        assert (Q : (fst x <= s)%N).
        { destruct Hin as [<-|Hin]; [apply N.le_refl|]. apply in_map_iff in Hin.
          destruct Hin as (y & <- & Hy). rewrite Forall_forall in Hx. auto. }
        lia.
  Qed.
  Lemma group_val cur l s v : StronglySorted le (cur :: l) -> In (s, v) (group cur l) ->
    exists x xs, vals s (cur :: l) = x :: xs /\ v = fold_left op xs x.
  Proof.
    revert cur. induction l as [|x r IH]; intros cur Hs; cbn [group].
    - intros [->|[]]. cbn [vals filter fst]. unfold vals. cbn [filter fst]. rewrite N.eqb_refl.
      exists v, []. auto.
    - inversion Hs as [|? ? Hs1 Hc]; subst. inversion Hs1 as [|? ? Hs2 Hx]; subst.
      inversion Hc as [|? ? Hc1 Hc2]; subst. rewrite Forall_forall in Hx, Hc2.
      destruct (N.eqb_spec (fst x) (fst cur)) as [E|E]; intros Hin.
      + apply IH in Hin.
        2:{ constructor; auto. cbn [fst]. apply Forall_forall. auto. }
        destruct Hin as (y & ys & Ev & ->). unfold vals in *. cbn [filter fst] in *. rewrite E.
        destruct (N.eqb_spec (fst cur) s) as [<-|Ns].
        * cbn [map snd] in *. injection Ev as <- <-. eexists _, _. split; [reflexivity|]. reflexivity.
        * eauto.
      + destruct Hin as [->|Hin].
        * cbn [fst] in *. unfold vals. cbn [filter fst]. rewrite N.eqb_refl. cbn [map snd].
          destruct (N.eqb_spec (fst x) s); [congruence|].
          assert (Z : filter (fun p : N * Qc => (fst p =? s)%N) r = []).
          { clear -Hx Hc1 n. induction r as [|y r IH]; auto. cbn [filter].
            destruct (N.eqb_spec (fst y) s) as [Ey|Ey].
            - specialize (Hx y (or_introl eq_refl)). cbn [fst] in *. lia.
            - apply IH. intros; apply Hx; right; auto. }
          rewrite Z. exists v, []. auto.
        * assert (Q : In s (map fst (group x r))) by (apply in_map_iff; exists (s, v); auto).
          apply group_In_state in Q; auto. cbn [map In] in Q.
          assert (Q2 : (fst x <= s)%N).
          { destruct Q as [<-|Q]; [apply N.le_refl|]. apply in_map_iff in Q.
            destruct Q as (y & <- & Hy). auto. }
          apply IH in Hin; auto. destruct Hin as (y & ys & Ev & ->).
          unfold vals in *. cbn [filter] in *.
          destruct (N.eqb_spec (fst cur) s); [lia|]. eauto.
  Qed.
End GROUP.

Lemma unique_skip (x : contrib) zs l : Forall (fun z => fst z = fst x) zs ->
  unique_from same_state x (zs ++ l) = unique_from same_state x l.
Proof.
  induction 1 as [|z zs Hz H IH]; auto. cbn [app unique_from]. unfold same_state at 1.
  rewrite Hz, N.eqb_refl. exact IH.
Qed.
Lemma unique_from_diff (x : contrib) l : (forall y r, l = y :: r -> fst y <> fst x) ->
  unique_from same_state x l = std_unique same_state l.
Proof.
  destruct l as [|y r]; auto. intros H. cbn [unique_from std_unique]. unfold same_state at 1.
  specialize (H y r eq_refl). destruct (N.eqb_spec (fst x) (fst y)); [congruence|reflexivity].
Qed.

Lemma accumulate_group l : forall cur zs, Forall (fun z => fst z = fst cur) zs ->
  std_unique same_state (accumulate cur zs l) = group Qcplus cur l /\
  exists x r, accumulate cur zs l = x :: r /\ fst x = fst cur.
Proof.
  induction l as [|x r IH]; intros cur zs Hz; cbn [accumulate group].
  - split; eauto. cbn [std_unique]. rewrite <- (app_nil_r zs), unique_skip by auto. reflexivity.
  - destruct (N.eqb_spec (fst x) (fst cur)) as [E|E]; cbn [negb].
    + destruct (IH (fst cur, (snd cur + snd x)%Qc) (zs ++ [(fst x, 0%Qc)])) as [A B].
      * apply Forall_app. split; auto.
      * auto.
    + destruct (IH x [] (Forall_nil _)) as (A & (y & t & B & B')). split; [|eauto].
      cbn [std_unique]. rewrite unique_skip by auto. rewrite unique_from_diff; [f_equal; exact A|].
      intros y' t' Q. assert (B2 := eq_trans (eq_sym Q) B). injection B2 as -> ->. congruence.
Qed.
Lemma keep_max_group l : forall cur zs, Forall (fun z => fst z = fst cur) zs ->
  std_unique same_state (keep_max cur zs l) = group qmax cur l /\
  exists x r, keep_max cur zs l = x :: r /\ fst x = fst cur.
Proof.
  induction l as [|x r IH]; intros cur zs Hz; cbn [keep_max group].
  - split; eauto. cbn [std_unique]. rewrite <- (app_nil_r zs), unique_skip by auto. reflexivity.
  - destruct (N.eqb_spec (fst x) (fst cur)) as [E|E]; cbn [negb].
    + destruct (IH (fst cur, qmax (snd cur) (snd x)) (zs ++ [x])) as [A B].
      * apply Forall_app. split; auto.
      * auto.
    + destruct (IH x [] (Forall_nil _)) as (A & (y & t & B & B')). split; [|eauto].
      cbn [std_unique]. rewrite unique_skip by auto. rewrite unique_from_diff; [f_equal; exact A|].
      intros y' t' Q. assert (B2 := eq_trans (eq_sym Q) B). injection B2 as -> ->. congruence.
Qed.


(** sorting by state: for states of width W *)
Lemma sort_states W (l : list contrib) : (forall s, In s (map fst l) -> wf W s) ->
  always (std_sort (less W) l) (fun l' => Permutation l l' /\
    StronglySorted (fun x y => (fst x <= fst y)%N) l').
Proof.
  intros Hw.
  set (lt' := fun x y : contrib => (fst x <? fst y)%N).
  assert (E : forall x y, In x l -> In y l -> less W x y = lt' x y).
  { intros x y Hx Hy. unfold less. rewrite bitset_less_ok; auto; apply Hw, in_map; auto. }
  assert (C : forall m, (forall x, In x m -> In x l) ->
     (StronglySorted (fun x y => less W y x = false) m <-> StronglySorted (fun x y => (fst x <= fst y)%N) m)).
  { induction m as [|x m IH]; intros Hm; split; intros Q; constructor; inversion Q as [|? ? Q1 Q2]; subst.
    - apply IH; auto. intros; apply Hm; right; auto.
    - rewrite Forall_forall in *. intros y Hy. specialize (Q2 y Hy).
      rewrite E in Q2 by (apply Hm; cbn; auto). apply N.ltb_ge in Q2. auto.
    - apply IH; auto. intros; apply Hm; right; auto.
    - rewrite Forall_forall in *. intros y Hy. specialize (Q2 y Hy).
      rewrite E by (apply Hm; cbn; auto). apply N.ltb_ge. auto. }
  split.
  - assert (NT : forall x y z, lt' y x = false -> lt' z y = false -> lt' z x = false).
    { intros x y z H1 H2. unfold lt' in *. apply N.ltb_ge in H1, H2. apply N.ltb_ge. lia. }
    assert (AS : forall x y, lt' x y = true -> lt' y x = false).
    { intros x y H1. unfold lt' in *. apply N.ltb_lt in H1. apply N.ltb_ge. lia. }
    destruct (sort_exists lt' AS NT l) as (l' & P & Q). exists (Ok l'), l'. split; auto. split; auto. apply C.
    + intros x Hx. apply (Permutation_in x (Permutation_sym P)), Hx.
    + clear -Q. induction Q as [|x m Q IH F]; constructor; auto.
        rewrite Forall_forall in *. intros y Hy. specialize (F y Hy). apply N.ltb_ge in F. exact F.
  - intros r (l' & -> & P & Q). exists l'. split; auto. split; auto. apply C; auto.
    intros x Hx. apply (Permutation_in x (Permutation_sym P)), Hx.
Qed.

Lemma vals_perm s l l' : Permutation l l' -> Permutation (vals s l) (vals s l').
Proof.
  intros P. unfold vals. apply Permutation_map. induction P; cbn [filter]; auto.
  - destruct (_ =? _)%N; auto.
  - destruct (_ =? _)%N, (_ =? _)%N; auto. apply perm_swap.
  - etransitivity; eauto.
Qed.

Lemma fold_plus xs : forall x, fold_left Qcplus xs x = sum (x :: xs) (fun y => y).
Proof.
  induction xs as [|y xs IH]; intros x; cbn [fold_left].
  - cbn [sum]. ring.
  - rewrite IH. cbn [sum]. ring.
Qed.
Lemma qmax_or a b : qmax a b = a \/ qmax a b = b.
Proof. unfold qmax. destruct (qlt a b); auto. Qed.
Lemma qmax_l a b : (a <= qmax a b)%Qc.
Proof. unfold qmax. destruct (qlt_spec a b); [apply Qclt_le_weak; auto|apply Qcle_refl]. Qed.
Lemma qmax_r a b : (b <= qmax a b)%Qc.
Proof. unfold qmax. destruct (qlt_spec a b); [apply Qcle_refl|apply Qcnot_lt_le; auto]. Qed.
Lemma fold_max xs : forall x, In (fold_left qmax xs x) (x :: xs) /\
  forall y, In y (x :: xs) -> (y <= fold_left qmax xs x)%Qc.
Proof.
  induction xs as [|y xs IH]; intros x; cbn [fold_left].
  - split; [left; auto|]. intros z [->|[]]. apply Qcle_refl.
  - destruct (IH (qmax x y)) as [A B]. split.
    + destruct A as [A|A]; [|right; right; auto]. rewrite <- A.
      destruct (qmax_or x y) as [Q|Q]; rewrite Q; [left|right; left]; auto.
    + intros z [<-|[<-|Hz]].
      * eapply Qcle_trans; [apply qmax_l|]. apply B. left. reflexivity.
      * eapply Qcle_trans; [apply (qmax_r x)|]. apply B. left. reflexivity.
      * apply B. right. auto.
Qed.

Lemma sort_acc_ok W l : (forall s, In s (map fst l) -> wf W s) ->
  always (sort_and_accumulate W l) (fun out =>
    StronglySorted N.lt (map fst out) /\
    (forall s, In s (map fst out) <-> In s (map fst l)) /\
    forall s v, In (s, v) out -> v = score l s).
Proof.
  intros Hw. unfold sort_and_accumulate. destruct l as [|c0 r0].
  - apply always_ret. cbn. split; [constructor|]. split; [tauto|]. intros ? ? [].
  - eapply always_bind; [apply sort_states; auto|]. intros l' (P & Q). apply always_ret.
    destruct l' as [|c r].
    { apply Permutation_length in P. discriminate. }
    destruct (accumulate_group r c [] (Forall_nil _)) as [-> _].
    split; [apply group_sorted, Q|]. split.
    + intros s. rewrite group_In_state by auto. split; intros H.
      * eapply Permutation_in; [apply Permutation_sym, Permutation_map, P|exact H].
      * eapply Permutation_in; [apply Permutation_map, P|exact H].
    + intros s v Hv. apply group_val in Hv; auto. destruct Hv as (x & xs & E & ->).
      rewrite fold_plus. unfold score. rewrite <- E. apply sum_perm. apply vals_perm, Permutation_sym, P.
Qed.

Lemma keep_largest_ok W l : (forall s, In s (map fst l) -> wf W s) ->
  always (keep_only_largest_copy W l) (fun out =>
    StronglySorted N.lt (map fst out) /\
    (forall s, In s (map fst out) <-> In s (map fst l)) /\
    forall s v, In (s, v) out -> In (s, v) l /\ forall w, In (s, w) l -> (w <= v)%Qc).
Proof.
  intros Hw. unfold keep_only_largest_copy. destruct l as [|c0 r0].
  - apply always_ret. cbn. split; [constructor|]. split; [tauto|]. intros ? ? [].
  - eapply always_bind; [apply sort_states; auto|]. intros l' (P & Q). apply always_ret.
    destruct l' as [|c r].
    { apply Permutation_length in P. discriminate. }
    destruct (keep_max_group r c [] (Forall_nil _)) as [-> _].
    split; [apply group_sorted, Q|]. split.
    + intros s. rewrite group_In_state by auto. split; intros H.
      * eapply Permutation_in; [apply Permutation_sym, Permutation_map, P|exact H].
      * eapply Permutation_in; [apply Permutation_map, P|exact H].
    + intros s v Hv. apply group_val in Hv; auto. destruct Hv as (x & xs & E & ->).
      destruct (fold_max xs x) as [A B]. rewrite <- E in A, B.
      assert (V : forall w, In w (vals s (c :: r)) <-> In (s, w) (c0 :: r0)).
      { intros w. unfold vals. rewrite in_map_iff. split.
        - intros ([s' w'] & E1 & E2). apply filter_In in E2. destruct E2 as [E2 E3].
          apply N.eqb_eq in E3. cbn [fst snd] in *. subst.
          eapply Permutation_in; [apply Permutation_sym, P|exact E2].
        - intros H. exists (s, w). split; auto. apply filter_In. cbn [fst]. rewrite N.eqb_refl.
          split; auto. eapply Permutation_in; [apply P|exact H]. }
      split; [apply V, A|]. intros w Hw'. apply B, V, Hw'.
Qed.

(** ** reorder_ci_on_coeff *)
Lemma map_nth_seq {A} (l : list A) d : map (fun i => nth i l d) (seq 0 (length l)) = l.
Proof.
  induction l as [|a l IH]; auto. cbn [length seq map nth]. f_equal.
  rewrite <- seq_shift, map_map. exact IH.
Qed.
Lemma combine_map {A B C} (f : A -> B) (g : A -> C) l :
  combine (map f l) (map g l) = map (fun a => (f a, g a)) l.
Proof. induction l as [|a l IH]; auto. cbn. f_equal. exact IH. Qed.

Lemma reorder_ok dets C : length dets = length C ->
  always (reorder_ci_on_coeff dets C) (fun dC =>
    length (fst dC) = length (snd dC) /\
    Permutation (combine dets C) (combine (fst dC) (snd dC)) /\
    StronglySorted (fun x y => (Qcabs y <= Qcabs x)%Qc) (snd dC)).
Proof.
  intros L. unfold reorder_ci_on_coeff. set (c := fun i => nth i C 0%Qc).
  eapply always_bind.
  - apply std_sort_always.
    { intros x y H. apply qlt_true in H. apply qlt_false. apply Qclt_le_weak, H. }
    intros x y z H1 H2. apply qlt_false in H1, H2. apply qlt_false.
    eapply Qcle_trans; [exact H2|exact H1].
  - intros idx [P Q]. rewrite <- L, Nat.eqb_refl. apply always_ret. cbn [fst snd].
    split; [rewrite !map_length; auto|]. split.
    + rewrite combine_map. rewrite <- (map_nth_seq dets 0%N) at 1. rewrite <- (map_nth_seq C 0%Qc) at 1.
      rewrite L, combine_map. apply Permutation_map, P.
    + clear P. induction Q as [|i idx Q IH F]; cbn [map]; constructor; auto.
      rewrite Forall_forall in *. intros y Hy. apply in_map_iff in Hy. destruct Hy as (j & <- & Hj).
      specialize (F j Hj). apply qlt_false in F. exact F.
Qed.
Lemma reorder_size_mismatch dets C r : length dets <> length C ->
  reorder_ci_on_coeff dets C r -> r = Err AssertFail.
Proof.
  intros L [(e & He & _)|(idx & _ & H)]; [destruct He as (l & Ee & _); discriminate Ee|].
  destruct (Nat.eqb_spec (length C) (length dets)); [congruence|]. exact H.
Qed.
